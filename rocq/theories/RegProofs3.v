(** The reported frequencies as functions of the regulariser (C147). *)
From Coq Require Import Lra Lia Permutation List.
From Verif Require Import Py CBase PhcModel SlabModel SlabSpec MatElModel MatElSpec MatElProofs3 RunModel RunSpec RunSpec2 GinvSpec GinvProofs5
  PweProofs2 RunProofs2 RunProofs5 RunProofs11 RegSpec RegProofs RegProofs2.
Open Scope R_scope.
Open Scope list_scope.

(** ** the b-th smallest of a list, by counting *)
Definition below (x : R) (l : list R) : nat := List.length (filter (fun y => Rltb y x) l).
Definition upto (x : R) (l : list R) : nat := List.length (filter (fun y => Rleb y x) l).
Lemma filter_perm {A} (f : A -> bool) l m : Permutation l m -> Permutation (filter f l) (filter f m).
Proof.
  induction 1 as [|x l m P IH|x y l|l m q P1 IH1 P2 IH2]; cbn [filter]; [constructor| | |eapply perm_trans; eauto].
  - destruct (f x); [constructor|]; auto.
  - destruct (f x), (f y); try apply Permutation_refl. constructor.
Qed.
Lemma below_perm x l m : Permutation l m -> below x l = below x m.
Proof. intros P. apply Permutation_length, filter_perm, P. Qed.
Lemma upto_perm x l m : Permutation l m -> upto x l = upto x m.
Proof. intros P. apply Permutation_length, filter_perm, P. Qed.
Lemma filter_none {A} (f : A -> bool) l : (forall x, In x l -> f x = false) -> filter f l = [].
Proof. induction l as [|a l IH]; intros H; [reflexivity|]. cbn [filter]. rewrite H by (left; auto). apply IH. intros; apply H; right; auto. Qed.
Lemma filter_every {A} (f : A -> bool) l : (forall x, In x l -> f x = true) -> filter f l = l.
Proof. induction l as [|a l IH]; intros H; [reflexivity|]. cbn [filter]. rewrite H by (left; auto). f_equal. apply IH. intros; apply H; right; auto. Qed.
Lemma filter_len {A} (f : A -> bool) l : (List.length (filter f l) <= List.length l)%nat.
Proof. induction l as [|a l IH]; [auto|]. cbn [filter]. destruct (f a); cbn [List.length]; lia. Qed.
Lemma asc_le l i j : ascending l -> (i <= j < List.length l)%nat -> nth i l 0 <= nth j l 0.
Proof. intros H [I J]. destruct (Nat.eq_dec i j) as [->|Ne]; [lra|]. apply H. lia. Qed.
Lemma in_firstn_nth (l : list R) b x : In x (firstn b l) -> exists i, (i < b)%nat /\ (i < List.length l)%nat /\ x = nth i l 0.
Proof.
  intros H. apply (In_nth _ _ 0) in H. destruct H as (i & Hi & <-). rewrite firstn_length in Hi. exists i. split; [lia|]. split; [lia|].
  rewrite <- (firstn_skipn b l) at 2. rewrite app_nth1; [reflexivity|rewrite firstn_length; lia].
Qed.
Lemma in_skipn_nth (l : list R) b x : In x (skipn b l) -> exists i, (b <= i < List.length l)%nat /\ x = nth i l 0.
Proof.
  intros H. apply (In_nth _ _ 0) in H. destruct H as (i & Hi & <-). rewrite skipn_length in Hi. exists (b + i)%nat. split; [lia|].
  rewrite <- (firstn_skipn b l) at 2. rewrite app_nth2; rewrite firstn_length; [f_equal; lia|lia].
Qed.
Lemma below_nth xs rest b : ascending xs -> (b < List.length xs)%nat -> (forall x y, In x xs -> In y rest -> x <= y) -> (below (nth b xs 0%R) (xs ++ rest) <= b)%nat.
Proof.
  intros As Hb Hr. set (v := nth b xs 0). unfold below. rewrite filter_app, app_length. rewrite (filter_none _ rest).
  2:{ intros y Hy. apply Rltb_false, Hr; auto. apply nth_In; auto. }
  rewrite <- (firstn_skipn b xs) at 1. rewrite filter_app, app_length. rewrite (filter_none _ (skipn b xs)).
  2:{ intros y Hy. destruct (in_skipn_nth _ _ _ Hy) as (i & Hi & ->). apply Rltb_false, asc_le; auto; lia. }
  cbn [List.length]. pose proof (filter_len (fun y => Rltb y v) (firstn b xs)). pose proof (firstn_le_length b xs). rewrite firstn_length in *. lia.
Qed.
Lemma upto_nth xs rest b : ascending xs -> (b < List.length xs)%nat -> (b < upto (nth b xs 0%R) (xs ++ rest))%nat.
Proof.
  intros As Hb. set (v := nth b xs 0). unfold upto. rewrite filter_app, app_length. rewrite <- (firstn_skipn (S b) xs) at 1. rewrite filter_app, app_length.
  rewrite (filter_every _ (firstn (S b) xs)).
  2:{ intros y Hy. destruct (in_firstn_nth _ _ _ Hy) as (i & Hi & Hi' & ->). apply Rleb_true, asc_le; auto; lia. }
  rewrite firstn_length. lia.
Qed.
Lemma upto_below L L' x y c : List.length L = List.length L' -> (forall j, (j < List.length L)%nat -> nth j L' 0 <= nth j L 0 + c) -> x + c < y -> (upto x L <= below y L')%nat.
Proof.
  unfold upto, below. revert L'. induction L as [|a L IH]; intros [|a' L'] HL H Hx; try discriminate; [auto|].
  cbn [filter]. pose proof (H 0%nat ltac:(cbn; lia)) as H0. cbn [nth] in H0.
  assert (R : (List.length (filter (fun y => Rleb y x) L) <= List.length (filter (fun z => Rltb z y) L'))%nat) by (apply IH; [cbn in HL; lia|intros j Hj; apply (H (S j)); cbn; lia|auto]).
  destruct (Rleb a x) eqn:E.
  - apply Rleb_true in E. rewrite (proj2 (Rltb_true a' y)) by lra. cbn [List.length]. lia.
  - destruct (Rltb a' y); cbn [List.length]; lia.
Qed.
(** xs: the smallest entries of a list that is close to another, whose smallest entries are xs' *)
Lemma smallest_close L L' xs rest xs' rest' c : List.length L = List.length L' -> (forall j, (j < List.length L)%nat -> Rabs (nth j L' 0 - nth j L 0) <= c) ->
  Permutation (xs ++ rest) L -> Permutation (xs' ++ rest') L' -> ascending xs -> ascending xs' ->
  (forall x y, In x xs -> In y rest -> x <= y) -> (forall x y, In x xs' -> In y rest' -> x <= y) ->
  forall b, (b < List.length xs)%nat -> (b < List.length xs')%nat -> Rabs (nth b xs' 0 - nth b xs 0) <= c.
Proof.
  assert (One : forall L L' xs rest xs' rest', List.length L = List.length L' -> (forall j, (j < List.length L)%nat -> Rabs (nth j L' 0 - nth j L 0) <= c) ->
    Permutation (xs ++ rest) L -> Permutation (xs' ++ rest') L' -> ascending xs -> ascending xs' -> (forall x y, In x xs' -> In y rest' -> x <= y) ->
    forall b, (b < List.length xs)%nat -> (b < List.length xs')%nat -> nth b xs' 0 <= nth b xs 0 + c).
  { clear. intros L L' xs rest xs' rest' HL H P P' As As' Hr b Hb Hb'. apply Rnot_lt_le. intros G.
    pose proof (upto_nth xs rest b As Hb) as U. rewrite (upto_perm _ _ _ P) in U.
    pose proof (below_nth xs' rest' b As' Hb' Hr) as W. rewrite (below_perm _ _ _ P') in W.
    pose proof (upto_below L L' (nth b xs 0) (nth b xs' 0) c HL) as X. assert (Y := fun h => X h G). 
    assert ((upto (nth b xs 0%R) L <= below (nth b xs' 0%R) L')%nat); [apply Y; intros j Hj; specialize (H j Hj); pose proof (Rle_abs (nth j L' 0 - nth j L 0)); lra|lia]. }
  intros HL H P P' As As' Hr Hr' b Hb Hb'. apply Rabs_le. split.
  - pose proof (One L' L xs' rest' xs rest (eq_sym HL) (fun j Hj => ltac:(rewrite Rabs_minus_sym; apply H; lia)) P' P As' As Hr b Hb' Hb). lra.
  - pose proof (One L L' xs rest xs' rest' HL H P P' As As' Hr' b Hb Hb'). lra.
Qed.

(** ** the reported frequencies are the smallest *)
Lemma freq_le a b : freq_of a <= freq_of b <-> Rabs a <= Rabs b.
Proof.
  unfold freq_of. assert (P : 0 < 2 * PI) by (pose proof PI_RGT_0; lra). split; intros H.
  - apply sqrt_le_0; try apply Rabs_pos. apply (Rmult_le_reg_r (/ (2 * PI))); [apply Rinv_0_lt_compat; auto|exact H].
  - apply Rmult_le_compat_r; [apply Rlt_le, Rinv_0_lt_compat; auto|]. apply sqrt_le_1_alt, H.
Qed.
Lemma freq_pos a : 0 <= freq_of a.
Proof. unfold freq_of. apply Rmult_le_pos; [apply sqrt_pos|]. apply Rlt_le, Rinv_0_lt_compat. pose proof PI_RGT_0. lra. Qed.
Lemma freq_sq a : freq_of a * freq_of a = Rabs a / (4 * (PI * PI)).
Proof.
  unfold freq_of. assert (PI <> 0) by (pose proof PI_RGT_0; lra). replace (Rabs a) with (sqrt (Rabs a) * sqrt (Rabs a)) at 3 by (apply sqrt_sqrt, Rabs_pos). field. auto.
Qed.
Lemma map_seq_nth {A} (f : R -> A) (l : list R) : map (fun j => f (nth j l 0)) (seq 0 (List.length l)) = map f l.
Proof.
  induction l as [|a l IH]; [reflexivity|]. cbn [List.length seq map nth]. f_equal. rewrite <- seq_shift, map_map. exact IH.
Qed.
Lemma NoDup_app_intro {A} (l m : list A) : NoDup l -> NoDup m -> (forall x, In x l -> In x m -> False) -> NoDup (l ++ m).
Proof.
  induction l as [|a l IH]; intros H1 H2 H; [exact H2|]. inversion H1; subst. cbn [app]. constructor; [|apply IH; auto; intros x X1 X2; apply (H x); [right|]; auto].
  rewrite in_app_iff. intros [X|X]; [contradiction|]. apply (H a); [left|]; auto.
Qed.
Lemma smallest_of n k ls idx : List.length ls = n -> nearest n k (fun j => Rabs (freq_of (nth j ls 0) - 0)) idx ->
  exists rest, Permutation (map (fun j => Rabs (nth j ls 0)) idx ++ rest) (map Rabs ls) /\
    forall x y, In x (map (fun j => Rabs (nth j ls 0)) idx) -> In y rest -> x <= y.
Proof.
  intros L (_ & ND & Hi & Hn). set (g := fun j => Rabs (nth j ls 0)). set (q := filter (fun j => negb (if in_dec Nat.eq_dec j idx then true else false)) (seq 0 n)).
  assert (Iq : forall j, In j q <-> (j < n)%nat /\ ~ In j idx).
  { intros j. unfold q. rewrite filter_In, in_seq. destruct (in_dec Nat.eq_dec j idx); cbn; split; intros [H1 H2]; try discriminate; try contradiction; split; auto; lia. }
  exists (map g q). split.
  - rewrite <- (map_seq_nth Rabs ls), L. fold g. rewrite <- map_app. apply Permutation_map. apply NoDup_Permutation; [|apply seq_NoDup|].
    + apply NoDup_app_intro; [auto|apply NoDup_filter, seq_NoDup|]. intros x Hx Hq. apply Iq in Hq. tauto.
    + intros x. rewrite in_app_iff, Iq, in_seq. split; [intros [H|[H _]]; [specialize (Hi x H); lia|lia]|]. intros H. destruct (in_dec Nat.eq_dec x idx); [auto|right; split; [lia|auto]].
  - intros x y Hx Hy. apply in_map_iff in Hx, Hy. destruct Hx as (i & <- & I1). destruct Hy as (j & <- & J1). apply Iq in J1. destruct J1 as [J1 J2].
    specialize (Hn i j I1 J1 J2). cbn beta in Hn. rewrite !Rminus_0_r, !(Rabs_pos_eq (freq_of _)) in Hn by apply freq_pos. apply freq_le. exact Hn.
Qed.
Lemma nth_map_in {A B} (f : A -> B) l b x y : (b < List.length l)%nat -> nth b (map f l) x = f (nth b l y).
Proof. intros H. rewrite (nth_indep _ x (f y)) by (rewrite map_length; auto). apply map_nth. Qed.

Lemma reports_close n k A A' c ls V idx fs vs ls' V' idx' fs' vs' :
  (forall i j, (i < n)%nat -> (j < n)%nat -> A i j = Cconj (A j i)) -> (forall i j, (i < n)%nat -> (j < n)%nat -> A' i j = Cconj (A' j i)) ->
  0 <= c -> (forall i j, (i < n)%nat -> (j < n)%nat -> Cmod (A' i j - A i j)%C <= c) ->
  reports n A ls V idx fs vs -> nearest n k (fun j => Rabs (freq_of (nth j ls 0) - 0)) idx ->
  reports n A' ls' V' idx' fs' vs' -> nearest n k (fun j => Rabs (freq_of (nth j ls' 0) - 0)) idx' ->
  List.length fs = k /\ List.length fs' = k /\
  forall b, (b < k)%nat -> Rabs (nth b fs' 0 * nth b fs' 0 - nth b fs 0 * nth b fs 0) <= INR n * c / (4 * (PI * PI)).
Proof.
  intros HA HA' Hc Hd (E & -> & As & _) Nr (E' & -> & As' & _) Nr'. rewrite !map_length.
  assert (L := proj1 Nr). assert (L' := proj1 Nr'). split; [auto|]. split; [auto|].
  destruct ascending_exists as (eigh & D & Ae).
  pose proof (eig_close n A A' _ _ _ _ c (D n A HA) (Ae n A HA) (D n A' HA') (Ae n A' HA') Hc Hd) as Cl.
  pose proof (eigs_unique n A _ _ _ _ (D n A HA) E) as P. pose proof (eigs_unique n A' _ _ _ _ (D n A' HA') E') as P'.
  set (es := fst (eigh n A)) in *. set (es' := fst (eigh n A')) in *.
  assert (Le : List.length es = n) by (rewrite <- (Permutation_length P); apply E). assert (Le' : List.length es' = n) by (rewrite <- (Permutation_length P'); apply E').
  destruct (smallest_of n k ls idx (proj1 E) Nr) as (rest & S1 & S2). destruct (smallest_of n k ls' idx' (proj1 E') Nr') as (rest' & S1' & S2').
  assert (AA : forall ls idx, ascending (map (fun j => freq_of (nth j ls 0)) idx) -> ascending (map (fun j => Rabs (nth j ls 0)) idx)).
  { clear. intros ls idx H i j [I J]. rewrite map_length in J. specialize (H i j). rewrite map_length in H. specialize (H (conj I J)).
    rewrite !(nth_map_in _ idx _ 0 0%nat) in H by lia. rewrite !(nth_map_in _ idx _ 0 0%nat) by lia. apply freq_le, H. }
  intros b Hb. rewrite (nth_map_in _ idx' _ 0 0%nat), (nth_map_in _ idx _ 0 0%nat) by lia. rewrite !freq_sq.
  assert (X : Rabs (nth b (map (fun j => Rabs (nth j ls' 0)) idx') 0 - nth b (map (fun j => Rabs (nth j ls 0)) idx) 0) <= INR n * c).
  { apply (smallest_close (map Rabs es) (map Rabs es') _ rest _ rest'); auto; try (rewrite !map_length; lia).
    - rewrite map_length. intros j Hj. rewrite !(nth_map_in _ _ _ 0 0) by lia. eapply Rle_trans; [apply Rabs_triang_inv2|]. apply Cl. lia.
    - eapply perm_trans; [exact S1|]. apply Permutation_map. exact P.
    - eapply perm_trans; [exact S1'|]. apply Permutation_map. exact P'. }
  rewrite (nth_map_in _ idx' _ 0 0%nat), (nth_map_in _ idx _ 0 0%nat) in X by lia. assert (P0 : 0 < 4 * (PI * PI)) by (pose proof PI_RGT_0; nra).
  replace (Rabs (nth (nth b idx' 0%nat) ls' 0) / (4 * (PI * PI)) - Rabs (nth (nth b idx 0%nat) ls 0) / (4 * (PI * PI))) with ((Rabs (nth (nth b idx' 0%nat) ls' 0) - Rabs (nth (nth b idx 0%nat) ls 0)) / (4 * (PI * PI))) by (field; pose proof PI_RGT_0; lra).
  unfold Rdiv. rewrite Rabs_mult, (Rabs_pos_eq (/ _)) by (apply Rlt_le, Rinv_0_lt_compat; auto). apply Rmult_le_compat_r; [apply Rlt_le, Rinv_0_lt_compat; auto|exact X].
Qed.

(** ** runs with and without the regulariser *)
Lemma finite_const (n : nat) (Q : nat -> R -> Prop) : (forall i K K', Q i K -> K <= K' -> Q i K') -> (forall i, (i < n)%nat -> exists K, 0 <= K /\ Q i K) ->
  exists K, 0 <= K /\ forall i, (i < n)%nat -> Q i K.
Proof.
  intros Mo. induction n as [|n IH]; intros H; [exists 0; split; [lra|intros; lia]|].
  destruct IH as (K & K0 & HK); [intros; apply H; lia|]. destruct (H n ltac:(lia)) as (L & L0 & HL).
  exists (K + L). split; [lra|]. intros i Hi. destruct (Nat.eq_dec i n) as [->|Ne]; [apply (Mo n L); [auto|lra]|apply (Mo i K); [apply HK; lia|lra]].
Qed.
Section Runs.
Variables (argsort : list R -> list nat) (eigh : nat -> cmat -> list R * cmat) (eigsh : nat -> cmat -> nat -> R -> result (list R * cmat)) (inv : nat -> cmat -> cmat) (root : (R -> R) -> R -> R -> R).
Hypothesis Hs : sorts argsort.
Hypothesis He : diagonalises eigh.
Notation run' dl := (run argsort eigh eigsh inv root dl).

Definition mode_tables (d : dev) (o : opts) (ks : list (R * R)) (k : R * R) (eps garr : list R) (te tm : gtable) : Prop :=
  exact_modes o = true /\ compute_guided root o eps (d_list d) (exact_grid d o k) = Ok (garr, te, tm) \/
  interp_modes o = true /\ compute_guided root o eps (d_list d) (interp_grid d o ks) = Ok (garr, te, tm).
Lemma matrix_same d o ks eps garr einv k te tm eps' te' tm' mat' dl : eps_list d o = Ok eps -> mode_tables d o ks k eps garr te tm ->
  matrix_at root dl d o ks eps' einv k te' tm' mat' ->
  construct_mat dl (dv_gvec d) k (o_dgx o) (o_inds o) garr te tm eps (d_list d) einv = Ok mat'.
Proof.
  intros E1 G (E1' & garr' & G' & H'). rewrite E1 in E1'. injection E1' as <-.
  assert (X : garr' = garr /\ te' = te /\ tm' = tm).
  { unfold mode_tables, exact_modes, interp_modes in *. destruct G as [[M G]|[M G]], G' as [[M' G']|[M' G']]; try (apply String.eqb_eq in M, M'; rewrite M in M'; discriminate); rewrite G in G'; injection G' as <- <- <-; auto. }
  destruct X as (-> & -> & ->). exact H'.
Qed.

Lemma reg_run d o ks an s : o_solver o = "eigh"%string -> o_symm o = None -> o_sigma o = 0 -> dv_gvec d <> [] -> Forall (fun x => 0 <= x) (d_list d) ->
  (forall eps garr te tm k, In k ks -> eps_for d o eps -> tables_for root d o ks k eps garr te tm -> decaying_at (dv_gvec d) k (o_dgx o) (o_inds o) garr te tm eps) ->
  exists K, 0 <= K /\ forall dl s0 s1, 0 <= dl <= 1 -> run' 0 d o ks an s = (s0, Ok tt) -> run' dl d o ks an s = (s1, Ok tt) ->
    forall ik, (ik < List.length ks)%nat -> List.length (nth ik (g_freqs s0) []) = o_numeig o /\ List.length (nth ik (g_freqs s1) []) = o_numeig o /\
    forall b, (b < o_numeig o)%nat ->
      Rabs (nth b (nth ik (g_freqs s1) []) 0 * nth b (nth ik (g_freqs s1) []) 0 - nth b (nth ik (g_freqs s0) []) 0 * nth b (nth ik (g_freqs s0) []) 0) <= K * dl.
Proof.
  intros E1 E2 E3 Hg Hd Dc. destruct (run' 0 d o ks an s) as [s0 [[]|e]] eqn:R0; [|exists 0; split; [lra|intros dl s2 s1 _ X; discriminate]].
  destruct (finite_const (List.length ks) (fun ik K => forall dl s1, 0 <= dl <= 1 -> run' dl d o ks an s = (s1, Ok tt) ->
     List.length (nth ik (g_freqs s0) []) = o_numeig o /\ List.length (nth ik (g_freqs s1) []) = o_numeig o /\
     forall b, (b < o_numeig o)%nat ->
      Rabs (nth b (nth ik (g_freqs s1) []) 0 * nth b (nth ik (g_freqs s1) []) 0 - nth b (nth ik (g_freqs s0) []) 0 * nth b (nth ik (g_freqs s0) []) 0) <= K * dl)) as (K & K0 & HK).
  - intros ik K K' H L dl s1 Hdl R1. destruct (H dl s1 Hdl R1) as (H1 & H2 & H3). split; [auto|]. split; [auto|]. intros b Hb. eapply Rle_trans; [apply H3; auto|]. apply Rmult_le_compat_r; lra.
  - intros ik Hik. destruct (nth_error ks ik) as [k|] eqn:Ek; [|apply nth_error_None in Ek; lia].
    destruct (C38_run argsort eigh eigsh inv root 0 Hs d o ks an s s0 He E1 E2 R0) as (_ & _ & Q).
    destruct (Q ik k Ek) as (eps & einv & te & tm & mat & ls & V & idx & M1 & M2 & M3 & M4).
    destruct M1 as (Ee & garr & G & T3). assert (T1 := eps_list_for _ _ _ Ee).
    assert (T2 : tables_for root d o ks k eps garr te tm) by (apply guided_tables; [intros ->; destruct ik; discriminate|exact Hg|exact G]).
    destruct (matrix_close (dv_gvec d) k (o_dgx o) (o_inds o) garr te tm eps (d_list d) einv mat (Dc _ _ _ _ _ (nth_error_In _ _ Ek) T1 T2) Hd T3) as (K & K0 & HK).
    exists (INR (nr mat) * K / (4 * (PI * PI))).
    assert (P0 : 0 < 4 * (PI * PI)) by (pose proof PI_RGT_0; nra).
    split; [apply Rmult_le_pos; [apply Rmult_le_pos; [apply pos_INR|auto]|apply Rlt_le, Rinv_0_lt_compat; auto]|].
    intros dl s1 Hdl R1.
    destruct (C38_run argsort eigh eigsh inv root dl Hs d o ks an s s1 He E1 E2 R1) as (_ & _ & Q').
    destruct (Q' ik k Ek) as (eps' & einv' & te' & tm' & mat' & ls' & V' & idx' & M1' & M2' & M3' & M4').
    assert (EE : einv' = einv).
    { destruct (run_ok argsort eigh eigsh inv root 0 d o ks an s s0 R0) as (? & ? & x & _ & _ & X1 & X2 & _).
      destruct (run_ok argsort eigh eigsh inv root dl d o ks an s s1 R1) as (? & ? & x' & _ & _ & X1' & X2' & _). congruence. }
    subst einv'. pose proof (matrix_same d o ks eps garr einv k te tm eps' te' tm' mat' dl Ee G M1') as C2.
    destruct (HK dl Hdl) as (mat'' & C3 & N1 & _ & Cl). rewrite C2 in C3. injection C3 as <-.
    rewrite N1 in M3', M4'. rewrite E3 in M4, M4'.
    destruct (matrix_lip (dv_gvec d) k (o_dgx o) (o_inds o) garr te tm eps (d_list d) einv mat (Dc _ _ _ _ _ (nth_error_In _ _ Ek) T1 T2) Hd T3) as (Hh & _).
    destruct (Hh 0) as (y & Y1 & _ & _ & Y2). rewrite T3 in Y1. injection Y1 as <-. destruct (Hh dl) as (z & Z1 & _ & _ & Z2). rewrite C2 in Z1. injection Z1 as <-.
    destruct (reports_close (nr mat) (o_numeig o) (ent mat) (ent mat') (K * dl) ls V idx _ _ ls' V' idx' _ _ (fun i j _ _ => Y2 i j) (fun i j _ _ => Z2 i j) ltac:(apply Rmult_le_pos; lra) Cl M3 M4 M3' M4') as (F1 & F2 & F3).
    split; [exact F1|]. split; [exact F2|]. intros b Hb. eapply Rle_trans; [apply F3; exact Hb|]. right. unfold Rdiv. ring.
  - exists K. split; [auto|]. intros dl s2 s1 Hdl X R1 ik Hik. injection X as <-. apply (HK ik Hik dl s1 Hdl R1).
Qed.
End Runs.
