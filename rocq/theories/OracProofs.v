(** The contracts assumed of numpy's and scipy's routines can be met: sorting,
    inversion, diagonalisation. *)
From Coq Require Import Classical ClassicalEpsilon Permutation.
From Coquelicot Require Import Coquelicot.
From Verif Require Import Py CBase SymSpec RunSpec RecipSpec PolSpec LinProofs LinProofs2 LinProofs3.
Open Scope R_scope.

(** ** argsort *)
Section Sort.
Variables (X : Type) (le : X -> X -> Prop).
Hypothesis total : forall x y, le x y \/ le y x.
Hypothesis trans : forall x y z, le x y -> le y z -> le x z.
Fixpoint sorted (l : list X) : Prop := match l with [] => True | x :: t => (forall y, In y t -> le x y) /\ sorted t end.
Lemma sort_list l : exists l', Permutation l' l /\ sorted l'.
Proof.
  induction l as [|x l (l' & HP & HS)]; [exists []; split; [constructor|exact Logic.I]|].
  assert (Ins : forall m, sorted m -> exists m', Permutation m' (x :: m) /\ sorted m').
  { induction m as [|y m IH]; intros Hm; [exists [x]; split; [reflexivity|split; [intros ? []|exact Logic.I]]|].
    destruct Hm as [H1 H2]. destruct (classic (le x y)) as [L|L].
    - exists (x :: y :: m). split; [reflexivity|]. split; [|split; assumption]. intros z [<-|Hz]; [exact L|]. apply (trans x y z L). apply H1. exact Hz.
    - destruct (IH H2) as (m' & P' & S'). exists (y :: m'). split; [rewrite P'; constructor|]. split; [|exact S'].
      intros z Hz. apply (Permutation_in _ P') in Hz. destruct Hz as [<-|Hz]; [|apply H1; exact Hz]. destruct (total x y); [contradiction|assumption]. }
  destruct (Ins l' HS) as (m & Pm & Sm). exists m. split; [|exact Sm]. rewrite Pm, HP. reflexivity.
Qed.
Lemma sorted_nth d l : sorted l -> forall i j, (i < j < List.length l)%nat -> le (nth i l d) (nth j l d).
Proof.
  induction l as [|x l IH]; intros H i j Hij; [cbn in Hij; lia|]. destruct H as [H1 H2]. destruct i as [|i]; destruct j as [|j]; [lia| |lia|].
  - cbn [nth]. apply H1. apply nth_In. cbn in Hij. lia.
  - cbn [nth]. apply IH; [exact H2|cbn in Hij; lia].
Qed.
End Sort.

Lemma argsort_exists {A} (le : A -> A -> Prop) (d : A) : (forall x y, le x y \/ le y x) -> (forall x y z, le x y -> le y z -> le x z) ->
  forall l : list A, exists idx, Permutation idx (seq 0 (List.length l)) /\
  forall i j, (i < j < List.length idx)%nat -> le (nth (nth i idx 0%nat) l d) (nth (nth j idx 0%nat) l d).
Proof.
  intros Ht Htr l. destruct (sort_list nat (fun i j => le (nth i l d) (nth j l d)) ltac:(intros; apply Ht) ltac:(intros x y z; apply Htr) (seq 0 (List.length l))) as (idx & HP & HS).
  exists idx. split; [exact HP|]. intros i j Hij. exact (sorted_nth nat _ 0%nat idx HS i j Hij).
Qed.

Lemma nth_map0 {A B} (f : A -> B) l i da db : (i < List.length l)%nat -> nth i (map f l) db = f (nth i l da).
Proof. intros H. rewrite (nth_indep _ db (f da)) by (rewrite map_length; exact H). apply map_nth. Qed.

Lemma sorts_exists : exists argsort, sorts argsort.
Proof.
  assert (E : forall l, exists idx, Permutation idx (seq 0 (List.length l)) /\ ascending (map (fun i => nth i l 0) idx)).
  { intros l. destruct (argsort_exists Rle 0 ltac:(intros x y; destruct (Rle_dec x y); [auto|right; lra]) Rle_trans l) as (idx & HP & HS).
    exists idx. split; [exact HP|]. intros i j Hij. rewrite map_length in Hij.
    rewrite (nth_map0 _ idx i 0%nat 0) by lia. rewrite (nth_map0 _ idx j 0%nat 0) by lia. apply HS. exact Hij. }
  exists (fun l => proj1_sig (constructive_indefinite_description _ (E l))). intros l. exact (proj2_sig (constructive_indefinite_description _ (E l))).
Qed.

Lemma cle_total x y : cle x y \/ cle y x.
Proof. unfold cle. destruct (Rtotal_order (fst x) (fst y)) as [H|[H|H]]; [tauto| |tauto]. destruct (Rle_dec (snd x) (snd y)); [left; right; auto|right; right; split; [auto|lra]]. Qed.
Lemma cle_trans x y z : cle x y -> cle y z -> cle x z.
Proof. unfold cle. intros [H1|[H1 H2]] [H3|[H3 H4]]; [left; lra|left; lra|left; lra|right; split; lra]. Qed.
Lemma csorts_exists : exists cargsort, csorts cargsort.
Proof.
  assert (E : forall l, exists idx, Permutation idx (seq 0 (List.length l)) /\ cascending (map (fun i => nth i l (RtoC 0)) idx)).
  { intros l. destruct (argsort_exists cle (RtoC 0) cle_total cle_trans l) as (idx & HP & HS).
    exists idx. split; [exact HP|]. intros i j Hij. rewrite map_length in Hij.
    rewrite (nth_map0 _ idx i 0%nat (RtoC 0)) by lia. rewrite (nth_map0 _ idx j 0%nat (RtoC 0)) by lia.
    destruct (Nat.eq_dec i j) as [->|]; [right; split; lra|]. apply HS. lia. }
  exists (fun l => proj1_sig (constructive_indefinite_description _ (E l))). intros l. exact (proj2_sig (constructive_indefinite_description _ (E l))).
Qed.

(** ** inv *)
Lemma inverts_exists : exists inv, inverts inv.
Proof.
  exists (fun n A => epsilon (inhabits mid) (fun B => is_inverse n A B)). intros n A H. apply epsilon_spec. exact H.
Qed.

(** ** eigh and eigsh *)
Lemma diagonalises_exists : exists eigh, diagonalises eigh.
Proof.
  exists (fun n A => epsilon (inhabits ([], mid)) (fun r => eigensystem n A (fst r) (snd r))). intros n A H.
  apply (epsilon_spec (inhabits ([], mid)) (fun r => eigensystem n A (fst r) (snd r))).
  destruct (spectral n A H) as (ls & V & E). exists (ls, V). exact E.
Qed.

Lemma nearest_exists n k (dist : nat -> R) : (k <= n)%nat -> exists idx, nearest n k dist idx.
Proof.
  intros Hk. destruct (sort_list nat (fun i j => dist i <= dist j) ltac:(intros x y; destruct (Rle_dec (dist x) (dist y)); [auto|right; lra]) ltac:(intros x y z; apply Rle_trans) (seq 0 n)) as (l & HP & HS).
  assert (L : List.length l = n) by (rewrite (Permutation_length HP); apply seq_length).
  assert (ND : NoDup l) by (apply (Permutation_NoDup (Permutation_sym HP)); apply seq_NoDup).
  rewrite <- (firstn_skipn k l) in ND.
  exists (firstn k l). repeat split.
  - rewrite firstn_length, L. lia.
  - revert ND. generalize (skipn k l). induction (firstn k l) as [|x m IH]; intros r H; [constructor|]. inversion H; subst. constructor; [|apply (IH r); assumption]. intros Hx. apply H2. apply in_or_app. auto.
  - intros i Hi. assert (In i l) by (rewrite <- (firstn_skipn k l); apply in_or_app; auto). apply (Permutation_in _ HP) in H. apply in_seq in H. lia.
  - intros i j Hi Hj Hn. assert (Hjl : In j l). { apply (Permutation_in _ (Permutation_sym HP)). apply in_seq. lia. }
    rewrite <- (firstn_skipn k l) in Hjl. apply in_app_or in Hjl. destruct Hjl as [|Hjs]; [contradiction|].
    rewrite <- (firstn_skipn k l) in HS. revert HS Hi. induction (firstn k l) as [|x m IH]; intros HS Hi; [destruct Hi|].
    destruct HS as [H1 H2]. destruct Hi as [->|Hi]; [apply H1; apply in_or_app; auto|]. apply IH; auto.
    + rewrite <- app_comm_cons in ND. inversion ND; auto.
    + intros Hm. apply Hn. right. exact Hm.
Qed.

Lemma diagonalises_near_exists : exists eigsh, diagonalises_near eigsh.
Proof.
  assert (E : forall n A k (sigma : R), exists r : result (list R * cmat), (forall i j, (i < n)%nat -> (j < n)%nat -> A i j = Cconj (A j i)) -> (0 < k <= n)%nat ->
    exists ls V idx ks W, eigensystem n A ls V /\ nearest n k (fun j => Rabs (nth j ls 0 - sigma)) idx /\
    r = Ok (ks, W) /\ ks = map (fun j => nth j ls 0) idx /\ forall c i, (c < k)%nat -> (i < n)%nat -> W i c = V i (nth c idx 0%nat)).
  { intros n A k sigma. destruct (classic ((forall i j, (i < n)%nat -> (j < n)%nat -> A i j = Cconj (A j i)) /\ (0 < k <= n)%nat)) as [[H Hk]|H].
    - destruct (spectral n A H) as (ls & V & HE). destruct (nearest_exists n k (fun j => Rabs (nth j ls 0 - sigma)) ltac:(lia)) as [idx HI].
      exists (Ok (map (fun j => nth j ls 0) idx, fun i c => V i (nth c idx 0%nat))). intros _ _. exists ls, V, idx, (map (fun j => nth j ls 0) idx), (fun i c => V i (nth c idx 0%nat)). auto 6.
    - exists (Ok ([], mid)). intros H1 H2. elim H. auto. }
  exists (fun n A k sigma => proj1_sig (constructive_indefinite_description _ (E n A k sigma))). intros n A k sigma H Hk _.
  exact (proj2_sig (constructive_indefinite_description _ (E n A k sigma)) H Hk).
Qed.

(** ** eig *)
(** eigenvectors of different eigenvalues are independent *)
Lemma eig_independent n A (l : nat -> C) (v : nat -> cvec) k : (forall j, (j < k)%nat -> eigvec n A (l j) (v j)) ->
  (forall i j, (i < k)%nat -> (j < k)%nat -> l i = l j -> i = j) -> forall c : nat -> C,
  (forall i, (i < n)%nat -> csum k (fun j => c j * v j i)%C = RtoC 0) -> forall j, (j < k)%nat -> c j = RtoC 0.
Proof.
  induction k as [|k IH]; intros HE HD c Hc j Hj; [lia|].
  assert (A0 : forall i, (i < n)%nat -> csum (S k) (fun j => l j * (c j * v j i))%C = RtoC 0).
  { intros i Hi. transitivity (mvec n A (fun i => csum (S k) (fun j => c j * v j i)%C) i).
    - unfold mvec. rewrite (csum_ext n _ (fun a => csum (S k) (fun j => c j * (A i a * v j a))%C)).
      2:{ intros a Ha. rewrite <- csum_scal_l. apply csum_ext. intros. ring. }
      rewrite csum_swap. apply csum_ext. intros b Hb. rewrite csum_scal_l. destruct (HE b Hb) as [_ E]. specialize (E i Hi). unfold mvec in E. rewrite E. ring.
    - unfold mvec. apply csum_0. intros a Ha. rewrite (Hc a Ha). ring. }
  assert (Low : forall b, (b < k)%nat -> c b = RtoC 0).
  { intros b Hb. assert (Z : ((l b - l k) * c b)%C = RtoC 0).
    { apply (IH ltac:(intros; apply HE; lia) ltac:(intros; apply HD; auto with arith) (fun j => (l j - l k) * c j)%C); [|exact Hb].
      intros i Hi. specialize (Hc i Hi). specialize (A0 i Hi). cbn [csum] in Hc, A0.
      rewrite (csum_ext k _ (fun j => l j * (c j * v j i) - l k * (c j * v j i))%C) by (intros; ring). rewrite csum_minus, csum_scal_l.
      transitivity (csum k (fun j => l j * (c j * v j i)) + l k * (c k * v k i) - l k * (csum k (fun j => c j * v j i) + c k * v k i))%C; [ring|]. rewrite A0, Hc. ring. }
    apply NNPP. intros N. apply (Cmult_neq_0 (l b - l k)%C (c b)); [|exact N|exact Z]. intros E. assert (l b = l k) by (transitivity (l b - l k + l k)%C; [ring|rewrite E; ring]).
    specialize (HD b k ltac:(lia) ltac:(lia) H). lia. }
  destruct (Nat.eq_dec j k) as [->|]; [|apply Low; lia].
  destruct (HE k ltac:(lia)) as [(i & Hi & Hv) _]. specialize (Hc i Hi). cbn [csum] in Hc. rewrite csum_0, Cplus_0_l in Hc.
  2:{ intros a Ha. rewrite (Low a Ha). ring. }
  apply NNPP. intros N. exact (Cmult_neq_0 _ _ N Hv Hc).
Qed.

Lemma few_eigenvalues n A ls : NoDup ls -> (forall l, In l ls -> eigval n A l) -> (List.length ls <= n)%nat.
Proof.
  intros ND HE. destruct (Nat.le_gt_cases (List.length ls) n) as [L|L]; [exact L|exfalso].
  set (k := List.length ls) in *.
  set (v := fun j => epsilon (inhabits (fun _ : nat => RtoC 0)) (fun v => eigvec n A (nth j ls (RtoC 0)) v)).
  assert (Hv : forall j, (j < k)%nat -> eigvec n A (nth j ls (RtoC 0)) (v j)).
  { intros j Hj. apply epsilon_spec. apply HE. apply nth_In. exact Hj. }
  destruct (underdetermined n k (fun i j => v j i) L) as (c & (j & Hj & Hc) & Hz). apply Hc.
  apply (eig_independent n A (fun j => nth j ls (RtoC 0)) v k Hv) with (c := c); [| |exact Hj].
  - intros a b Ha Hb E. exact (proj1 (NoDup_nth ls (RtoC 0)) ND a b Ha Hb E).
  - intros i Hi. rewrite <- (Hz i Hi). apply csum_ext. intros. ring.
Qed.
(** a complete list of the eigenvalues *)
Lemma eigenvalue_list n A : exists ls, NoDup ls /\ forall l, In l ls <-> eigval n A l.
Proof.
  assert (G : forall m, exists ls, NoDup ls /\ (forall l, In l ls -> eigval n A l) /\ (List.length ls = m \/ forall l, eigval n A l -> In l ls)).
  { induction m as [|m (ls & H1 & H2 & [H3|H3])]; [exists []; repeat split; [constructor|intros ? []|left; reflexivity]| |exists ls; auto].
    destruct (classic (forall l, eigval n A l -> In l ls)) as [F|F]; [exists ls; auto|].
    apply not_all_ex_not in F. destruct F as [l F]. apply imply_to_and in F. destruct F as [F1 F2].
    exists (l :: ls). repeat split; [constructor; assumption|intros x [<-|Hx]; auto|left; cbn; rewrite H3; reflexivity]. }
  destruct (G (S n)) as (ls & H1 & H2 & [H3|H3]).
  - pose proof (few_eigenvalues n A ls H1 H2). lia.
  - exists ls. split; [exact H1|]. intros l. split; auto.
Qed.

Lemma unit_eigvec n A l : eigval n A l -> exists v, cdot n v v = RtoC 1 /\ forall i, (i < n)%nat -> mvec n A v i = (l * v i)%C.
Proof.
  intros (v & (i & Hi & Hv) & E). pose proof (nrm_pos n v i Hi Hv) as P.
  exists (fun i => RtoC (/ sqrt (nrm n v)) * v i)%C. split; [rewrite cdot_nrm, normalise by exact P; reflexivity|].
  intros j Hj. rewrite mvec_scal, E by exact Hj. ring.
Qed.

Definition eig_ok (n : nat) (A : cmat) (r : list C * cmat) : Prop :=
  let ls := fst r in let V := snd r in
  List.length ls = n /\
  (forall b, (b < n)%nat -> cdot n (fun i => V i b) (fun i => V i b) = RtoC 1) /\
  (forall i b, (i < n)%nat -> (b < n)%nat -> mvec n A (fun i => V i b) i = (nth b ls (RtoC 0) * V i b)%C) /\
  (forall l, eigval n A l -> In l ls) /\
  ((exists ls' V', eigenbasis n A ls' V') -> exists W, meq n n (mmul n V W) mid /\ meq n n (mmul n W V) mid).

Lemma nth_map_seq {A} (f : nat -> A) n i d : (i < n)%nat -> nth i (map f (seq 0 n)) d = f i.
Proof. intros H. rewrite (nth_map0 f (seq 0 n) i 0%nat d) by (rewrite seq_length; exact H). rewrite seq_nth by exact H. reflexivity. Qed.

Lemma eig_exists n A : exists r, eig_ok n A r.
Proof.
  destruct (classic (exists ls' V', eigenbasis n A ls' V')) as [(ls' & V' & HE & W & HW1 & HW2)|NB].
  - (* normalise the columns of the basis *)
    assert (P : forall b, (b < n)%nat -> 0 < nrm n (fun i => V' i b)).
    { intros b Hb. destruct (classic (exists i, (i < n)%nat /\ V' i b <> RtoC 0)) as [(i & Hi & Hv)|Z]; [apply (nrm_pos n _ i Hi Hv)|].
      exfalso. specialize (HW2 b b Hb Hb). unfold mmul, mid in HW2. rewrite Nat.eqb_refl in HW2. rewrite csum_0 in HW2; [injection HW2; lra|].
      intros i Hi. destruct (classic (V' i b = RtoC 0)) as [E|E]; [rewrite E; ring|elim Z; exists i; auto]. }
    set (s := fun b => RtoC (/ sqrt (nrm n (fun i => V' i b)))).
    set (t := fun b => RtoC (sqrt (nrm n (fun i => V' i b)))).
    assert (st : forall b, (b < n)%nat -> (s b * t b)%C = RtoC 1).
    { intros b Hb. unfold s, t. rewrite <- RtoC_mult, Rinv_l; [reflexivity|]. pose proof (sqrt_lt_R0 _ (P b Hb)). lra. }
    exists (map ls' (seq 0 n), fun i b => (s b * V' i b)%C). unfold eig_ok. cbn [fst snd]. split; [rewrite map_length, seq_length; reflexivity|]. split; [|split; [|split]].
    + intros b Hb. rewrite cdot_nrm. unfold s. rewrite (normalise n (fun i => V' i b) (P b Hb)). reflexivity.
    + intros i b Hi Hb. rewrite (mvec_scal n A (s b) (fun i => V' i b)). rewrite nth_map_seq by exact Hb. rewrite HE by assumption. ring.
    + intros l (v & (i & Hi & Hv) & Ev).
      (* v = V' x with x = W v; some coefficient is non-zero *)
      set (x := mvec n W v). assert (Vx : forall a, (a < n)%nat -> mvec n V' x a = v a).
      { intros a Ha. unfold x. rewrite <- mvec_mmul. transitivity (mvec n mid v a); [|apply mvec_id; exact Ha]. apply csum_ext. intros b Hb. rewrite (HW1 a b Ha Hb). reflexivity. }
      destruct (classic (exists b, (b < n)%nat /\ x b <> RtoC 0)) as [(b & Hb & Hx)|Z].
      2:{ elim Hv. rewrite <- (Vx i Hi). unfold mvec. apply csum_0. intros b Hb. destruct (classic (x b = RtoC 0)) as [E|E]; [rewrite E; ring|elim Z; exists b; auto]. }
      apply in_map_iff. exists b. split; [|apply in_seq; lia].
      (* W (A v) = D x and = l x *)
      assert (E1 : forall a, (a < n)%nat -> mvec n V' (fun c => ls' c * x c)%C a = (l * v a)%C).
      { intros a Ha. rewrite <- (Ev a Ha). transitivity (mvec n A (mvec n V' x) a); [|apply mvec_ext; exact Vx].
        unfold mvec. rewrite (csum_ext n (fun k => A a k * csum n (fun k0 => V' k k0 * x k0))%C (fun k => csum n (fun c => x c * (A a k * V' k c))%C)).
        2:{ intros k Hk. rewrite <- csum_scal_l. apply csum_ext. intros. ring. }
        rewrite csum_swap. apply csum_ext. intros c Hc. rewrite csum_scal_l. specialize (HE a c Ha Hc). unfold mvec in HE. rewrite HE. ring. }
      assert (E2 : (ls' b * x b)%C = (l * x b)%C).
      { transitivity (mvec n W (mvec n V' (fun c => ls' c * x c)%C) b).
        - rewrite <- mvec_mmul. symmetry. transitivity (mvec n mid (fun c => ls' c * x c)%C b); [apply csum_ext; intros c Hc; rewrite (HW2 b c Hb Hc); reflexivity|apply mvec_id; exact Hb].
        - rewrite (mvec_ext n W _ (fun a => l * v a)%C b E1), mvec_scal. reflexivity. }
      transitivity (ls' b * x b / x b)%C; [field; exact Hx|]. rewrite E2. field. exact Hx.
    + intros _. exists (fun b i => (t b * W b i)%C). split.
      * intros i j Hi Hj. rewrite <- (HW1 i j Hi Hj). unfold mmul. apply csum_ext. intros b Hb. transitivity (s b * t b * (V' i b * W b j))%C; [ring|rewrite st by exact Hb; ring].
      * intros i j Hi Hj. transitivity (t i * s j * mmul n W V' i j)%C; [unfold mmul; rewrite <- csum_scal_l; apply csum_ext; intros; ring|].
        rewrite (HW2 i j Hi Hj). unfold mid. destruct (Nat.eqb_spec i j) as [->|]; [rewrite (Cmult_comm (t j)), st by exact Hj; ring|ring].
  - destruct n as [|n].
    + exists ([], mid). unfold eig_ok. cbn [fst snd]. split; [reflexivity|]. split; [intros; lia|]. split; [intros; lia|]. split; [intros l (v & (i & Hi & _) & _); lia|].
      intros F. contradiction.
    + destruct (eigenvalue_list (S n) A) as (ls & ND & HL). pose proof (few_eigenvalues (S n) A ls ND (fun l H => proj1 (HL l) H)) as Lle.
      destruct (eigenvector_exists (S n) A ltac:(lia)) as (l0 & v0 & H0). assert (In0 : In l0 ls) by (apply HL; exists v0; exact H0).
      set (full := ls ++ repeat l0 (S n - List.length ls)).
      assert (Lf : List.length full = S n) by (unfold full; rewrite app_length, repeat_length; lia).
      assert (HF : forall b, (b < S n)%nat -> eigval (S n) A (nth b full (RtoC 0))).
      { intros b Hb. assert (Hin : In (nth b full (RtoC 0)) full) by (apply nth_In; rewrite Lf; exact Hb). unfold full in Hin at 2. apply in_app_or in Hin. destruct Hin as [Hin|Hin]; [apply HL; exact Hin|].
        apply repeat_spec in Hin. rewrite Hin. exists v0. exact H0. }
      set (V := fun i b => epsilon (inhabits (fun _ : nat => RtoC 0)) (fun v => cdot (S n) v v = RtoC 1 /\ forall i, (i < S n)%nat -> mvec (S n) A v i = (nth b full (RtoC 0) * v i)%C) i).
      assert (HV : forall b, (b < S n)%nat -> cdot (S n) (fun i => V i b) (fun i => V i b) = RtoC 1 /\ forall i, (i < S n)%nat -> mvec (S n) A (fun i => V i b) i = (nth b full (RtoC 0) * V i b)%C).
      { intros b Hb. apply (epsilon_spec (inhabits (fun _ : nat => RtoC 0)) (fun v => cdot (S n) v v = RtoC 1 /\ forall i, (i < S n)%nat -> mvec (S n) A v i = (nth b full (RtoC 0) * v i)%C)).
        apply unit_eigvec. apply HF. exact Hb. }
      exists (full, V). unfold eig_ok. cbn [fst snd]. split; [exact Lf|]. split; [intros; apply HV; assumption|]. split; [intros i b Hi Hb; apply HV; assumption|]. split.
      * intros l Hl. unfold full. apply in_or_app. left. apply HL. exact Hl.
      * intros F. contradiction.
Qed.
Lemma solves_exists : exists eig, solves eig.
Proof.
  exists (fun n A => proj1_sig (constructive_indefinite_description _ (eig_exists n A))). intros n A.
  exact (proj2_sig (constructive_indefinite_description _ (eig_exists n A))).
Qed.
