(** Diagonalisation of the Hopfield matrix (C56, C58). *)
From Coq Require Import Permutation List.
From Verif Require Import Py CBase MatElModel SymModel SymSpec RunModel RunSpec RunProofs RunProofs3 PolSpec PolModel PolProofs.
Open Scope R_scope.
Open Scope list_scope.

Lemma eye_mvec n A v i : (i < n)%nat -> mvec n (plus_eye (Arr n n A)) v i = (mvec n A v i + v i)%C.
Proof. intros Hi. unfold mvec. apply (eye_row n (Arr n n A) v i Hi). Qed.
Lemma eye_eigval n A l : eigval n A l -> eigval n (plus_eye (Arr n n A)) (l + RtoC 1)%C.
Proof. intros (v & Hn & He). exists v. split; auto. intros i Hi. rewrite eye_mvec, He by auto. ring. Qed.
Lemma eye_basis n A ls V : eigenbasis n A ls V -> eigenbasis n (plus_eye (Arr n n A)) (fun b => ls b + RtoC 1)%C V.
Proof. intros [He Hw]. split; auto. intros i b Hi Hb. rewrite eye_mvec, He by auto. ring. Qed.
Lemma zero_dec m (v : cvec) : (exists i, (i < m)%nat /\ v i <> RtoC 0) \/ forall i, (i < m)%nat -> v i = RtoC 0.
Proof.
  induction m as [|m [(i & Hi & Hv)|IH]]; [right; intros; lia|left; exists i; split; auto|].
  destruct (Ceq_dec (v m) (RtoC 0)) as [E|E]; [right|left; exists m; auto]. intros i Hi. destruct (Nat.eq_dec i m) as [->|]; [auto|apply IH; lia].
Qed.
Lemma unit_nonzero n v : cdot n v v = RtoC 1 -> exists i, (i < n)%nat /\ v i <> RtoC 0.
Proof.
  intros H. destruct (zero_dec n v) as [N|Zr]; auto. exfalso. unfold cdot in H. rewrite csum_0 in H.
  - apply (f_equal fst) in H. simpl in H. lra.
  - intros i Hi. rewrite Zr by auto. ring.
Qed.

Section Solve.
Variables (eig : nat -> cmat -> list C * cmat) (cargsort : list C -> list nat).
Hypothesis Heig : solves eig.
Hypothesis Hs : csorts cargsort.

Lemma solve_modes N K A : exists ms, positive_modes (2 * (N + K)) A ms /\
  let kept := firstn (N + K - 1) ms in
  solve_k eig cargsort N K A = Ok (KRes (map (fun m => fst (fst m)) kept) (map (fun m => snd (fst m)) kept) (map snd kept)
     (map (fun m => fst (fractions N K (snd m))) kept) (map (fun m => snd (fractions N K (snd m))) kept)).
Proof.
  set (n := (2 * (N + K))%nat). unfold solve_k. fold n. cbv zeta. destruct (Heig n (plus_eye (Arr n n A))) as (Hl & Hu & He & Hc & Hb). cbv zeta in *.
  destruct (eig n (plus_eye (Arr n n A))) as [ener2 V] eqn:EE. cbn [fst snd] in *.
  set (ener1 := map (fun l => Cminus l (RtoC 1)) ener2).
  assert (Hl1 : List.length ener1 = n) by (unfold ener1; rewrite map_length; auto). rewrite Hl1.
  assert (E1 : forall b, (b < n)%nat -> nth b ener1 (RtoC 0) = (nth b ener2 (RtoC 0) - RtoC 1)%C).
  { intros b Hb'. unfold ener1. rewrite (map_nth_lt _ _ (RtoC 0)) by lia. reflexivity. }
  set (filt := filter _ (seq 0 n)).
  assert (FI : forall b, In b filt <-> (b < n)%nat /\ 0 <= fst (nth b ener1 (RtoC 0))).
  { intros b. unfold filt. rewrite filter_In, in_seq, Rleb_true. intuition lia. }
  assert (FN : NoDup filt) by (apply NoDup_filter, seq_NoDup).
  set (pos := map (fun b => nth b ener1 (RtoC 0)) filt). set (vecs := map (fun b i => V i b) filt).
  destruct (Hs pos) as [HP HS].
  assert (LP : List.length pos = List.length filt) by apply map_length.
  assert (SI : forall i, In i (cargsort pos) <-> (i < List.length filt)%nat).
  { intros i. rewrite <- LP. split; intros H; [apply (Permutation_in _ HP) in H; apply in_seq in H; lia|apply (Permutation_in _ (Permutation_sym HP)), in_seq; lia]. }
  set (f := fun i => nth i filt 0%nat).
  set (ms := map (fun i => ((nth (f i) ener1 (RtoC 0), fun j => V j (f i)) : C * cvec)) (cargsort pos)).
  assert (FF : forall i, (i < List.length filt)%nat -> In (f i) filt) by (intros; apply nth_In; auto).
  assert (VE : forall b i, (b < n)%nat -> (i < n)%nat -> mvec n A (fun i => V i b) i = (nth b ener1 (RtoC 0) * V i b)%C).
  { intros b i Hb' Hi. rewrite E1 by auto. pose proof (He i b Hi Hb') as X. rewrite eye_mvec in X by auto.
    transitivity (mvec n A (fun i => V i b) i + V i b - V i b)%C; [ring|]. rewrite X. ring. }
  exists ms. split.
  - split; [|split; [|split]].
    + intros m Hm. unfold ms in Hm. apply in_map_iff in Hm. destruct Hm as (i & <- & Hi). cbn [fst snd]. apply SI in Hi. destruct (proj1 (FI (f i)) (FF i Hi)) as [Hb' Hp].
      split; [|split; auto]. split; [apply unit_nonzero; auto|]. intros j Hj. apply VE; auto.
    + unfold ms. rewrite map_map. cbn [fst].
      rewrite (map_ext_in _ (fun i => nth i pos (RtoC 0))); [exact HS|]. intros i Hi. apply SI in Hi. unfold pos. rewrite (map_nth_lt _ _ 0%nat) by auto. reflexivity.
    + intros l Hl' Hp. apply eye_eigval, Hc in Hl'. apply (In_nth _ _ (RtoC 0)) in Hl'. destruct Hl' as (b & Hb' & Eb). rewrite Hl in Hb'.
      assert (El : nth b ener1 (RtoC 0) = l) by (rewrite E1, Eb by auto; ring).
      assert (Hf : In b filt) by (apply FI; rewrite El; auto). apply (In_nth _ _ 0%nat) in Hf. destruct Hf as (i & Hi & Ei).
      apply in_map_iff. exists (nth (f i) ener1 (RtoC 0), fun j => V j (f i)). cbn [fst]. split; [unfold f; rewrite Ei; auto|]. unfold ms. apply in_map_iff. exists i. split; auto. apply SI. auto.
    + intros (ls' & V' & HB). destruct Hb as (W & HW); [eexists; eexists; eapply eye_basis; eauto|].
      exists (fun b => nth b ener1 (RtoC 0)), V, (map f (cargsort pos)). split; [split; [intros; apply VE; auto|exists W; auto]|]. split; [|split].
      * assert (PP : Permutation (map f (cargsort pos)) filt).
        { transitivity (map f (seq 0 (List.length filt))); [apply Permutation_map; rewrite <- LP; exact HP|].
          assert (MF : map f (seq 0 (List.length filt)) = filt).
          { apply (nth_ext _ _ 0%nat 0%nat); rewrite map_length, seq_length; auto. intros i Hi. rewrite (map_nth_lt _ _ 0%nat) by (rewrite seq_length; auto). rewrite seq_nth by auto. reflexivity. }
          rewrite MF. reflexivity. }
        eapply Permutation_NoDup; [symmetry; exact PP|exact FN].
      * intros b. rewrite <- FI. split.
        -- intros H. apply in_map_iff in H. destruct H as (i & <- & Hi). apply FF, SI, Hi.
        -- intros H. apply (In_nth _ _ 0%nat) in H. destruct H as (i & Hi & Ei). apply in_map_iff. exists i. split; [auto|apply SI; auto].
      * unfold ms. rewrite map_map. reflexivity.
  - cbv zeta.
    assert (KN : (n / 2 - 1 = N + K - 1)%nat) by (unfold n; rewrite Nat.mul_comm, Nat.div_mul by lia; auto). rewrite KN.
    assert (IX : forall i, In i (firstn (N + K - 1) (cargsort pos)) -> (i < List.length filt)%nat).
    { intros i Hi. apply SI. rewrite <- (firstn_skipn (N + K - 1) (cargsort pos)). apply in_or_app. auto. }
    rewrite (take_ok (RtoC 0)) by (intros; rewrite LP; auto). cbn [bind].
    rewrite (take_ok (fun _ => RtoC 0)) by (intros; unfold vecs; rewrite map_length; auto). cbn [bind].
    rewrite (take_ok (0, 0)) by (intros; unfold vecs; rewrite !map_length; auto). cbn [bind].
    assert (KE : firstn (N + K - 1) ms = map (fun i => ((nth (f i) ener1 (RtoC 0), fun j => V j (f i)) : C * cvec)) (firstn (N + K - 1) (cargsort pos))).
    { unfold ms. apply firstn_map. }
    rewrite KE, !map_map. cbn [fst snd]. do 2 f_equal; apply map_ext_in; intros i Hi; apply IX in Hi.
    + unfold pos. rewrite (map_nth_lt _ _ 0%nat) by auto. reflexivity.
    + unfold pos. rewrite (map_nth_lt _ _ 0%nat) by auto. reflexivity.
    + unfold vecs. rewrite (map_nth_lt _ _ 0%nat) by auto. reflexivity.
    + unfold vecs. rewrite map_map, (map_nth_lt _ _ 0%nat) by auto. reflexivity.
    + unfold vecs. rewrite map_map, (map_nth_lt _ _ 0%nat) by auto. reflexivity.
Qed.
End Solve.

(** ** there are as many positive as negative energies *)
Section Count.
Variable n : nat.
Local Notation "A ~ B" := (meq n n A B) (at level 70).
Local Notation "A ** B" := (mmul n A B) (at level 40, left associativity).
Lemma q_sym (A B : cmat) : A ~ B -> B ~ A.
Proof. intros H i j Hi Hj. symmetry. auto. Qed.
Lemma q_trans (A B D : cmat) : A ~ B -> B ~ D -> A ~ D.
Proof. intros H1 H2 i j Hi Hj. rewrite H1, H2; auto. Qed.
Lemma q_mul (A A' B B' : cmat) : A ~ A' -> B ~ B' -> A ** B ~ A' ** B'.
Proof. intros H1 H2 i j Hi Hj. apply mmul_ext; auto. Qed.
Lemma q_refl (A : cmat) : A ~ A.
Proof. intros i j _ _. reflexivity. Qed.
Lemma q_assoc (A B D : cmat) : A ** B ** D ~ A ** (B ** D).
Proof. intros i j _ _. apply mmul_assoc. Qed.
Lemma q_idl (A : cmat) : mid ** A ~ A.
Proof. intros i j Hi _. apply mmul_id_l. auto. Qed.
Lemma q_idr (A : cmat) : A ** mid ~ A.
Proof. intros i j _ Hj. apply mmul_id_r. auto. Qed.
Definition diagm (ls : nat -> C) : cmat := fun i j => if Nat.eqb i j then ls i else RtoC 0.
Lemma diag_l ls (A : cmat) i j : (i < n)%nat -> (diagm ls ** A) i j = (ls i * A i j)%C.
Proof.
  intros Hi. unfold mmul, diagm. rewrite (csum_single n i); auto; [rewrite Nat.eqb_refl; auto|]. intros k Hk Hn. rewrite (proj2 (Nat.eqb_neq i k)) by auto. ring.
Qed.
Lemma diag_r ls (A : cmat) i j : (j < n)%nat -> (A ** diagm ls) i j = (ls j * A i j)%C.
Proof.
  intros Hj. unfold mmul, diagm. rewrite (csum_single n j); auto; [rewrite Nat.eqb_refl; ring|]. intros k Hk Hn. rewrite (proj2 (Nat.eqb_neq k j)) by auto. ring.
Qed.
Variables (A J V W : cmat) (ls : nat -> C).
Hypothesis JJ : J ** J ~ mid.
Hypothesis JA : forall i j, (i < n)%nat -> (j < n)%nat -> (J ** A) i j = (- (A ** J) i j)%C.
Hypothesis AV : A ** V ~ V ** diagm ls.
Hypothesis VW : V ** W ~ mid.
Hypothesis WV : W ** V ~ mid.
Local Notation P := (W ** (J ** V)).
Lemma PP : P ** P ~ mid.
Proof.
  eapply q_trans; [apply q_assoc|]. eapply q_trans; [apply q_mul; [apply q_refl|apply q_assoc]|].
  eapply q_trans; [apply q_mul; [apply q_refl|apply q_mul; [apply q_refl|apply q_sym, q_assoc]]|].
  eapply q_trans; [apply q_mul; [apply q_refl|apply q_mul; [apply q_refl|apply q_mul; [exact VW|apply q_refl]]]|].
  eapply q_trans; [apply q_mul; [apply q_refl|apply q_mul; [apply q_refl|apply q_idl]]|].
  eapply q_trans; [apply q_mul; [apply q_refl|apply q_sym, q_assoc]|].
  eapply q_trans; [apply q_mul; [apply q_refl|apply q_mul; [exact JJ|apply q_refl]]|].
  eapply q_trans; [apply q_mul; [apply q_refl|apply q_idl]|]. exact WV.
Qed.
Lemma WA : W ** A ~ diagm ls ** W.
Proof.
  eapply q_trans; [apply q_sym, q_idr|]. eapply q_trans; [apply q_mul; [apply q_refl|apply q_sym; exact VW]|].
  eapply q_trans; [apply q_sym, q_assoc|]. apply q_mul; [|apply q_refl].
  eapply q_trans; [apply q_assoc|]. eapply q_trans; [apply q_mul; [apply q_refl|exact AV]|]. eapply q_trans; [apply q_sym, q_assoc|].
  eapply q_trans; [apply q_mul; [exact WV|apply q_refl]|]. apply q_idl.
Qed.
Lemma P_zero b c : (b < n)%nat -> (c < n)%nat -> P b c <> RtoC 0 -> ls b = (- ls c)%C.
Proof.
  intros Hb Hc Hp.
  assert (E1 : (diagm ls ** P) b c = (W ** (A ** (J ** V))) b c).
  { assert (X : diagm ls ** P ~ W ** (A ** (J ** V))).
    { eapply q_trans; [apply q_sym, q_assoc|]. eapply q_trans; [apply q_mul; [apply q_sym, WA|apply q_refl]|]. apply q_assoc. }
    apply X; auto. }
  assert (E2 : (P ** diagm ls) b c = (W ** (J ** (A ** V))) b c).
  { assert (X : P ** diagm ls ~ W ** (J ** (A ** V))).
    { eapply q_trans; [apply q_assoc|]. apply q_mul; [apply q_refl|]. eapply q_trans; [apply q_assoc|]. apply q_mul; [apply q_refl|]. apply q_sym. exact AV. }
    apply X; auto. }
  assert (E3 : (W ** (J ** (A ** V))) b c = (- (W ** (A ** (J ** V))) b c)%C).
  { unfold mmul at 1 4. rewrite <- csum_opp. apply csum_ext. intros k Hk.
    assert (Y : (J ** (A ** V)) k c = (- (A ** (J ** V)) k c)%C).
    { rewrite <- !mmul_assoc. unfold mmul at 1 3. rewrite <- csum_opp. apply csum_ext. intros m Hm. rewrite JA by auto. ring. }
    rewrite Y. ring. }
  rewrite diag_l in E1 by auto. rewrite diag_r in E2 by auto.
  assert (E : (ls b * P b c = - (ls c * P b c))%C) by (rewrite E1, E2, E3; ring).
  assert (F : ((ls b + ls c) * P b c = RtoC 0)%C) by (transitivity (ls b * P b c + ls c * P b c)%C; [ring|rewrite E; ring]).
  destruct (Ceq_dec (ls b + ls c)%C (RtoC 0)) as [Z0|Z0]; [|exfalso; apply (Cmult_neq_0 _ _ Z0 Hp F)].
  transitivity (ls b + ls c - ls c)%C; [ring|]. rewrite Z0. ring.
Qed.
Variable s : C -> R.
Hypothesis s_odd : forall l, s (- l)%C = - s l.
Lemma sign_sum : csum n (fun b => RtoC (s (ls b))) = RtoC 0.
Proof.
  assert (D1 : csum n (fun b => RtoC (s (ls b))) = csum n (fun b => csum n (fun c => RtoC (s (ls b)) * (P b c * P c b)))%C).
  { apply csum_ext. intros b Hb. rewrite csum_scal_l. pose proof (PP b b Hb Hb) as E. unfold mmul at 1 in E. rewrite E. unfold mid. rewrite Nat.eqb_refl. ring. }
  assert (D2 : csum n (fun b => csum n (fun c => RtoC (s (ls b)) * (P b c * P c b)))%C = csum n (fun b => csum n (fun c => - (RtoC (s (ls c)) * (P b c * P c b))))%C).
  { apply csum_ext. intros b Hb. apply csum_ext. intros c Hc. destruct (Ceq_dec (P b c) (RtoC 0)) as [Z0|Z0]; [rewrite Z0; ring|].
    rewrite (P_zero b c Hb Hc Z0), s_odd, RtoC_opp. ring. }
  assert (D3 : csum n (fun b => csum n (fun c => - (RtoC (s (ls c)) * (P b c * P c b))))%C = (- csum n (fun b => RtoC (s (ls b))))%C).
  { rewrite csum_swap, <- csum_opp. apply csum_ext. intros c Hc. rewrite csum_opp, csum_scal_l.
    rewrite (csum_ext n (fun i => P i c * P c i)%C (fun i => P c i * P i c)%C) by (intros; ring).
    pose proof (PP c c Hc Hc) as E. unfold mmul at 1 in E. rewrite E. unfold mid. rewrite Nat.eqb_refl. ring. }
  rewrite D2, D3 in D1. set (x := csum n _) in *. apply Ceq; [apply (f_equal fst) in D1|apply (f_equal snd) in D1]; simpl in *; lra.
Qed.
End Count.

(** the exchange of halves as a matrix *)
Definition mirror_mat (N K : nat) : cmat := fun i j => mirror N K (fun k => if Nat.eqb k j then RtoC 1 else RtoC 0) i.
Lemma mirror_as_mat N K v i : (i < 2 * (N + K))%nat -> mirror N K v i = mvec (2 * (N + K)) (mirror_mat N K) v i.
Proof.
  intros Hi. unfold mirror_mat, mvec. unfold mirror. cbv zeta.
  set (t := if Nat.ltb i (N + K) then (i + (N + K))%nat else (i - (N + K))%nat). set (p := Nat.ltb (if (i <? N + K)%nat then i else (i - (N + K))%nat) N).
  assert (Ht : (t < 2 * (N + K))%nat) by (unfold t; destruct (Nat.ltb_spec i (N + K)); lia).
  rewrite (csum_single _ t); auto.
  - rewrite Nat.eqb_refl. destruct p; ring.
  - intros k Hk Hn. rewrite (proj2 (Nat.eqb_neq t k)) by auto. destruct p; ring.
Qed.
Lemma signs N K A c d e ls V : let n := (2 * (N + K))%nat in eigenbasis n (hopfield N K A c d e) ls V ->
  forall s : C -> R, (forall l, s (- l)%C = - s l) -> csum n (fun b => RtoC (s (ls b))) = RtoC 0.
Proof.
  intros n [HE (W & VW & WV)] s Hodd. set (H := hopfield N K A c d e) in *.
  assert (MM : forall B i j, (i < n)%nat -> mmul n (mirror_mat N K) B i j = mirror N K (fun k => B k j) i).
  { intros B i j Hi. rewrite mirror_as_mat by auto. reflexivity. }
  apply (sign_sum n H (mirror_mat N K) V W ls); auto.
  - intros i j Hi Hj. rewrite MM by auto. unfold mirror_mat. rewrite (mirror_mirror N K) by auto. reflexivity.
  - intros i j Hi Hj. rewrite MM by auto.
    assert (Y : mmul n H (mirror_mat N K) i j = mvec n H (mirror N K (fun k => if Nat.eqb k j then RtoC 1 else RtoC 0)) i) by reflexivity.
    rewrite Y. unfold H, n. rewrite mirror_anti by auto. fold n H.
    rewrite (mirror_ext N K (mvec n H (fun k => if Nat.eqb k j then RtoC 1 else RtoC 0)) (fun k => H k j) i Hi); [ring|].
    intros k Hk. unfold mvec. rewrite (csum_single n j); auto; [rewrite Nat.eqb_refl; ring|]. intros m Hm Hn. rewrite (proj2 (Nat.eqb_neq m j)) by auto. ring.
  - intros i j Hi Hj. rewrite diag_r by auto. apply (HE i j Hi Hj).
Qed.
(** number of indices with non-negative real part *)
Lemma count_signs (f : nat -> R) n : (forall b, (b < n)%nat -> f b = 1 \/ f b = -1) ->
  csum n (fun b => RtoC (f b)) = RtoC (INR (List.length (filter (fun b => Rleb 0 (f b)) (seq 0 n))) * 2 - INR n).
Proof.
  induction n as [|n IH]; intros Hf; [apply Ceq; simpl; ring|].
  cbn [csum]. rewrite IH by (intros; apply Hf; lia). rewrite seq_S, filter_app, app_length, plus_INR. cbn [plus filter].
  rewrite S_INR. destruct (Hf n ltac:(lia)) as [E|E]; rewrite E.
  - rewrite (proj2 (Rleb_true 0 1)) by lra. apply Ceq; simpl; ring.
  - rewrite (proj2 (Rleb_false 0 (-1))) by lra. apply Ceq; simpl; ring.
Qed.
Lemma half_positive N K A c d e ms : let n := (2 * (N + K))%nat in let H := hopfield N K A c d e in
  positive_modes n H ms -> (exists ls V, eigenbasis n H ls V) -> (forall l, eigval n H l -> fst l <> 0) ->
  List.length ms = (N + K)%nat.
Proof.
  intros n H (_ & _ & _ & HB) HD HZ. destruct (HB HD) as (ls & V & idx & EB & ND & HI & ->).
  set (sg := fun l : C => if Rltb 0 (fst l) then 1 else if Rltb (fst l) 0 then -1 else 0).
  assert (Odd : forall l, sg (- l)%C = - sg l).
  { intros l. unfold sg. cbn [fst Copp]. destruct (Rlt_dec 0 (fst l)) as [L|L].
    - rewrite (proj2 (Rltb_true 0 (fst l)) L), (proj2 (Rltb_false 0 (- fst l))) by lra. rewrite (proj2 (Rltb_true (- fst l) 0)) by lra. ring.
    - rewrite (proj2 (Rltb_false 0 (fst l))) by lra. destruct (Rlt_dec (fst l) 0) as [L'|L'].
      + rewrite (proj2 (Rltb_true (fst l) 0)) by lra. rewrite (proj2 (Rltb_true 0 (- fst l))) by lra. ring.
      + rewrite (proj2 (Rltb_false (fst l) 0)), (proj2 (Rltb_false 0 (- fst l))), (proj2 (Rltb_false (- fst l) 0)) by lra. ring. }
  pose proof (signs N K A c d e ls V EB sg Odd) as S0.
  assert (EV : forall b, (b < n)%nat -> eigval n H (ls b)).
  { intros b Hb. destruct EB as [HE (W & VW & WV)]. exists (fun i => V i b). split; [|intros i Hi; apply HE; auto].
    destruct (zero_dec n (fun i => V i b)) as [X|X]; auto. exfalso. pose proof (WV b b Hb Hb) as E. unfold mmul, mid in E. rewrite Nat.eqb_refl in E.
    rewrite csum_0 in E by (intros; rewrite X by auto; ring). apply (f_equal fst) in E. simpl in E. lra. }
  assert (SV : forall b, (b < n)%nat -> sg (ls b) = 1 \/ sg (ls b) = -1).
  { intros b Hb. pose proof (HZ _ (EV b Hb)) as NZ. unfold sg. destruct (Rlt_dec 0 (fst (ls b))) as [L|L].
    - rewrite (proj2 (Rltb_true _ _) L). auto.
    - rewrite (proj2 (Rltb_false 0 (fst (ls b)))) by lra. rewrite (proj2 (Rltb_true (fst (ls b)) 0)) by lra. auto. }
  change (csum n (fun b => RtoC (sg (ls b))) = RtoC 0) in S0. rewrite (count_signs (fun b => sg (ls b)) n SV) in S0.
  assert (LI : List.length idx = List.length (filter (fun b => Rleb 0 (sg (ls b))) (seq 0 n))).
  { apply Permutation_length. apply NoDup_Permutation; auto; [apply NoDup_filter, seq_NoDup|]. intros b. rewrite HI, filter_In, in_seq, Rleb_true.
    split; intros [H1 H2]; (assert (Hb : (b < n)%nat) by lia); pose proof (HZ _ (EV b Hb)) as NZ; (split; [lia|]); unfold sg in *.
    - rewrite (proj2 (Rltb_true 0 (fst (ls b)))) by lra. lra.
    - destruct (Rltb 0 (fst (ls b))) eqn:Q; [apply Rltb_true in Q; lra|]. destruct (Rltb (fst (ls b)) 0) eqn:Q'; [lra|]. apply Rltb_false in Q'. lra. }
  rewrite map_length, LI. apply INR_eq. apply RtoC_inj in S0. unfold n in S0 at 2. rewrite mult_INR in S0. simpl (INR 2) in S0. lra.
Qed.
