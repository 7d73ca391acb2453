(** Structure of the Hopfield matrix (C55, C56). *)
From Coq Require Import Permutation List.
From Verif Require Import Py CBase SymSpec RunModel RunSpec PolSpec PolModel.
Open Scope R_scope.
Open Scope list_scope.

(** ** blocks *)
Section Blocks.
Variables N K : nat.
Lemma stack_0 {T} (x0 x1 x2 x3 : nat -> T) i : (i < N)%nat -> stack4 N K x0 x1 x2 x3 i = x0 i.
Proof. intros H. unfold stack4. apply Nat.ltb_lt in H. rewrite H. reflexivity. Qed.
Lemma stack_1 {T} (x0 x1 x2 x3 : nat -> T) i : (i < K)%nat -> stack4 N K x0 x1 x2 x3 (N + i)%nat = x1 i.
Proof.
  intros H. unfold stack4. rewrite (proj2 (Nat.ltb_ge (N + i) N)) by lia. rewrite (proj2 (Nat.ltb_lt (N + i) (N + K))) by lia. f_equal. lia.
Qed.
Lemma stack_2 {T} (x0 x1 x2 x3 : nat -> T) i : (i < N)%nat -> stack4 N K x0 x1 x2 x3 (N + K + i)%nat = x2 i.
Proof.
  intros H. unfold stack4. rewrite (proj2 (Nat.ltb_ge (N + K + i) N)) by lia. rewrite (proj2 (Nat.ltb_ge (N + K + i) (N + K))) by lia.
  rewrite (proj2 (Nat.ltb_lt (N + K + i) (N + K + N))) by lia. f_equal. lia.
Qed.
Lemma stack_3 {T} (x0 x1 x2 x3 : nat -> T) i : stack4 N K x0 x1 x2 x3 (N + K + N + i)%nat = x3 i.
Proof.
  unfold stack4. rewrite (proj2 (Nat.ltb_ge (N + K + N + i) N)) by lia. rewrite (proj2 (Nat.ltb_ge (N + K + N + i) (N + K))) by lia.
  rewrite (proj2 (Nat.ltb_ge (N + K + N + i) (N + K + N))) by lia. f_equal. lia.
Qed.
Lemma sum4 f : csum (2 * (N + K)) f =
  (csum N f + csum K (fun j => f (N + j)%nat) + csum N (fun j => f (N + K + j)%nat) + csum K (fun j => f (N + K + N + j)%nat))%C.
Proof.
  replace (2 * (N + K))%nat with (N + K + N + K)%nat by lia. rewrite !csum_add. reflexivity.
Qed.
Lemma split4 (P : nat -> Prop) : (forall i, (i < N)%nat -> P i) -> (forall i, (i < K)%nat -> P (N + i)%nat) ->
  (forall i, (i < N)%nat -> P (N + K + i)%nat) -> (forall i, (i < K)%nat -> P (N + K + N + i)%nat) ->
  forall i, (i < 2 * (N + K))%nat -> P i.
Proof.
  intros H0 H1 H2 H3 i Hi. destruct (Nat.lt_ge_cases i N) as [L|L]; [auto|].
  destruct (Nat.lt_ge_cases i (N + K)) as [L1|L1]; [replace i with (N + (i - N))%nat by lia; apply H1; lia|].
  destruct (Nat.lt_ge_cases i (N + K + N)) as [L2|L2]; [replace i with (N + K + (i - (N + K)))%nat by lia; apply H2; lia|].
  replace i with (N + K + N + (i - (N + K + N)))%nat by lia. apply H3. lia.
Qed.

(** ** the four rows of the eigenvalue problem *)
Variables (A c d : cmat) (e : nat -> C).
Local Notation H := (hopfield N K A c d e).
Local Notation ph v := (fun i => v i) (only parsing).
Definition part1 (v : cvec) : cvec := fun i => v (N + i)%nat.
Definition part2 (v : cvec) : cvec := fun i => v (N + K + i)%nat.
Definition part3 (v : cvec) : cvec := fun i => v (N + K + N + i)%nat.
Definition adjv (x : cvec) : cvec := fun j => csum N (fun i => Cconj (c i j) * x i)%C.
Lemma row_sum (x0 x1 x2 x3 v : cvec) : csum (2 * (N + K)) (fun j => stack4 N K x0 x1 x2 x3 j * v j)%C =
  (csum N (fun j => x0 j * v j) + csum K (fun j => x1 j * part1 v j) + csum N (fun j => x2 j * part2 v j) + csum K (fun j => x3 j * part3 v j))%C.
Proof.
  rewrite sum4. f_equal; [f_equal; [f_equal|]|]; apply csum_ext; intros j Hj; rewrite ?stack_0, ?stack_1, ?stack_2, ?stack_3 by auto; reflexivity.
Qed.
Lemma row0 v i : (i < N)%nat -> mvec (2 * (N + K)) H v i =
  (mvec N A v i - Ci * mvec K c (part1 v) i - RtoC 2 * mvec N d (part2 v) i - Ci * mvec K c (part3 v) i)%C.
Proof.
  intros Hi. unfold mvec at 1, hopfield. cbv zeta. rewrite (csum_ext _ _ (fun j => stack4 N K (A i) (fun j => - Ci * c i j) (fun j => RtoC (- 2) * d i j) (fun j => - Ci * c i j) j * v j)%C)
    by (intros; rewrite stack_0 by auto; reflexivity).
  rewrite row_sum. unfold mvec. rewrite <- !csum_scal_l. unfold Cminus. rewrite <- !csum_opp.
  apply f_equal2; [apply f_equal2; [apply f_equal2|]|]; apply csum_ext; intros; cring.
Qed.
Lemma delta_l n i f : (i < n)%nat -> csum n (fun j => (if Nat.eqb i j then e i else RtoC 0) * f j)%C = (e i * f i)%C.
Proof.
  intros Hi. rewrite (csum_single n i); auto; [rewrite Nat.eqb_refl; reflexivity|].
  intros j Hj Hn. rewrite (proj2 (Nat.eqb_neq i j)) by auto. ring.
Qed.
Lemma row1 v i : (i < K)%nat -> mvec (2 * (N + K)) H v (N + i)%nat =
  (Ci * adjv v i + e i * part1 v i - Ci * adjv (part2 v) i)%C.
Proof.
  intros Hi. unfold mvec at 1, hopfield. cbv zeta.
  rewrite (csum_ext _ _ (fun j => stack4 N K (fun j => Ci * Cconj (c j i)) (fun j => if Nat.eqb i j then e i else RtoC 0) (fun j => - Ci * Cconj (c j i)) (fun j => (if Nat.eqb i j then e i else RtoC 0) * RtoC 0) j * v j)%C)
    by (intros; rewrite stack_1 by auto; reflexivity).
  rewrite row_sum, delta_l by auto. rewrite (csum_0 K) by (intros; ring). unfold adjv. rewrite <- !csum_scal_l. unfold Cminus. rewrite <- !csum_opp, Cplus_0_r.
  apply f_equal2; [apply f_equal2; [|reflexivity]|]; apply csum_ext; intros; cring.
Qed.
Lemma row2 v i : (i < N)%nat -> mvec (2 * (N + K)) H v (N + K + i)%nat =
  (RtoC 2 * mvec N d v i - Ci * mvec K c (part1 v) i - mvec N A (part2 v) i - Ci * mvec K c (part3 v) i)%C.
Proof.
  intros Hi. unfold mvec at 1, hopfield. cbv zeta. rewrite (csum_ext _ _ (fun j => stack4 N K (fun j => RtoC 2 * d i j) (fun j => - Ci * c i j) (fun j => - A i j) (fun j => - Ci * c i j) j * v j)%C)
    by (intros; rewrite stack_2 by auto; reflexivity).
  rewrite row_sum. unfold mvec. rewrite <- !csum_scal_l. unfold Cminus. rewrite <- !csum_opp.
  apply f_equal2; [apply f_equal2; [apply f_equal2|]|]; apply csum_ext; intros; cring.
Qed.
Lemma row3 v i : (i < K)%nat -> mvec (2 * (N + K)) H v (N + K + N + i)%nat =
  (- Ci * adjv v i + Ci * adjv (part2 v) i - e i * part3 v i)%C.
Proof.
  intros Hi. unfold mvec at 1, hopfield. cbv zeta.
  rewrite (csum_ext _ _ (fun j => stack4 N K (fun j => - Ci * Cconj (c j i)) (fun j => (if Nat.eqb i j then e i else RtoC 0) * RtoC 0) (fun j => Ci * Cconj (c j i)) (fun j => - (if Nat.eqb i j then e i else RtoC 0)) j * v j)%C)
    by (intros; rewrite stack_3 by auto; reflexivity).
  rewrite row_sum. rewrite (csum_0 K (fun j => _ * _ * part1 v j)%C) by (intros; ring).
  rewrite (csum_ext K _ (fun j => - ((if Nat.eqb i j then e i else RtoC 0) * part3 v j))%C) by (intros; ring). rewrite csum_opp, delta_l by auto.
  unfold adjv. rewrite <- !csum_scal_l. unfold Cminus. rewrite Cplus_0_r.
  apply f_equal2; [apply f_equal2|reflexivity]; apply csum_ext; intros; cring.
Qed.

(** ** exchange of the halves *)
Local Ltac ltb := repeat match goal with |- context [Nat.ltb ?x ?y] => first [rewrite (proj2 (Nat.ltb_lt x y)) by lia | rewrite (proj2 (Nat.ltb_ge x y)) by lia] end.
Lemma mirror_0 v i : (i < N)%nat -> mirror N K v i = part2 v i.
Proof. intros Hi. unfold mirror, part2. cbv zeta. ltb. f_equal. lia. Qed.
Lemma mirror_1 v i : (i < K)%nat -> mirror N K v (N + i)%nat = (- part3 v i)%C.
Proof. intros Hi. unfold mirror, part3. cbv zeta. ltb. do 2 f_equal. lia. Qed.
Lemma mirror_2 v i : (i < N)%nat -> mirror N K v (N + K + i)%nat = v i.
Proof. intros Hi. unfold mirror. cbv zeta. ltb. f_equal. lia. Qed.
Lemma mirror_3 v i : (i < K)%nat -> mirror N K v (N + K + N + i)%nat = (- part1 v i)%C.
Proof. intros Hi. unfold mirror, part1. cbv zeta. ltb. do 2 f_equal. lia. Qed.
Lemma mvec_opp_ext n B x y i : (forall j, (j < n)%nat -> x j = (- y j)%C) -> mvec n B x i = (- mvec n B y i)%C.
Proof. intros E. unfold mvec. rewrite <- csum_opp. apply csum_ext. intros j Hj. rewrite E by auto. ring. Qed.
Lemma adjv_ext x y i : (forall j, (j < N)%nat -> x j = y j) -> adjv x i = adjv y i.
Proof. intros E. unfold adjv. apply csum_ext. intros j Hj. rewrite E by auto. reflexivity. Qed.
Lemma mvec_eq n B x y i : (forall j, (j < n)%nat -> x j = y j) -> mvec n B x i = mvec n B y i.
Proof. intros E. unfold mvec. apply csum_ext. intros j Hj. rewrite E by auto. reflexivity. Qed.
Lemma mirror_anti v i : (i < 2 * (N + K))%nat -> mvec (2 * (N + K)) H (mirror N K v) i = (- mirror N K (mvec (2 * (N + K)) H v) i)%C.
Proof.
  set (u := mirror N K v).
  assert (U0 : forall j, (j < N)%nat -> u j = part2 v j) by (intros; apply mirror_0; auto).
  assert (U1 : forall j, (j < K)%nat -> part1 u j = (- part3 v j)%C) by (intros; apply mirror_1; auto).
  assert (U2 : forall j, (j < N)%nat -> part2 u j = v j) by (intros; apply mirror_2; auto).
  assert (U3 : forall j, (j < K)%nat -> part3 u j = (- part1 v j)%C) by (intros; apply mirror_3; auto).
  revert i. apply split4; intros i Hi.
  - rewrite mirror_0 by auto. unfold part2 at 1. rewrite (row0 u i), (row2 v i) by auto.
    rewrite (mvec_eq N A u _ i U0), (mvec_eq N d (part2 u) _ i U2), (mvec_opp_ext K c (part1 u) _ i U1), (mvec_opp_ext K c (part3 u) _ i U3). ring.
  - rewrite mirror_1 by auto. unfold part3 at 1. rewrite (row1 u i), (row3 v i) by auto.
    rewrite (adjv_ext u _ i U0), (adjv_ext (part2 u) _ i U2), U1 by auto. ring.
  - rewrite mirror_2 by auto. rewrite (row2 u i), (row0 v i) by auto.
    rewrite (mvec_eq N A (part2 u) _ i U2), (mvec_eq N d u _ i U0), (mvec_opp_ext K c (part1 u) _ i U1), (mvec_opp_ext K c (part3 u) _ i U3). ring.
  - rewrite mirror_3 by auto. unfold part1 at 1. rewrite (row3 u i), (row1 v i) by auto.
    rewrite (adjv_ext u _ i U0), (adjv_ext (part2 u) _ i U2), U3 by auto. ring.
Qed.
Lemma mirror_ext v w i : (i < 2 * (N + K))%nat -> (forall j, (j < 2 * (N + K))%nat -> v j = w j) -> mirror N K v i = mirror N K w i.
Proof.
  intros Hi E. unfold mirror. cbv zeta. destruct (Nat.ltb_spec i (N + K)); [rewrite (E (i + (N + K))%nat) by lia|rewrite (E (i - (N + K))%nat) by lia]; reflexivity.
Qed.
Lemma mirror_scal l v i : mirror N K (fun j => l * v j)%C i = (l * mirror N K v i)%C.
Proof. unfold mirror. cbv zeta. destruct (Nat.ltb (if (i <? N + K)%nat then i else (i - (N + K))%nat) N); ring. Qed.
Lemma mirror_mirror v i : (i < 2 * (N + K))%nat -> mirror N K (mirror N K v) i = v i.
Proof.
  revert i. apply split4; intros i Hi; [rewrite mirror_0|rewrite mirror_1|rewrite mirror_2|rewrite mirror_3]; auto; unfold part1, part2, part3;
    [rewrite mirror_2|rewrite mirror_3|rewrite mirror_0|rewrite mirror_1]; auto; unfold part1, part2, part3; ring.
Qed.
Lemma mirror_nonzero v : (exists i, (i < 2 * (N + K))%nat /\ v i <> RtoC 0) -> exists i, (i < 2 * (N + K))%nat /\ mirror N K v i <> RtoC 0.
Proof.
  intros (i & Hi & Hv). set (j := if Nat.ltb i (N + K) then (i + (N + K))%nat else (i - (N + K))%nat).
  assert (Hj : (j < 2 * (N + K))%nat) by (unfold j; destruct (Nat.ltb_spec i (N + K)); lia). exists j. split; auto.
  intros Z. apply Hv. rewrite <- (mirror_mirror v i Hi). unfold mirror at 1. cbv zeta. fold j. rewrite Z. destruct (Nat.ltb _ N); ring.
Qed.
Lemma mirror_pair l v : eigvec (2 * (N + K)) H l v -> eigvec (2 * (N + K)) H (- l)%C (mirror N K v).
Proof.
  intros [Hn He]. split; [apply mirror_nonzero; auto|]. intros i Hi. rewrite mirror_anti by auto.
  rewrite (mirror_ext (mvec _ H v) (fun j => l * v j)%C i Hi He), mirror_scal. ring.
Qed.
End Blocks.

(** ** no coupling *)
Lemma uncoupled N K A d e w (c : cmat) : (forall i j, (i < N)%nat -> (j < K)%nat -> c i j = RtoC 0) -> (forall i j, (i < N)%nat -> (j < N)%nat -> d i j = RtoC 0) ->
  (forall i j, (i < N)%nat -> (j < N)%nat -> A i j = if Nat.eqb i j then w i else RtoC 0) ->
  forall i j, (i < 2 * (N + K))%nat -> (j < 2 * (N + K))%nat ->
  hopfield N K A c d e i j = if Nat.eqb i j then stack4 N K w e (fun i => - w i)%C (fun i => - e i)%C i else RtoC 0.
Proof.
  intros Hc Hd HA i j Hi Hj. unfold hopfield. cbv zeta. revert j Hj. pattern i. revert i Hi.
  apply split4; intros i Hi j Hj; pattern j; revert j Hj; apply split4; intros j Hj;
    repeat first [rewrite stack_3 | rewrite stack_2 by auto | rewrite stack_1 by auto | rewrite stack_0 by auto];
    try (match goal with |- _ = if Nat.eqb ?a ?b then _ else _ => rewrite (proj2 (Nat.eqb_neq a b)) by lia end; rewrite ?Hc, ?Hd, ?Cconj_R by auto; ring).
  - auto.
  - destruct (Nat.eqb_spec i j) as [->|Hn]; [rewrite Nat.eqb_refl; auto|]. rewrite (proj2 (Nat.eqb_neq _ _)) by lia. auto.
  - destruct (Nat.eqb_spec i j) as [->|Hn]; [rewrite Nat.eqb_refl|rewrite (proj2 (Nat.eqb_neq (N + K + i) _)) by lia]; rewrite HA by auto; [rewrite Nat.eqb_refl; auto|].
    rewrite (proj2 (Nat.eqb_neq i j)) by auto. ring.
  - destruct (Nat.eqb_spec i j) as [->|Hn]; [rewrite Nat.eqb_refl; auto|]. rewrite (proj2 (Nat.eqb_neq (N + K + N + i) _)) by lia. ring.
Qed.

(** ** fractions *)
Lemma rsuml_cons x l : rsuml (x :: l) = x + rsuml l.
Proof. reflexivity. Qed.
Lemma weight_nonneg v lo len : 0 <= weight v lo len.
Proof.
  unfold weight. generalize (seq 0 len). intros l. induction l as [|i l IH]; [unfold rsuml; simpl; lra|]. cbn [map]. rewrite rsuml_cons.
  pose proof (pow2_ge_0 (Cmod (v (lo + i)%nat))). lra.
Qed.
Lemma weight_sum v lo len : RtoC (weight v lo len) = csum len (fun i => Cconj (v (lo + i)%nat) * v (lo + i)%nat)%C.
Proof.
  assert (G : forall s, RtoC (rsuml (map (fun i => Cmod (v (lo + i)%nat) ^ 2) (seq s len))) = csum len (fun i => Cconj (v (lo + (s + i))%nat) * v (lo + (s + i))%nat)%C).
  { induction len as [|n IH]; intros s; [reflexivity|]. cbn [seq map]. rewrite rsuml_cons, csum_first, RtoC_plus, IH. rewrite Nat.add_0_r. f_equal.
    - rewrite Cmult_comm, <- Cmod2_conj || idtac. apply Ceq; cbn [fst snd Cmult Cconj RtoC]; [|ring].
      unfold Cmod. rewrite pow2_sqrt; [ring|]. pose proof (pow2_ge_0 (fst (v (lo + s)%nat))); pose proof (pow2_ge_0 (snd (v (lo + s)%nat))); lra.
    - apply csum_ext. intros i Hi. rewrite Nat.add_succ_comm. reflexivity. }
  unfold weight. rewrite G. reflexivity.
Qed.
Lemma fractions_unit N K v : cdot (2 * (N + K)) v v = RtoC 1 ->
  let (x, p) := fractions N K v in 0 <= x <= 1 /\ 0 <= p <= 1 /\ x + p = 1.
Proof.
  intros Hu. unfold fractions.
  replace (2 * (N + K) - (2 * N + K))%nat with K by lia. replace (2 * N + K - (N + K))%nat with N by lia.
  pose proof (weight_nonneg v N K). pose proof (weight_nonneg v (2 * N + K) K). pose proof (weight_nonneg v 0 N). pose proof (weight_nonneg v (N + K) N).
  assert (E : weight v N K + weight v (2 * N + K) K + (weight v 0 N + weight v (N + K) N) = 1).
  { apply RtoC_inj. rewrite !RtoC_plus, !weight_sum, <- Hu. unfold cdot. rewrite sum4.
    rewrite (csum_ext K (fun i => Cconj (v (2 * N + K + i)%nat) * v (2 * N + K + i)%nat)%C (fun i => Cconj (v (N + K + N + i)%nat) * v (N + K + N + i)%nat)%C)
      by (intros i Hi; replace (2 * N + K + i)%nat with (N + K + N + i)%nat by lia; reflexivity).
    rewrite (csum_ext N (fun i => Cconj (v (0 + i)%nat) * v (0 + i)%nat)%C (fun i => Cconj (v i) * v i)%C) by reflexivity. ring. }
  lra.
Qed.
