(** Uniqueness of the spectrum, scaling, uniform permittivity (C49). *)
From Coq Require Import Permutation List.
From Verif Require Import Py CBase LatticeModel PhcModel RecipModel RecipSpec MatElModel FieldsModel RunModel RunSpec RunProofs PweSpec PweModel PweProofs.
Open Scope R_scope.
Open Scope list_scope.

(** ** orthonormal columns make orthonormal rows *)
Lemma rows_orth n V : (forall j k, (j < n)%nat -> (k < n)%nat ->
     csum n (fun i => (Cconj (V i j) * V i k)%C) = if Nat.eqb j k then RtoC 1 else RtoC 0) ->
  meq n n (mmul n V (madj V)) mid.
Proof.
  intros H. set (P := mmul n V (madj V)).
  assert (PP : forall i, (i < n)%nat -> mmul n P P i i = P i i).
  { intros i Hi. unfold P at 1. rewrite mmul_assoc. unfold P at 2.
    apply (mmul_ext n V V (mmul n (madj V) P) (madj V)); auto. intros j Hj. unfold P.
    rewrite <- mmul_assoc. rewrite (mmul_ext n (mmul n (madj V) V) mid (madj V) (madj V)); auto; [apply mmul_id_l; auto|].
    intros l Hl. unfold mmul, madj, mid. apply H; auto. }
  assert (Pherm : forall i j, P j i = Cconj (P i j)).
  { intros i j. unfold P, mmul, madj. rewrite csum_conj. apply csum_ext. intros. rewrite Cconj_mult, Cconj_conj. ring. }
  assert (P1 : forall i, (i < n)%nat -> P i i = RtoC 1).
  { intros i Hi. rewrite <- (rows_unit n V H i Hi). unfold P, mmul, madj. apply csum_ext. intros. ring. }
  intros i j Hi Hj. change (P i j = mid i j). unfold mid. destruct (Nat.eqb_spec i j) as [->|Hne]; [apply P1; auto|].
  pose proof (PP i Hi) as E. rewrite P1 in E by auto. unfold mmul in E.
  set (f k := Cmult (P i k) (P k i)). change (csum n f = RtoC 1) in E.
  assert (N : forall k, 0 <= fst (f k)) by (intros k; unfold f; rewrite (Pherm i k), Cconj_mod; simpl; nra).
  (* drop the diagonal term *)
  set (g k := if Nat.eqb k i then RtoC 0 else f k).
  assert (E2 : csum n f = Cplus (csum n g) (RtoC 1)).
  { rewrite <- (csum_delta n i (RtoC 1)) by auto. rewrite <- csum_plus. apply csum_ext. intros k Hk. unfold g, f.
    destruct (Nat.eqb_spec k i) as [->|]; [rewrite P1 by auto|]; ring. }
  rewrite E2 in E. apply (f_equal fst) in E. change (fst (csum n g) + 1 = 1) in E.
  assert (G : fst (g j) <= fst (csum n g)).
  { apply fst_csum_ge; auto. intros k _. unfold g. destruct (Nat.eqb k i); [simpl; lra|apply N]. }
  unfold g at 1 in G. destruct (Nat.eqb_spec j i); [congruence|]. unfold f in G. rewrite (Pherm i j), Cconj_mod in G. cbn [fst RtoC] in G.
  apply Ceq; simpl; nra.
Qed.

(** a Hermitian matrix has one spectrum *)
Lemma eigs_unique n A ls V ms W : eigensystem n A ls V -> eigensystem n A ms W -> Permutation ms ls.
Proof.
  intros (L1 & L2 & L3) (M1 & M2 & M3). pose proof (rows_orth n V L2) as RV.
  rewrite <- L1 in *. set (U := mmul (List.length ls) (madj V) W). set (D := fun i j : nat => if Nat.eqb i j then RtoC (nth i ls 0) else RtoC 0).
  apply (diagonal_eigs ls D ms U); [intros; reflexivity|]. set (n' := List.length ls) in *.
  split; [auto|]. split.
  - intros j k Hj Hk. rewrite <- (M2 j k Hj Hk).
    change (csum n' (fun i => (Cconj (U i j) * U i k)%C)) with (mmul n' (madj U) U j k).
    change (csum n' (fun i => (Cconj (W i j) * W i k)%C)) with (mmul n' (madj W) W j k).
    transitivity (mmul n' (madj W) (mmul n' V U) j k).
    { rewrite <- mmul_assoc. apply mmul_ext; auto. intros i Hi. unfold U. rewrite madj_mmul. unfold mmul, madj. apply csum_ext. intros. rewrite Cconj_conj. ring. }
    apply mmul_ext; auto. intros i Hi. unfold U. rewrite <- mmul_assoc. rewrite (mmul_ext n' (mmul n' V (madj V)) mid W W) by auto. apply mmul_id_l; auto.
  - intros i j Hi Hj. unfold mvec, D. rewrite (csum_single n' i); auto.
    2:{ intros k Hk Hne. destruct (Nat.eqb_spec i k); [congruence|ring]. }
    rewrite Nat.eqb_refl.
    (* V_i^* A W_j computed both ways *)
    assert (C1 : csum n' (fun a => Cmult (Cconj (V a i)) (mvec n' A (fun a => W a j) a)) = (RtoC (nth j ms 0%R) * U i j)%C).
    { unfold U, mmul, madj. rewrite <- csum_scal_l. apply csum_ext. intros a Ha. rewrite M3 by auto. ring. }
    rewrite <- C1.
    (* expand W in the columns of V *)
    assert (WU : forall a, (a < n')%nat -> W a j = csum n' (fun b => Cmult (V a b) (U b j))).
    { intros a Ha. change (W a j = mmul n' V U a j). unfold U. rewrite <- mmul_assoc.
      rewrite (mmul_ext n' (mmul n' V (madj V)) mid W W) by auto. symmetry. apply mmul_id_l. auto. }
    assert (AW : forall a, (a < n')%nat -> mvec n' A (fun a => W a j) a = csum n' (fun b => Cmult (Cmult (RtoC (nth b ls 0)) (V a b)) (U b j))).
    { intros a Ha. unfold mvec. rewrite (csum_ext n' _ (fun c => csum n' (fun b => Cmult (Cmult (A a c) (V c b)) (U b j)))).
      2:{ intros c Hc. rewrite WU by auto. rewrite <- csum_scal_l. apply csum_ext. intros. ring. }
      rewrite csum_swap. apply csum_ext. intros b Hb. rewrite csum_scal_r. f_equal. apply (L3 a b Ha Hb). }
    rewrite (csum_ext n' (fun a => Cmult (Cconj (V a i)) (mvec n' A (fun a0 => W a0 j) a))
       (fun a => csum n' (fun b => Cmult (Cmult (RtoC (nth b ls 0)) (U b j)) (Cmult (Cconj (V a i)) (V a b))))).
    2:{ intros a Ha. rewrite AW by auto. rewrite <- csum_scal_l. apply csum_ext. intros. ring. }
    rewrite csum_swap. rewrite (csum_single n' i); auto.
    + rewrite csum_scal_l, L2, Nat.eqb_refl by auto. ring.
    + intros b Hb Hne. rewrite csum_scal_l, L2 by auto. destruct (Nat.eqb_spec i b); [congruence|ring].
Qed.

(** a multiset has one ascending enumeration *)
Lemma asc_unique l m : Permutation l m -> ascending l -> ascending m -> l = m.
Proof.
  assert (Head : forall x l, ascending (x :: l) -> forall y, In y l -> x <= y).
  { intros x l0 H y Hy. apply (In_nth _ _ 0) in Hy. destruct Hy as (i & Hi & <-). apply (H 0%nat (S i)). simpl. lia. }
  assert (Tail : forall x l, ascending (x :: l) -> ascending l).
  { intros x l0 H i j Hij. apply (H (S i) (S j)). simpl. lia. }
  revert m. induction l as [|x l IH]; intros m P Hl Hm.
  - apply Permutation_nil in P. auto.
  - destruct m as [|y m]; [apply Permutation_sym, Permutation_nil in P; discriminate|].
    assert (x = y).
    { assert (Iy : In y (x :: l)) by (apply (Permutation_in _ (Permutation_sym P)); left; auto).
      assert (Ix : In x (y :: m)) by (apply (Permutation_in _ P); left; auto).
      destruct Iy as [|Iy]; auto. destruct Ix as [|Ix]; auto. apply Rle_antisym; [apply (Head x l)|apply (Head y m)]; auto. }
    subst y. f_equal. apply IH; eauto. apply (Permutation_cons_inv P).
Qed.
Lemma lowest_unique n m A fs vs fs' vs' : lowest n m A fs vs -> lowest n m A fs' vs' -> fs = fs'.
Proof.
  intros (ls & V & E & H1 & H2 & -> & _) (ms & W & E' & H1' & H2' & -> & _).
  rewrite (asc_unique ls ms); auto. apply Permutation_sym. apply (eigs_unique n A ls V ms W); auto.
Qed.

(** ** scaling *)
Lemma lowest_scale n m A c fs vs : 0 <= c -> lowest n m A fs vs ->
  lowest n m (fun i j => Cmult (RtoC c) (A i j)) (map (Rmult (sqrt c)) fs) vs.
Proof.
  intros Hc (ls & V & (E1 & E2 & E3) & H1 & H2 & -> & H4).
  exists (map (Rmult c) ls), V.
  assert (Nth : forall j, nth j (map (Rmult c) ls) 0 = c * nth j ls 0).
  { intros j. transitivity (nth j (map (Rmult c) ls) (c * 0)); [f_equal; ring|]. apply map_nth. }
  split; [|split; [|split; [|split; [|exact H4]]]].
  - split; [rewrite map_length; auto|]. split; [exact E2|]. intros i j Hi Hj. rewrite Nth, RtoC_mult.
    transitivity (Cmult (RtoC c) (mvec n A (fun i => V i j) i)); [|rewrite E3 by auto; ring].
    unfold mvec. rewrite <- csum_scal_l. apply csum_ext. intros. ring.
  - intros i j Hij. rewrite map_length in Hij. rewrite !Nth. apply Rmult_le_compat_l; auto.
  - intros l I. apply in_map_iff in I. destruct I as (x & <- & I). apply Rmult_le_pos; auto.
  - rewrite firstn_map, !map_map. apply map_ext_in. intros x I.
    assert (0 <= x) by (apply H2; rewrite <- (firstn_skipn m ls); apply in_or_app; auto).
    rewrite sqrt_mult by auto. field. apply PI_neq0.
Qed.
Lemma lowest_ext n m A A' fs vs : (forall i j, (i < n)%nat -> (j < n)%nat -> A i j = A' i j) -> lowest n m A fs vs -> lowest n m A' fs vs.
Proof.
  intros H (ls & V & (E1 & E2 & E3) & R). exists ls, V. split; [|exact R]. split; [auto|]. split; [auto|].
  intros i j Hi Hj. rewrite <- E3 by auto. unfold mvec. apply csum_ext. intros. rewrite H; auto.
Qed.

(** ** diagonal matrices *)
Lemma sqrt_asc l : ascending l -> ascending (map (fun x => sqrt x / (2 * PI)) l).
Proof.
  intros H i j [Hij Hj]. rewrite map_length in Hj. set (f := fun x => sqrt x / (2 * PI)).
  rewrite !(nth_indep (map f l) 0 (f 0)) by (rewrite map_length; lia). rewrite !map_nth. unfold f.
  pose proof PI_RGT_0. apply Rmult_le_compat_r; [left; apply Rinv_0_lt_compat; lra|]. apply sqrt_le_1_alt. apply H. lia.
Qed.
Lemma lowest_diag m (ds : list R) A fs vs : (forall i j, (i < List.length ds)%nat -> (j < List.length ds)%nat ->
    A i j = if Nat.eqb i j then RtoC (nth i ds 0) else RtoC 0) ->
  lowest (List.length ds) m A fs vs -> smallest m (map (fun d => sqrt d / (2 * PI)) ds) fs.
Proof.
  intros HA (ls & V & E & H1 & H2 & -> & _). exists (map (fun d => sqrt d / (2 * PI)) ls). split; [|split].
  - apply Permutation_map. apply (diagonal_eigs ds A ls V); auto.
  - apply sqrt_asc. auto.
  - symmetry. apply firstn_map.
Qed.
