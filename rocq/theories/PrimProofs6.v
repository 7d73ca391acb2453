(** The gradients of eigh and eigsh, concluded. *)
From Verif Require Import Py CBase RecipModel PweProofs2 PrimSpec PrimModel PrimProofs PrimProofs3 PrimProofs5.
Open Scope R_scope.
Open Scope list_scope.

Lemma pairR_curve n g X dX : curveR n X dX -> derivable_pt_lim (fun s => pairR n g (X s)) 0 (pairR n g dX).
Proof.
  intros H. unfold pairR. apply (cderiv_fst (fun s => csum n (fun i => RtoC (g i * X s i)))).
  apply (cderiv_csum n (fun s i => RtoC (g i * X s i))). intros i Hi. apply cderiv_RtoC.
  eapply dlim_val; [|apply (derivable_pt_lim_mult (fun _ => g i) (fun s => X s i) 0 0 (dX i)); [apply derivable_pt_lim_const|apply H; auto]]. ring.
Qed.
Definition melt (n : nat) (v dH : cmat) (l j : nat) : C := csum n (fun i => Cmult (Cconj (v i l)) (csum n (fun a => Cmult (dH i a) (v a j)))).
Lemma sandwich n k v Q dH :
  csum n (fun a => csum n (fun b => Cmult (csum k (fun j => Cmult (csum k (fun l => Cmult (Cconj (v a l)) (Q l j))) (v b j))) (dH a b))) =
  csum k (fun j => csum k (fun l => Cmult (Q l j) (melt n v dH l j))).
Proof.
  transitivity (csum n (fun a => csum k (fun j => csum k (fun l => Cmult (Cmult (Q l j) (Cconj (v a l))) (csum n (fun b => Cmult (dH a b) (v b j))))))).
  { apply csum_ext. intros a _.
    rewrite (csum_ext n _ (fun b => csum k (fun j => csum k (fun l => Cmult (Cmult (Q l j) (Cconj (v a l))) (Cmult (dH a b) (v b j)))))).
    2:{ intros b _. rewrite <- csum_scal_r. apply csum_ext. intros j _. rewrite <- !csum_scal_r. apply csum_ext. intros. ring. }
    rewrite csum_swap. apply csum_ext. intros j _. rewrite csum_swap. apply csum_ext. intros l _. rewrite csum_scal_l. auto. }
  rewrite csum_swap. apply csum_ext. intros j _. rewrite csum_swap. apply csum_ext. intros l _. unfold melt. rewrite <- csum_scal_l.
  apply csum_ext. intros. ring.
Qed.
Lemma value_part n v wg dH : csum n (fun a => csum n (fun b => Cmult (mmul n (fun i j => Cmult (Cconj (v i j)) (RtoC (wg j))) (mtr v) a b) (dH a b))) =
  csum n (fun j => Cmult (RtoC (wg j)) (melt n v dH j j)).
Proof.
  transitivity (csum n (fun a => csum n (fun b => Cmult (csum n (fun j => Cmult (csum n (fun l => Cmult (Cconj (v a l)) (if Nat.eqb l j then RtoC (wg j) else RtoC 0))) (v b j))) (dH a b)))).
  { apply csum_ext. intros a _. apply csum_ext. intros b _. f_equal. unfold mmul, mtr. apply csum_ext. intros j Hj. f_equal.
    rewrite (csum_single n j); auto; [rewrite Nat.eqb_refl; auto|]. intros l _ Nl. destruct (Nat.eqb_spec l j); [congruence|ring]. }
  rewrite (sandwich n n v (fun l j => if Nat.eqb l j then RtoC (wg j) else RtoC 0)). apply csum_ext. intros j Hj.
  rewrite (csum_single n j); auto; [rewrite Nat.eqb_refl; auto|]. intros l _ Nl. destruct (Nat.eqb_spec l j); [congruence|ring].
Qed.

Section Eigh.
Variables (low : bool) (n : nat) (X : R -> cmat) (dX : cmat) (w : R -> nat -> R) (V : R -> cmat).
Hypothesis HX : curve2 n n X dX.
Hypothesis HE : nearby (fun s => eigenpairs n n (herm low (X s)) (w s) (V s)).
Let dH := herm low dX.
Lemma Fst_scal x z : fst (Cmult (RtoC x) z) = x * fst z. Proof. cbn. ring. Qed.
Lemma pairR_melt wg : pairR n wg (fun j => fst (melt n (V 0) dH j j)) = fst (csum n (fun j => Cmult (RtoC (wg j)) (melt n (V 0) dH j j))).
Proof. unfold pairR. apply fst_csum. intros j Hj. rewrite Fst_scal. reflexivity. Qed.

(** the loss depends on the eigenvalues only: no derivative of the vectors and
    no simplicity of the spectrum is needed *)
Lemma eigh_values wg : (forall i j, (i < n)%nat -> (j < n)%nat -> ccont (fun s => V s i j)) ->
  derivable_pt_lim (fun s => pairR n wg (w s)) 0 (pair2 n n (vjp_eigh low n (w 0) (V 0) wg (fun _ _ => RtoC 0)) dX).
Proof.
  intros HV. unfold vjp_eigh. rewrite fold_pair. fold dH. unfold vjp_eigh_full. cbv zeta.
  destruct (any2 n n (fun _ _ => RtoC 0)) eqn:A.
  { exfalso. unfold any2 in A. apply existsb_exists in A. destruct A as (i & _ & A). apply existsb_exists in A. destruct A as (j & _ & A).
    unfold cnz in A. cbn [fst snd RtoC] in A. rewrite (proj2 (Reqb_true 0 0) eq_refl) in A. discriminate. }
  unfold pair2. rewrite value_part, <- pairR_melt. apply pairR_curve. intros j Hj.
  apply (w_deriv n n (fun s => herm low (X s)) w V dH (herm_curve low n X dX HX) (herm_hermitian low n (X 0)) HE HV j Hj).
Qed.

Variable dV : cmat.
Hypothesis HV : curve2 n n V dV.
Lemma eigh_adjoint wg vg :
  (forall j, (j < n)%nat -> phase_ok n (fun i => V 0 i j) (fun i => dV i j) (fun i => vg i j)) ->
  ((exists i j, (i < n)%nat /\ (j < n)%nat /\ vg i j <> RtoC 0) -> forall i j, (i < n)%nat -> (j < n)%nat -> i <> j -> w 0 i <> w 0 j) ->
  derivable_pt_lim (fun s => pairR n wg (w s) + pair2 n n vg (V s)) 0 (pair2 n n (vjp_eigh low n (w 0) (V 0) wg vg) dX).
Proof.
  intros HP HD. unfold vjp_eigh. rewrite fold_pair. fold dH.
  pose proof (herm_curve low n X dX HX) as HH. pose proof (herm_hermitian low n (X 0)) as Hh. fold dH in HH.
  set (H := fun s => herm low (X s)) in *.
  assert (DW : curveR n w (fun j => fst (melt n (V 0) dH j j))) by (intros j Hj; apply (w_deriv' n n H w V dH HH Hh HE dV HV j Hj)).
  apply (dlim_val _ (pairR n wg (fun j => fst (melt n (V 0) dH j j)) + pair2 n n vg dV)).
  2:{ apply (derivable_pt_lim_plus _ _ 0 _ _ (pairR_curve n wg w _ DW) (pair2_curve n n vg V dV HV)). }
  rewrite pairR_melt. unfold vjp_eigh_full. cbv zeta. destruct (any2 n n vg) eqn:A.
  - assert (D : forall i j, (i < n)%nat -> (j < n)%nat -> i <> j -> w 0 i <> w 0 j).
    { apply HD. unfold any2 in A. apply existsb_exists in A. destruct A as (i & Ii & A). apply existsb_exists in A. destruct A as (j & Ij & A).
      apply in_seq in Ii, Ij. exists i, j. split; [lia|]. split; [lia|]. intros E. rewrite E in A. unfold cnz in A. cbn [fst snd RtoC] in A.
      rewrite (proj2 (Reqb_true 0 0) eq_refl) in A. discriminate. }
    unfold pair2.
    rewrite (csum_ext n (fun i => csum n (fun j => Cmult (Cplus _ _) (dH i j)))
      (fun a => Cplus (csum n (fun b => Cmult (mmul n (fun i j => Cmult (Cconj (V 0 i j)) (RtoC (wg j))) (mtr (V 0)) a b) (dH a b)))
                      (csum n (fun b => Cmult (csum n (fun j => Cmult (csum n (fun l => Cmult (Cconj (V 0 a l)) (Cmult (Fmat (w 0) l j) (mmul n (mtr (V 0)) vg l j)))) (V 0 b j))) (dH a b))))).
    2:{ intros a _. rewrite <- csum_plus. apply csum_ext. intros b _. rewrite Cmult_plus_distr_r. reflexivity. }
    rewrite csum_plus, value_part. rewrite (sandwich n n (V 0) (fun l j => Cmult (Fmat (w 0) l j) (mmul n (mtr (V 0)) vg l j))).
    cbn [fst Cplus]. f_equal.
    (* expand dV in the eigenvectors *)
    set (O l j := csum n (fun i => Cmult (Cconj (V 0 i l)) (dV i j))).
    assert (RO : forall a j, (a < n)%nat -> dV a j = csum n (fun l => Cmult (V 0 a l) (O l j))).
    { intros a j Ha. symmetry. change (mmul n (V 0) (mmul n (madj (V 0)) dV) a j = dV a j). rewrite <- mmul_assoc.
      destruct HE as (d & Hd & F). destruct (F 0 ltac:(rewrite Rabs_R0; auto)) as (On & _).
      rewrite (mmul_ext n (mmul n (V 0) (madj (V 0))) mid dV dV); auto; [apply mmul_id_l; auto|]. intros b Hb. apply (rows_orth n (V 0)); auto. }
    transitivity (fst (csum n (fun j => csum n (fun l => Cmult (mmul n (mtr (V 0)) vg l j) (O l j))))).
    { f_equal. rewrite csum_swap. apply csum_ext. intros j _.
      rewrite (csum_ext n _ (fun a => csum n (fun l => Cmult (Cmult (V 0 a l) (vg a j)) (O l j)))).
      2:{ intros a Ha. rewrite RO by auto. rewrite <- csum_scal_l. apply csum_ext. intros. ring. }
      rewrite csum_swap. apply csum_ext. intros l _. rewrite csum_scal_r. reflexivity. }
    apply fst_csum. intros j Hj. apply fst_csum. intros l Hl. unfold Fmat. destruct (Nat.eqb_spec l j) as [->|Nl].
    + rewrite Rminus_eq_0. transitivity 0.
      * apply (phase_term n n H w V HE dV HV (fun i => vg i j) j Hj). apply HP; auto.
      * unfold Cdiv. rewrite !Cmult_0_l. reflexivity.
    + f_equal. rewrite Rminus_0_r, Rplus_0_r.
      assert (NZ : RtoC (w 0 j - w 0 l) <> RtoC 0) by (apply RtoC_neq0; intros E; apply (D l j Hl Hj Nl); lra).
      pose proof (O_off n n H w V dH HH Hh HE dV HV l j Hl Hj Nl) as Eo. change (Cmult (RtoC (w 0 j - w 0 l)) (O l j) = melt n (V 0) dH l j) in Eo.
      rewrite <- Eo. field. auto.
  - assert (Z : pair2 n n vg dV = 0).
    { unfold pair2. rewrite csum_0; [reflexivity|]. intros i Hi. apply csum_0. intros j Hj. rewrite (any2_false n n vg A) by auto. ring. }
    rewrite Z, Rplus_0_r. unfold pair2. rewrite value_part. reflexivity.
Qed.
End Eigh.

(** ** eigsh *)
Section Eigsh.
Variables (n k : nat) (H : R -> cmat) (dH : cmat) (w : R -> nat -> R) (V : R -> cmat) (dV : cmat).
Variable cg : nat -> nat -> cmat -> cvec -> cvec.
Hypothesis HH : curve2 n n H dH.
Hypothesis Hh : hermitian n (H 0).
Hypothesis HE : nearby (fun s => eigenpairs n k (H s) (w s) (V s)).
Hypothesis HV : curve2 n k V dV.
Variables (wg : nat -> R) (vg : cmat).
Let v := V 0.
Let Am j : cmat := fun a b => Cminus (H 0 b a) (Cmult (RtoC (w 0 j)) (mid b a)).
Let bb j : cvec := fun a => Cminus (vg a j) (Cmult (Cconj (v a j)) (csum n (fun c => Cmult (v c j) (vg c j)))).
(** conjugate gradient solves the system it is given in every round that needs it *)
Hypothesis Hcg : forall j b, (j < k)%nat -> (exists i, (i < n)%nat /\ vg i j <> RtoC 0) -> (forall a, (a < n)%nat -> b a = bb j a) ->
  forall a, (a < n)%nat -> mvec n (Am j) (cg j n (Am j) b) a = b a.
Hypothesis HP : forall j, (j < k)%nat -> phase_ok n (fun i => v i j) (fun i => dV i j) (fun i => vg i j).

Lemma P_mvec j (x : cvec) a : (a < n)%nat ->
  mvec n (fun i l => Cminus (mid i l) (outer (fun i => Cconj (v i j)) (fun i => v i j) i l)) x a =
  Cminus (x a) (Cmult (Cconj (v a j)) (csum n (fun c => Cmult (v c j) (x c)))).
Proof.
  intros Ha. unfold mvec, outer. rewrite (csum_ext n _ (fun l => Cminus (Cmult (mid a l) (x l)) (Cmult (Cconj (v a j)) (Cmult (v l j) (x l))))) by (intros; ring).
  rewrite csum_minus, csum_scal_l. f_equal. apply (mvec_id n x a Ha).
Qed.
Lemma vdotx j (x : cvec) : (j < k)%nat ->
  csum n (fun a => Cmult (v a j) (Cminus (x a) (Cmult (Cconj (v a j)) (csum n (fun c => Cmult (v c j) (x c)))))) = RtoC 0.
Proof.
  intros Hj. destruct HE as (d & Hd & F). destruct (F 0 ltac:(rewrite Rabs_R0; auto)) as (On & _). pose proof (On j j Hj Hj) as U. rewrite Nat.eqb_refl in U.
  rewrite (csum_ext n _ (fun a => Cminus (Cmult (v a j) (x a)) (Cmult (Cmult (Cconj (v a j)) (v a j)) (csum n (fun c => Cmult (v c j) (x c)))))) by (intros; ring).
  rewrite csum_minus, csum_scal_r. unfold v at 2 3. rewrite U. ring.
Qed.
Lemma eigsh_vec j l : (j < k)%nat -> (forall a, (a < n)%nat -> mvec n (Am j) l a = bb j a) ->
  fst (csum n (fun a => Cmult (vg a j) (dV a j))) =
  - fst (csum n (fun a => csum n (fun b => Cmult (Cmult (Cminus (l a) (Cmult (Cconj (v a j)) (csum n (fun c => Cmult (v c j) (l c))))) (v b j)) (dH a b)))).
Proof.
  intros Hj Hl.
  set (s0 := csum n (fun c => Cmult (v c j) (l c))). set (l0 a := Cminus (l a) (Cmult (Cconj (v a j)) s0)).
  set (O := csum n (fun i => Cmult (Cconj (v i j)) (dV i j))).
  assert (Ph : fst (Cmult (csum n (fun a => Cmult (v a j) (vg a j))) O) = 0) by (apply (phase_term n k H w V HE dV HV (fun i => vg i j) j Hj (HP j Hj))).
  assert (B : csum n (fun a => Cmult (bb j a) (dV a j)) = Cminus (csum n (fun a => Cmult (vg a j) (dV a j))) (Cmult (csum n (fun a => Cmult (v a j) (vg a j))) O)).
  { unfold O. rewrite <- csum_scal_l, <- csum_minus. apply csum_ext. intros a _. unfold bb. ring. }
  set (m := melt n v dH j j).
  assert (Mr : m = RtoC (fst m)) by (apply (M_real n k H w V dH HH Hh HE dV HV j Hj)).
  assert (DE : forall a, (a < n)%nat -> csum n (fun b => Cmult (Cminus (H 0 a b) (Cmult (RtoC (w 0 j)) (mid a b))) (dV b j)) =
      Cminus (Cmult m (v a j)) (csum n (fun b => Cmult (dH a b) (v b j)))).
  { intros a Ha. pose proof (diff_eq n k H w V dH HH Hh HE dV HV a j Ha Hj) as E. 
    change (Cplus (csum n (fun b => Cmult (dH a b) (v b j))) (csum n (fun b => Cmult (H 0 a b) (dV b j))) = Cplus (Cmult (RtoC (fst m)) (v a j)) (Cmult (RtoC (w 0 j)) (dV a j))) in E. rewrite <- Mr in E.
    rewrite (csum_ext n _ (fun b => Cminus (Cmult (H 0 a b) (dV b j)) (Cmult (RtoC (w 0 j)) (Cmult (mid a b) (dV b j))))) by (intros; ring).
    rewrite csum_minus, csum_scal_l. fold (mvec n mid (fun b => dV b j) a). rewrite mvec_id by auto.
    transitivity (Cminus (Cminus (Cplus (csum n (fun b => Cmult (dH a b) (v b j))) (csum n (fun b => Cmult (H 0 a b) (dV b j)))) (csum n (fun b => Cmult (dH a b) (v b j)))) (Cmult (RtoC (w 0 j)) (dV a j))); [ring|].
    rewrite E. ring. }
  assert (BL : csum n (fun a => Cmult (bb j a) (dV a j)) = csum n (fun a => Cmult (l a) (Cminus (Cmult m (v a j)) (csum n (fun b => Cmult (dH a b) (v b j)))))).
  { rewrite (csum_ext n (fun a => Cmult (bb j a) (dV a j)) (fun a => csum n (fun c => Cmult (l c) (Cmult (Cminus (H 0 c a) (Cmult (RtoC (w 0 j)) (mid c a))) (dV a j))))).
    2:{ intros a Ha. rewrite <- Hl by auto. unfold mvec, Am. rewrite <- csum_scal_r. apply csum_ext. intros. ring. }
    rewrite csum_swap. apply csum_ext. intros c Hc. rewrite csum_scal_l, DE by auto. reflexivity. }
  assert (BL0 : csum n (fun a => Cmult (bb j a) (dV a j)) = Copp (csum n (fun a => Cmult (l0 a) (csum n (fun b => Cmult (dH a b) (v b j)))))).
  { rewrite BL.
    assert (A1 : csum n (fun a => Cmult (l0 a) (v a j)) = RtoC 0).
    { rewrite <- (vdotx j l Hj). apply csum_ext. intros. unfold l0, s0. ring. }
    assert (A2 : csum n (fun a => Cmult (Cconj (v a j)) (Cminus (Cmult m (v a j)) (csum n (fun b => Cmult (dH a b) (v b j))))) = RtoC 0).
    { rewrite (csum_ext n _ (fun a => Cminus (Cmult m (Cmult (Cconj (v a j)) (v a j))) (Cmult (Cconj (v a j)) (csum n (fun b => Cmult (dH a b) (v b j)))))) by (intros; ring).
      rewrite csum_minus, csum_scal_l. fold (melt n v dH j j). fold m.
      destruct HE as (d & Hd & F). destruct (F 0 ltac:(rewrite Rabs_R0; auto)) as (On & _). pose proof (On j j Hj Hj) as U. rewrite Nat.eqb_refl in U.
      unfold v. rewrite U. ring. }
    transitivity (Cplus (csum n (fun a => Cmult (l0 a) (Cminus (Cmult m (v a j)) (csum n (fun b => Cmult (dH a b) (v b j))))))
       (Cmult s0 (csum n (fun a => Cmult (Cconj (v a j)) (Cminus (Cmult m (v a j)) (csum n (fun b => Cmult (dH a b) (v b j)))))))).
    { rewrite <- csum_scal_l, <- csum_plus. apply csum_ext. intros a _. unfold l0. ring. }
    rewrite A2, Cmult_0_r, Cplus_0_r.
    rewrite (csum_ext n _ (fun a => Cminus (Cmult m (Cmult (l0 a) (v a j))) (Cmult (l0 a) (csum n (fun b => Cmult (dH a b) (v b j)))))) by (intros; ring).
    rewrite csum_minus, csum_scal_l, A1. ring. }
  rewrite B in BL0. apply (f_equal fst) in BL0. cbn [fst Cminus Cplus Copp] in BL0.
  change (fst (Copp ?x)) with (- fst x) in *. unfold Cminus in BL0. cbn [fst Cplus Copp] in BL0. rewrite Ph in BL0.
  transitivity (- fst (csum n (fun a => Cmult (l0 a) (csum n (fun b => Cmult (dH a b) (v b j)))))); [lra|]. f_equal. f_equal.
  apply csum_ext. intros a _. rewrite <- csum_scal_l. apply csum_ext. intros b _. unfold l0, s0. ring.
Qed.
Lemma round_pair j acc : (j < k)%nat ->
  pair2 n n (eigsh_round n cg (H 0) (w 0 j) (fun i => v i j) (wg j) (fun i => vg i j) j acc) dH =
  pair2 n n acc dH + (wg j * fst (melt n v dH j j) + fst (csum n (fun a => Cmult (vg a j) (dV a j)))).
Proof.
  intros Hj. unfold eigsh_round. cbv zeta.
  assert (W : forall B, pair2 n n (fun a b => Cplus (acc a b) (Cmult (RtoC (wg j)) (outer (fun i => Cconj (v i j)) (fun i => v i j) a b))) B = pair2 n n acc B + wg j * fst (melt n v B j j)).
  { intros B. unfold pair2. rewrite <- Fst_scal. change (fst ?x + fst ?y) with (fst (Cplus x y)). f_equal. unfold melt. rewrite <- csum_scal_l, <- csum_plus.
    apply csum_ext. intros a _. rewrite <- csum_scal_l, <- csum_scal_l, <- csum_plus. apply csum_ext. intros b _. unfold outer. ring. }
  destruct (existsb (fun i => cnz (vg i j)) (seq 0 n)) eqn:A.
  - apply existsb_exists in A. destruct A as (i & Ii & A). apply in_seq in Ii.
    assert (NZ : exists i, (i < n)%nat /\ vg i j <> RtoC 0).
    { exists i. split; [lia|]. intros E. rewrite E in A. unfold cnz in A. cbn [fst snd RtoC] in A. rewrite (proj2 (Reqb_true 0 0) eq_refl) in A. discriminate. }
    set (b := mvec n (fun i l => Cminus (mid i l) (outer (fun i => Cconj (v i j)) (fun i => v i j) i l)) (fun i => vg i j)).
    change (mtr (fun i0 j0 => Cminus (H 0 i0 j0) (Cmult (RtoC (w 0 j)) (mid i0 j0)))) with (Am j).
    assert (Hb : forall a, (a < n)%nat -> b a = bb j a) by (intros a Ha; unfold b; apply P_mvec; auto).
    set (l := cg j n (Am j) b).
    assert (Hl : forall a, (a < n)%nat -> mvec n (Am j) l a = bb j a) by (intros a Ha; rewrite <- Hb by auto; apply Hcg; auto).
    rewrite (eigsh_vec j l Hj Hl).
    set (l0 := mvec n (fun i l => Cminus (mid i l) (outer (fun i => Cconj (v i j)) (fun i => v i j) i l)) l).
    transitivity (pair2 n n (fun a b => Cplus (acc a b) (Cmult (RtoC (wg j)) (outer (fun i => Cconj (v i j)) (fun i => v i j) a b))) dH - pair2 n n (outer l0 (fun i => v i j)) dH).
    { unfold pair2. change (fst ?x - fst ?y) with (fst (Cminus x y)). f_equal. rewrite <- csum_minus. apply csum_ext. intros a _. rewrite <- csum_minus. apply csum_ext. intros. ring. }
    rewrite W. unfold Rminus. rewrite Rplus_assoc. f_equal. f_equal. f_equal. unfold pair2. f_equal. apply csum_ext. intros a Ha. apply csum_ext. intros b' _.
    unfold outer, l0. rewrite P_mvec by auto. ring.
  - assert (Z : csum n (fun a => Cmult (vg a j) (dV a j)) = RtoC 0).
    { apply csum_0. intros i Hi. assert (Y : cnz (vg i j) = false).
      { destruct (cnz (vg i j)) eqn:E; auto. rewrite <- A. symmetry. apply existsb_exists. exists i. split; [apply in_seq; lia|auto]. }
      unfold cnz in Y. apply negb_false_iff, andb_true_iff in Y. destruct Y as [Y1 Y2]. apply Reqb_true in Y1, Y2.
      rewrite (Ceq (vg i j) (RtoC 0) Y1 Y2). ring. }
    rewrite Z, W. cbn [fst RtoC]. ring.
Qed.
Lemma rounds_pair m : (m <= k)%nat ->
  pair2 n n (fold_left (fun acc iv => eigsh_round n cg (H 0) (w 0 iv) (fun i => v i iv) (wg iv) (fun i => vg i iv) iv acc) (seq 0 m) (fun _ _ => RtoC 0)) dH =
  fst (csum m (fun j => Cplus (RtoC (wg j * fst (melt n v dH j j))) (csum n (fun a => Cmult (vg a j) (dV a j))))).
Proof.
  induction m; intros Hm.
  - cbn [seq fold_left csum]. unfold pair2. rewrite csum_0; [reflexivity|]. intros. apply csum_0. intros. ring.
  - rewrite seq_S, fold_left_app. cbn [fold_left Nat.add csum]. rewrite round_pair by lia. rewrite IHm by lia. cbn [fst Cplus RtoC]. ring.
Qed.
Lemma eigsh_adjoint : derivable_pt_lim (fun s => pairR k wg (w s) + pair2 n k vg (V s)) 0 (pair2 n n (vjp_eigsh n k cg (H 0) (w 0) (V 0) wg vg) dH).
Proof.
  assert (DW : curveR k w (fun j => fst (melt n v dH j j))) by (intros j Hj; apply (w_deriv' n k H w V dH HH Hh HE dV HV j Hj)).
  apply (dlim_val _ (pairR k wg (fun j => fst (melt n v dH j j)) + pair2 n k vg dV)).
  2:{ apply (derivable_pt_lim_plus _ _ 0 _ _ (pairR_curve k wg w _ DW) (pair2_curve n k vg V dV HV)). }
  unfold vjp_eigsh. fold v. rewrite rounds_pair by lia. rewrite csum_plus. cbn [fst Cplus]. unfold pairR, pair2. f_equal. f_equal. apply csum_swap.
Qed.
End Eigsh.
