(** Positive definite matrices, and the comparison of the eigenvalues of two
    Hermitian matrices. *)
From Coq Require Import Permutation List Classical_Prop.
From Verif Require Import Py CBase RecipSpec RunSpec PweSpec PweProofs PweProofs2 PweProofs3 LinProofs LinProofs2.
Open Scope R_scope.
Open Scope list_scope.

Definition sqm (z : C) : R := fst z * fst z + snd z * snd z.
Lemma sqm_nonneg z : 0 <= sqm z.
Proof. unfold sqm. pose proof (Rle_0_sqr (fst z)). pose proof (Rle_0_sqr (snd z)). unfold Rsqr in *. lra. Qed.
Lemma fst_csum_le n f g : (forall i, (i < n)%nat -> fst (f i) <= fst (g i)) -> fst (csum n f) <= fst (csum n g).
Proof. induction n as [|n IH]; intros H; cbn [csum]; [lra|]. cbn [fst Cplus]. specialize (IH ltac:(auto)). specialize (H n ltac:(lia)). lra. Qed.

Section Expand.
Variables (n : nat) (A : cmat) (ls : list R) (V : cmat).
Hypothesis Es : eigensystem n A ls V.
Definition coef (v : cvec) (j : nat) : C := cdot n (fun i => V i j) v.
Lemma expand v i : (i < n)%nat -> v i = csum n (fun j => (V i j * coef v j)%C).
Proof.
  intros Hi. destruct Es as (_ & E2 & _). pose proof (rows_orth n V E2) as RO.
  transitivity (mvec n (mmul n V (madj V)) v i).
  - transitivity (mvec n mid v i); [symmetry; apply mvec_id; auto|]. unfold mvec. apply csum_ext. intros j Hj. rewrite RO by auto. reflexivity.
  - rewrite mvec_mmul. unfold mvec. apply csum_ext. intros j Hj. f_equal.
Qed.
Lemma form_expand v : cdot n v (mvec n A v) = csum n (fun j => RtoC (nth j ls 0 * sqm (coef v j))).
Proof.
  destruct Es as (E1 & E2 & E3).
  transitivity (cdot n v (fun i => csum n (fun j => (V i j * (RtoC (nth j ls 0%R) * coef v j))%C))).
  - apply cdot_ext; [reflexivity|]. intros i Hi. unfold mvec.
    transitivity (csum n (fun k => csum n (fun j => (A i k * (V k j * coef v j))%C))).
    { apply csum_ext. intros k Hk. rewrite (expand v k) at 1 by auto. rewrite <- csum_scal_l. reflexivity. }
    rewrite csum_swap. apply csum_ext. intros j Hj. 
    transitivity (mvec n A (fun i => V i j) i * coef v j)%C; [unfold mvec; rewrite <- csum_scal_r; apply csum_ext; intros; ring|].
    rewrite E3 by auto. ring.
  - unfold cdot. transitivity (csum n (fun i => csum n (fun j => (Cconj (v i) * (V i j * (RtoC (nth j ls 0%R) * coef v j)))%C))).
    { apply csum_ext. intros i _. rewrite <- csum_scal_l. reflexivity. }
    rewrite csum_swap. apply csum_ext. intros j Hj.
    transitivity (csum n (fun i => (Cconj (v i) * V i j)%C) * (RtoC (nth j ls 0%R) * coef v j))%C; [rewrite <- csum_scal_r; apply csum_ext; intros; ring|].
    assert (X : csum n (fun i => (Cconj (v i) * V i j)%C) = Cconj (coef v j)).
    { unfold coef, cdot. rewrite csum_conj. apply csum_ext. intros. rewrite Cconj_mult, Cconj_conj. ring. }
    rewrite X. unfold sqm. rewrite RtoC_mult, <- Cconj_mod. ring.
Qed.
Lemma norm_expand v : RtoC (nrm n v) = csum n (fun j => RtoC (sqm (coef v j))).
Proof.
  rewrite <- cdot_nrm. unfold cdot.
  transitivity (csum n (fun i => csum n (fun j => (Cconj (v i) * (V i j * coef v j))%C))).
  { apply csum_ext. intros i Hi. rewrite (expand v i) at 2 by auto. rewrite <- csum_scal_l. reflexivity. }
  rewrite csum_swap. apply csum_ext. intros j Hj.
  transitivity (csum n (fun i => (Cconj (v i) * V i j)%C) * coef v j)%C; [rewrite <- csum_scal_r; apply csum_ext; intros; ring|].
  assert (X : csum n (fun i => (Cconj (v i) * V i j)%C) = Cconj (coef v j)).
  { unfold coef, cdot. rewrite csum_conj. apply csum_ext. intros. rewrite Cconj_mult, Cconj_conj. ring. }
  rewrite X. unfold sqm. rewrite <- Cconj_mod. ring.
Qed.
End Expand.

(** if the form of A' is nowhere larger, neither is any of its eigenvalues *)
Lemma eigs_monotone n A A' ls V ls' V' : eigensystem n A ls V -> eigensystem n A' ls' V' -> ascending ls -> ascending ls' ->
  (forall v, fst (cdot n v (mvec n A' v)) <= fst (cdot n v (mvec n A v))) ->
  forall b, (b < n)%nat -> nth b ls' 0 <= nth b ls 0.
Proof.
  intros Es Es' As As' Le b Hb.
  destruct (underdetermined b (S b) (fun i j => cdot n (fun a => V' a i) (fun a => V a j)) ltac:(lia)) as (c & (j0 & Hj0 & Nz) & Or).
  set (v := fun i => csum (S b) (fun j => (V i j * c j)%C)).
  assert (Lin : forall u, cdot n u v = csum (S b) (fun j => (cdot n u (fun a => V a j) * c j)%C)).
  { intros u. unfold cdot, v. transitivity (csum n (fun i => csum (S b) (fun j => (Cconj (u i) * (V i j * c j))%C))).
    { apply csum_ext. intros. rewrite <- csum_scal_l. reflexivity. }
    rewrite csum_swap. apply csum_ext. intros j _. rewrite <- csum_scal_r. apply csum_ext. intros. ring. }
  destruct Es as (E1 & E2 & E3). destruct Es' as (E1' & E2' & E3').
  assert (Cf : forall i, (i < n)%nat -> coef n V v i = if Nat.ltb i (S b) then c i else RtoC 0).
  { intros i Hi. unfold coef. rewrite Lin. destruct (Nat.ltb_spec i (S b)) as [Hb'|Hb'].
    - rewrite (csum_single (S b) i); auto; [unfold cdot; rewrite E2, Nat.eqb_refl by auto; ring|].
      intros j Hj Ne. unfold cdot. rewrite E2 by lia. destruct (Nat.eqb_spec i j); [congruence|ring].
    - apply csum_0. intros j Hj. unfold cdot. rewrite E2 by lia. destruct (Nat.eqb_spec i j); [lia|ring]. }
  assert (Cf' : forall i, (i < b)%nat -> coef n V' v i = RtoC 0) by (intros i Hi; unfold coef; rewrite Lin; apply Or; auto).
  assert (N : 0 < nrm n v).
  { pose proof (norm_expand n A ls V (conj E1 (conj E2 E3)) v) as NE. apply (f_equal fst) in NE. cbn [fst RtoC] in NE. rewrite NE.
    apply Rlt_le_trans with (sqm (c j0)).
    - assert (fst (c j0) <> 0 \/ snd (c j0) <> 0) as [H|H].
      { destruct (Req_dec (fst (c j0)) 0) as [H1|]; auto. right. intros H2. apply Nz. apply Ceq; auto. }
      + unfold sqm. pose proof (Rsqr_pos_lt _ H). pose proof (Rle_0_sqr (snd (c j0))). unfold Rsqr in *. lra.
      + unfold sqm. pose proof (Rsqr_pos_lt _ H). pose proof (Rle_0_sqr (fst (c j0))). unfold Rsqr in *. lra.
    - assert (Hj : (j0 < n)%nat) by lia.
      pose proof (fst_csum_ge n (fun j => RtoC (sqm (coef n V v j))) j0 Hj (fun i _ => sqm_nonneg _)) as G. cbn beta in G.
      rewrite (Cf j0 Hj) in G. destruct (Nat.ltb_spec j0 (S b)); [exact G|lia]. }
  assert (Up : fst (cdot n v (mvec n A v)) <= nth b ls 0 * nrm n v).
  { rewrite (form_expand n A ls V (conj E1 (conj E2 E3)) v).
    replace (nth b ls 0 * nrm n v) with (fst (csum n (fun j => RtoC (nth b ls 0 * sqm (coef n V v j))))).
    - apply fst_csum_le. intros j Hj. cbn [fst RtoC]. rewrite (Cf j Hj). destruct (Nat.ltb_spec j (S b)).
      + apply Rmult_le_compat_r; [apply sqm_nonneg|]. destruct (Nat.eq_dec j b) as [->|]; [lra|]. apply As. lia.
      + unfold sqm. cbn [fst snd RtoC]. lra.
    - transitivity (fst (RtoC (nth b ls 0) * RtoC (nrm n v))%C); [|cbn; ring].
      rewrite (norm_expand n A ls V (conj E1 (conj E2 E3)) v), <- csum_scal_l. f_equal. apply csum_ext. intros. apply RtoC_mult. }
  assert (Dn : nth b ls' 0 * nrm n v <= fst (cdot n v (mvec n A' v))).
  { rewrite (form_expand n A' ls' V' (conj E1' (conj E2' E3')) v).
    replace (nth b ls' 0 * nrm n v) with (fst (csum n (fun j => RtoC (nth b ls' 0 * sqm (coef n V' v j))))).
    - apply fst_csum_le. intros j Hj. cbn [fst RtoC]. destruct (Nat.lt_ge_cases j b).
      + rewrite (Cf' j) by auto. unfold sqm. cbn [fst snd RtoC]. lra.
      + apply Rmult_le_compat_r; [apply sqm_nonneg|]. destruct (Nat.eq_dec j b) as [->|]; [lra|]. apply As'. lia.
    - transitivity (fst (RtoC (nth b ls' 0) * RtoC (nrm n v))%C); [|cbn; ring].
      rewrite (norm_expand n A' ls' V' (conj E1' (conj E2' E3')) v), <- csum_scal_l. f_equal. apply csum_ext. intros. apply RtoC_mult. }
  specialize (Le v). apply Rmult_le_reg_r with (nrm n v); lra.
Qed.
Lemma firstn_nth {A} m (l : list A) d b : (b < m)%nat -> nth b (firstn m l) d = nth b l d.
Proof. revert b l. induction m as [|m IH]; intros b l H; [lia|]. destruct l as [|x l], b as [|b]; auto. cbn [firstn nth]. apply IH. lia. Qed.
Lemma lowest_monotone n m A A' fs vs fs' vs' : lowest n m A fs vs -> lowest n m A' fs' vs' ->
  (forall v, fst (cdot n v (mvec n A' v)) <= fst (cdot n v (mvec n A v))) ->
  List.length fs' = List.length fs /\ forall b, (b < List.length fs)%nat -> nth b fs' 0 <= nth b fs 0.
Proof.
  intros (ls & V & E & H1 & H2 & -> & _) (ls' & V' & E' & H1' & H2' & -> & _) Le.
  pose proof (eigs_monotone n A A' ls V ls' V' E E' H1 H1' Le) as M. destruct E as (L & _), E' as (L' & _).
  rewrite !map_length, !firstn_length, L, L'. split; [reflexivity|]. intros b Hb. set (h := fun l => sqrt l / (2 * PI)).
  rewrite (nth_indep (map h (firstn m ls')) 0 (h 0)) by (rewrite map_length, firstn_length; lia).
  rewrite (nth_indep (map h (firstn m ls)) 0 (h 0)) by (rewrite map_length, firstn_length; lia).
  rewrite !map_nth, !firstn_nth by lia. unfold h. pose proof PI_RGT_0. apply Rmult_le_compat_r; [left; apply Rinv_0_lt_compat; lra|].
  apply sqrt_le_1_alt. apply M. lia.
Qed.

(** ** positive definite matrices *)
Definition pos_def (n : nat) (A : cmat) : Prop := forall v, (exists i, (i < n)%nat /\ v i <> RtoC 0) -> 0 < fst (cdot n v (mvec n A v)).
Lemma pd_inverse n A : herm_on n A -> pos_def n A -> exists B, is_inverse n A B.
Proof.
  intros H P. destruct (spectral n A H) as (ls & V & Es). pose proof Es as (E1 & E2 & E3). pose proof (rows_orth n V E2) as RO.
  assert (Lp : forall j, (j < n)%nat -> 0 < nth j ls 0).
  { intros j Hj. assert (Nz : exists i, (i < n)%nat /\ V i j <> RtoC 0).
    { apply NNPP. intros N. assert (Z : csum n (fun i => (Cconj (V i j) * V i j)%C) = RtoC 0).
      { apply csum_0. intros i Hi. destruct (classic (V i j = RtoC 0)) as [->|X]; [ring|]. elim N. exists i; auto. }
      rewrite E2, Nat.eqb_refl in Z by auto. apply (f_equal fst) in Z. cbn in Z. lra. }
    specialize (P (fun i => V i j) Nz). unfold cdot in P.
    rewrite (csum_ext n _ (fun i => Cmult (RtoC (nth j ls 0)) (Cmult (Cconj (V i j)) (V i j)))) in P by (intros i Hi; rewrite E3 by auto; ring).
    rewrite csum_scal_l, E2, Nat.eqb_refl in P by auto. cbn in P. lra. }
  set (B := fun i j => csum n (fun k => (V i k * (RtoC (/ nth k ls 0%R) * Cconj (V j k)))%C)).
  assert (AB : meq n n (mmul n A B) mid).
  { intros i j Hi Hj. rewrite <- RO by auto. unfold mmul, B, madj.
    transitivity (csum n (fun a => csum n (fun k => (A i a * (V a k * (RtoC (/ nth k ls 0%R) * Cconj (V j k))))%C))).
    { apply csum_ext. intros. rewrite <- csum_scal_l. reflexivity. }
    rewrite csum_swap. apply csum_ext. intros k Hk.
    transitivity (mvec n A (fun a => V a k) i * (RtoC (/ nth k ls 0%R) * Cconj (V j k)))%C; [unfold mvec; rewrite <- csum_scal_r; apply csum_ext; intros; ring|].
    rewrite E3 by auto. assert (X : (RtoC (nth k ls 0%R) * RtoC (/ nth k ls 0%R))%C = RtoC 1) by (rewrite <- RtoC_mult; f_equal; field; specialize (Lp k Hk); lra).
    transitivity ((RtoC (nth k ls 0%R) * RtoC (/ nth k ls 0%R)) * (V i k * Cconj (V j k)))%C; [ring|rewrite X; ring]. }
  exists B. split; [exact AB|].
  assert (HB : forall i j, B i j = Cconj (B j i)).
  { intros i j. unfold B. rewrite csum_conj. apply csum_ext. intros k _. rewrite !Cconj_mult, Cconj_R, Cconj_conj. ring. }
  intros i j Hi Hj. transitivity (Cconj (mmul n A B j i)).
  - unfold mmul. rewrite csum_conj. apply csum_ext. intros k Hk. rewrite Cconj_mult, <- HB, <- H by auto. ring.
  - rewrite AB by auto. unfold mid. rewrite Nat.eqb_sym. destruct (Nat.eqb i j); apply Cconj_R.
Qed.
Lemma pd_psd n A : pos_def n A -> psd n A.
Proof.
  intros P v. destruct (classic (exists i, (i < n)%nat /\ v i <> RtoC 0)) as [H|H]; [left; apply P; auto|].
  assert (Z : cdot n v (mvec n A v) = RtoC 0).
  { unfold cdot. apply csum_0. intros i Hi. destruct (classic (v i = RtoC 0)) as [->|X]; [rewrite Cconj_R; ring|elim H; exists i; auto]. }
  rewrite Z. cbn. lra.
Qed.
(** diagonally dominant matrices *)
Lemma re_bound (a x y : C) b : Cmod a <= b -> - (b / 2 * (sqm x + sqm y)) <= fst (Cconj x * (a * y))%C.
Proof.
  intros H. assert (0 <= b) by (pose proof (Cmod_ge_0 a); lra).
  assert (S : fst (Cconj x * (a * y))%C * fst (Cconj x * (a * y))%C <= (b * b) * (sqm x * sqm y)).
  { assert (Q : sqm (Cconj x * (a * y))%C = sqm a * (sqm x * sqm y)) by (unfold sqm; destruct x, a, y; cbn; ring).
    assert (Qa : sqm a <= b * b).
    { unfold sqm. replace (fst a * fst a + snd a * snd a) with (Cmod a * Cmod a); [pose proof (Cmod_ge_0 a); nra|].
      unfold Cmod. rewrite sqrt_sqrt; [ring|]. pose proof (pow2_ge_0 (fst a)). pose proof (pow2_ge_0 (snd a)). lra. }
    apply Rle_trans with (sqm (Cconj x * (a * y))%C); [unfold sqm; pose proof (Rle_0_sqr (snd (Cconj x * (a * y))%C)); unfold Rsqr in *; lra|].
    rewrite Q. apply Rmult_le_compat_r; [|exact Qa]. apply Rmult_le_pos; apply sqm_nonneg. }
  pose proof (sqm_nonneg x). pose proof (sqm_nonneg y). set (t := fst (Cconj x * (a * y))%C) in *. clearbody t.
  set (p := sqm x) in *. set (r := sqm y) in *. clearbody p r.
  destruct (Rle_or_lt (- (b / 2 * (p + r))) t) as [|L]; [auto|]. exfalso.
  assert (0 <= b / 2 * (p + r)) by nra. assert (T : (b / 2 * (p + r)) * (b / 2 * (p + r)) < t * t) by nra.
  assert (Y : (b / 2 * (p + r)) * (b / 2 * (p + r)) - (b * b) * (p * r) = (b * b / 4) * ((p - r) * (p - r))) by field.
  assert (0 <= (b * b / 4) * ((p - r) * (p - r))) by (apply Rmult_le_pos; [nra|apply Rle_0_sqr]). lra.
Qed.
Lemma dominant n A a b : 0 <= b -> INR n * b < a -> (forall i, (i < n)%nat -> A i i = RtoC a) ->
  (forall i j, (i < n)%nat -> (j < n)%nat -> i <> j -> Cmod (A i j) <= b) -> pos_def n A.
Proof.
  intros Hb Hab Hd Ho v (i0 & Hi0 & Nz).
  assert (N : 0 < nrm n v) by (apply (nrm_pos n v i0); auto).
  assert (Nr : forall m, (m <= n)%nat -> fst (csum m (fun i => RtoC (sqm (v i)))) = nrm m v).
  { induction m as [|m IH]; intros Hm; [reflexivity|]. rewrite nrm_S, <- IH by lia. reflexivity. }
  apply Rlt_le_trans with ((a - INR n * b) * nrm n v); [apply Rmult_lt_0_compat; lra|].
  apply Rle_trans with (fst (csum n (fun i => csum n (fun j => RtoC ((if Nat.eqb i j then a * sqm (v i) else 0) - b / 2 * (sqm (v i) + sqm (v j))))))).
  - right. transitivity (fst (csum n (fun i => (RtoC a * RtoC (sqm (v i)) - (RtoC (INR n * (b / 2)) * RtoC (sqm (v i)) + RtoC (b / 2) * csum n (fun j => RtoC (sqm (v j)))))%C))).
    + rewrite csum_minus, csum_plus, !csum_scal_l, csum_const. rewrite (surjective_pairing (csum n (fun i => RtoC (sqm (v i))))), Nr by auto. 
      cbn [fst snd Cplus Cminus Copp Cmult RtoC]. field.
    + f_equal. apply csum_ext. intros i Hi. symmetry.
      transitivity (csum n (fun j => ((if Nat.eqb j i then RtoC (a * sqm (v i)) else RtoC 0) - (RtoC (b / 2 * sqm (v i)) + RtoC (b / 2) * RtoC (sqm (v j))))%C)).
      * apply csum_ext. intros j Hj. rewrite (Nat.eqb_sym j i). destruct (Nat.eqb i j); apply Ceq; cbn; ring.
      * rewrite csum_minus, csum_delta, csum_plus, csum_const, csum_scal_l by auto. rewrite ?RtoC_mult. ring.
  - unfold cdot. apply fst_csum_le. intros i Hi. unfold mvec. rewrite <- csum_scal_l. apply fst_csum_le. intros j Hj. cbn [fst RtoC].
    destruct (Nat.eqb_spec i j) as [->|Ne].
    + rewrite Hd by auto. pose proof (sqm_nonneg (v j)). replace (fst (Cconj (v j) * (RtoC a * v j))%C) with (a * sqm (v j)) by (unfold sqm; cbn; ring). nra.
    + pose proof (re_bound (A i j) (v i) (v j) b (Ho i j Hi Hj Ne)). lra.
Qed.
(** a larger positive definite matrix has a smaller inverse *)
Lemma inverse_antitone n A A' B B' : herm_on n A -> herm_on n A' -> psd n A -> is_inverse n A B -> is_inverse n A' B' ->
  (forall v, fst (cdot n v (mvec n A v)) <= fst (cdot n v (mvec n A' v))) ->
  forall v, fst (cdot n v (mvec n B' v)) <= fst (cdot n v (mvec n B v)).
Proof.
  intros HA HA' PA IB IB' Le v. pose proof (inverse_herm n A B IB HA) as HB. pose proof (inverse_herm n A' B' IB' HA') as HB'.
  destruct IB as [IB1 IB2], IB' as [IB1' IB2']. set (u := mvec n B' v). set (w := mvec n B v).
  assert (Au : forall i, (i < n)%nat -> mvec n A' u i = v i).
  { intros i Hi. unfold u. rewrite <- mvec_mmul. rewrite <- (mvec_id n v i Hi). unfold mvec at 1. unfold mvec. apply csum_ext. intros j Hj. rewrite IB1' by auto. reflexivity. }
  assert (Aw : forall i, (i < n)%nat -> mvec n A w i = v i).
  { intros i Hi. unfold w. rewrite <- mvec_mmul. rewrite <- (mvec_id n v i Hi). unfold mvec. apply csum_ext. intros j Hj. rewrite IB1 by auto. reflexivity. }
  pose proof (PA (fun i => (u i + RtoC (-1) * w i)%C)) as P.
  rewrite (cdot_ext n _ (fun i => u i + RtoC (-1) * w i)%C _ (fun i => mvec n A u i + RtoC (-1) * v i)%C) in P; [|auto|].
  2:{ intros i Hi. rewrite mvec_plus, mvec_scal, Aw by auto. reflexivity. }
  rewrite cdot_plus_l, cdot_scal_l, !cdot_plus_r, !cdot_scal_r, Cconj_R in P.
  assert (X : cdot n w (mvec n A u) = cdot n v u).
  { rewrite (self_adj n A HA w u). apply cdot_ext; auto. }
  assert (Y : cdot n w v = cdot n v w) by (unfold w; symmetry; apply (self_adj n B HB)).
  assert (Y' : cdot n u v = cdot n v u) by (unfold u; symmetry; apply (self_adj n B' HB')).
  rewrite X, Y, Y' in P. specialize (Le u).
  assert (Z : cdot n u (mvec n A' u) = cdot n v u) by (rewrite <- Y'; apply cdot_ext; auto).
  rewrite Z in Le. fold u w. cbn [fst Cplus Cmult RtoC snd] in P. lra.
Qed.
