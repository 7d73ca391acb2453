(** C23: the areas of circles and ellipses, from the power series of J1. *)
From Verif Require Import Py LatticeSpec CBase PhcModel ShapesModel ShapesSpec ShapesProofs ShapesProofs2.
From Coquelicot Require Import Hierarchy Series.
Open Scope R_scope.

Definition j1_term (x : R) (k : nat) : R := (-1) ^ k / (INR (fact k) * INR (fact (S k))) * (x / 2) ^ (2 * k + 1).

Lemma fact_ge1 k : 1 <= INR (fact k).
Proof. apply (le_INR 1). pose proof (lt_O_fact k). lia. Qed.

Lemma j1_tail x k : 0 <= x <= 1 -> Rabs (j1_term x (S k)) <= (x / 2) ^ 3 / 2 * (/ 4) ^ k.
Proof.
  intros Hx. unfold j1_term, Rdiv at 1. rewrite !Rabs_mult, pow_1_abs, Rmult_1_l.
  assert (F1 := fact_ge1 (S k)).
  assert (F2 : 2 <= INR (fact (S (S k)))).
  { apply (le_INR 2). change (fact (S (S k))) with (S (S k) * fact (S k))%nat. pose proof (lt_O_fact (S k)). nia. }
  rewrite Rabs_inv, (Rabs_pos_eq (INR (fact (S k)) * INR (fact (S (S k))))) by nra.
  assert (P : 0 <= (x / 2) ^ (2 * S k + 1)) by (apply pow_le; lra).
  rewrite (Rabs_pos_eq ((x / 2) ^ (2 * S k + 1))) by auto.
  replace (2 * S k + 1)%nat with (3 + 2 * k)%nat in * by lia. rewrite pow_add, pow_mult in *.
  assert (Q3 : 0 <= (x / 2) ^ 3) by (apply pow_le; lra).
  assert (Qk : ((x / 2) ^ 2) ^ k <= (/ 4) ^ k) by (apply pow_incr; simpl; nra).
  assert (Q0 : 0 <= ((x / 2) ^ 2) ^ k) by (apply pow_le; simpl; nra).
  assert (I : / (INR (fact (S k)) * INR (fact (S (S k)))) <= / 2) by (apply Rinv_le_contravar; nra).
  assert (I0 : 0 < / (INR (fact (S k)) * INR (fact (S (S k))))) by (apply Rinv_0_lt_compat; nra).
  replace ((x / 2) ^ 3 / 2 * (/ 4) ^ k) with (/ 2 * ((x / 2) ^ 3 * (/ 4) ^ k)) by field.
  apply Rmult_le_compat; try lra. apply Rmult_le_compat_l; auto.
Qed.

Lemma geom_sum c : ex_series (fun k => c * (/ 4) ^ k) /\ Series (fun k => c * (/ 4) ^ k) = c * (4 / 3).
Proof.
  assert (H : is_series (fun k => (/ 4) ^ k) (/ (1 - / 4))) by (apply is_series_geom; rewrite Rabs_pos_eq; lra).
  split.
  - exact (ex_series_scal_l (V := R_NormedModule) c (fun k => (/ 4) ^ k) (ex_intro _ _ H)).
  - rewrite (Series_scal_l c (fun k => (/ 4) ^ k)). apply is_series_unique in H. rewrite H. f_equal. field.
Qed.

Lemma j1_bound x : 0 <= x <= 1 -> Rabs (bessel_J1 x - x / 2) <= x ^ 3 / 12.
Proof.
  intros Hx. destruct (geom_sum ((x / 2) ^ 3 / 2)) as [G1 G2].
  assert (Hb : forall k, 0 <= Rabs (j1_term x (S k)) <= (x / 2) ^ 3 / 2 * (/ 4) ^ k)
    by (intros; split; [apply Rabs_pos|apply j1_tail; auto]).
  assert (A : ex_series (fun k => Rabs (j1_term x (S k)))).
  { apply (ex_series_le (V := R_CompleteNormedModule) _ (fun k => (x / 2) ^ 3 / 2 * (/ 4) ^ k)); auto.
    intros k. rewrite (Rabs_pos_eq (Rabs _)) by apply Rabs_pos. apply Hb. }
  assert (E : ex_series (j1_term x)).
  { apply ex_series_incr_1. apply ex_series_Rabs. auto. }
  change (bessel_J1 x) with (Series (j1_term x)). rewrite (Series_incr_1 _ E).
  replace (j1_term x 0) with (x / 2) by (unfold j1_term; simpl; field).
  replace (x / 2 + Series (fun k => j1_term x (S k)) - x / 2) with (Series (fun k => j1_term x (S k))) by ring.
  eapply Rle_trans; [apply Series_Rabs; auto|].
  eapply Rle_trans; [apply Series_le with (1 := Hb); auto|]. rewrite G2. right. field.
Qed.

Lemma sq0 : sqrt (Rabs (0 ^ 2) + Rabs (0 ^ 2)) = 0.
Proof. simpl. rewrite Rmult_0_l, Rabs_R0, Rplus_0_l. apply sqrt_0. Qed.

Lemma circle_area eps xc yc r : 0 <= r -> 1 / 10 ^ 10 * r <= 1 ->
  Rabs (sh_area (circle_shape bessel_J1 eps xc yc r) - PI * r ^ 2) <= 1 / 10 ^ 20 * (PI * r ^ 4).
Proof.
  intros Hr Hd. unfold circle_shape; cbn [sh_area]. unfold circle_ft. cbn [fst snd]. rewrite sq0, Rplus_0_l.
  replace (- 0 * xc - 0 * yc) with 0 by ring. rewrite expi_0, Cmult_1_l. cbn [fst RtoC].
  replace (1 / 10 ^ 20) with ((1 / 10 ^ 10) * (1 / 10 ^ 10)) by (field; apply pow_nonzero; lra).
  pose proof ten10 as T. set (dl := 1 / 10 ^ 10) in *.
  assert (B := j1_bound (dl * r)). assert (0 <= dl * r <= 1) by nra. specialize (B H).
  replace (r * 2 * PI / dl * bessel_J1 (dl * r) - PI * r ^ 2) with
    ((r * 2 * PI / dl) * (bessel_J1 (dl * r) - dl * r / 2)) by (field; lra).
  pose proof PI_RGT_0.
  assert (0 <= r * 2 * PI / dl) by (apply Rmult_le_pos; [nra|left; apply Rinv_0_lt_compat; auto]).
  rewrite Rabs_mult, (Rabs_pos_eq (r * 2 * PI / dl)) by auto.
  eapply Rle_trans; [apply Rmult_le_compat_l; [auto|exact B]|].
  replace (r * 2 * PI / dl * ((dl * r) ^ 3 / 12)) with (dl * dl * (PI * r ^ 4) / 6) by (field; lra).
  assert (0 <= dl * dl * (PI * r ^ 4)) by (apply Rmult_le_pos; [nra|apply Rmult_le_pos; [lra|apply pow_le; auto]]).
  lra.
Qed.

Lemma ellipse_area eps xc yc rx ry phi : 0 <= rx -> 0 <= ry ->
  Rabs (sh_area (ellipse_shape bessel_J1 eps xc yc rx ry phi) - PI * (rx * ry)) <= 1 / 10 ^ 20 * (PI * (rx * ry)).
Proof.
  intros Hx Hy. unfold ellipse_shape; cbn [sh_area]. unfold ellipse_ft. cbn [fst snd].
  replace ((0 * cos phi + 0 * sin phi)) with 0 by ring. replace (- 0 * sin phi + 0 * cos phi) with 0 by ring.
  replace (0 * rx) with 0 by ring. replace (0 * ry) with 0 by ring. rewrite sq0, Rplus_0_l.
  replace (- 0 * xc - 0 * yc) with 0 by ring. rewrite expi_0, Cmult_1_l. cbn [fst RtoC].
  replace (1 / 10 ^ 20) with ((1 / 10 ^ 10) * (1 / 10 ^ 10)) by (field; apply pow_nonzero; lra).
  pose proof ten10 as T.
  assert (T1 : 1 / 10 ^ 10 <= 1).
  { apply Rmult_le_reg_r with (10 ^ 10); [apply pow_lt; lra|]. unfold Rdiv. rewrite Rmult_assoc, Rinv_l by (apply pow_nonzero; lra).
    assert (1 <= 10 ^ 10) by (apply pow_R1_Rle; lra). lra. }
  set (dl := 1 / 10 ^ 10) in *.
  assert (B := j1_bound dl). assert (0 <= dl <= 1) by lra. specialize (B H).
  replace (rx * ry * 2 * PI / dl * bessel_J1 dl - PI * (rx * ry)) with
    ((rx * ry * 2 * PI / dl) * (bessel_J1 dl - dl / 2)) by (field; lra).
  pose proof PI_RGT_0. assert (0 <= rx * ry) by nra.
  assert (0 <= rx * ry * 2 * PI / dl) by (apply Rmult_le_pos; [nra|left; apply Rinv_0_lt_compat; auto]).
  rewrite Rabs_mult, (Rabs_pos_eq (rx * ry * 2 * PI / dl)) by auto.
  eapply Rle_trans; [apply Rmult_le_compat_l; [auto|exact B]|].
  replace (rx * ry * 2 * PI / dl * (dl ^ 3 / 12)) with (dl * dl * (PI * (rx * ry)) / 6) by (field; lra).
  assert (0 <= dl * dl * (PI * (rx * ry))) by (apply Rmult_le_pos; nra).
  lra.
Qed.
