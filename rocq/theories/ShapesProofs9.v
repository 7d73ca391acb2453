(** The transforms of circles and ellipses are Fourier integrals (C112). *)
From Verif Require Import Py CBase CInt PhcModel ShapesModel ShapesSpec ShapesProofs8.
From Coquelicot Require Import Hierarchy RInt RInt_analysis Derive ElemFct AutoDerive Continuity Complex Rcomplements.
Open Scope R_scope.

Lemma chord_sq_cont A : forall s, continuous (fun s => chord A (sqrt (1 - s * s))) s.
Proof.
  intros s. apply (continuous_comp (fun s => sqrt (1 - s * s)) (chord A)); [|apply chord_cont].
  apply (continuous_comp (fun s => 1 - s * s) sqrt); [|apply continuous_sqrt].
  apply (cont_ex (fun s => 1 - s * s)). auto_derive. auto.
Qed.
Lemma disc_complex A B : is_CInt (fun s => Cmult (expi (- (B * s))) (RtoC (chord A (sqrt (1 - s * s))))) (-1) 1 (RtoC (airy (sqrt (A * A + B * B)))).
Proof.
  split.
  - eapply is_RInt_ext; [|apply disc_real]. intros x _. simpl. rewrite cos_neg. req. ring.
  - simpl. replace (-1) with (- (1)) by ring.
    eapply is_RInt_ext; [|apply (is_RInt_odd (fun s => - (sin (B * s) * chord A (sqrt (1 - s * s)))))].
    + intros x _. simpl. rewrite sin_neg. req. ring.
    + intros x. apply (continuous_opp (fun s => sin (B * s) * chord A (sqrt (1 - s * s)))).
      apply (continuous_mult (fun s => sin (B * s)) (fun s => chord A (sqrt (1 - s * s)))); [|apply chord_sq_cont].
      apply (cont_ex (fun s => sin (B * s))). auto_derive. auto.
    + intros x. replace (B * - x) with (- (B * x)) by ring. rewrite sin_neg. replace (- x * - x) with (x * x) by ring. ring.
Qed.
Lemma is_CInt_lin f u v a b w : u <> 0 -> is_CInt f (u * a + v) (u * b + v) w -> is_CInt (fun y => f (u * y + v)) a b (Cmult (RtoC (/ u)) w).
Proof.
  intros Hu [H1 H2]. split.
  - pose proof (is_RInt_scal (V := R_NormedModule) _ _ _ (/ u) _ (is_RInt_comp_lin (V := R_NormedModule) (fun t => fst (f t)) u v a b _ H1)) as K.
    eapply is_RInt_eq; [|eapply is_RInt_ext; [|exact K]].
    + change (/ u * fst w = / u * fst w - 0 * snd w). ring.
    + intros x _. cbv beta. change (/ u * (u * fst (f (u * x + v))) = fst (f (u * x + v))). field. exact Hu.
  - pose proof (is_RInt_scal (V := R_NormedModule) _ _ _ (/ u) _ (is_RInt_comp_lin (V := R_NormedModule) (fun t => snd (f t)) u v a b _ H2)) as K.
    eapply is_RInt_eq; [|eapply is_RInt_ext; [|exact K]].
    + change (/ u * snd w = / u * snd w + 0 * fst w). ring.
    + intros x _. cbv beta. change (/ u * (u * snd (f (u * x + v))) = snd (f (u * x + v))). field. exact Hu.
Qed.

(** ** an ellipse given by its horizontal chords *)
Section Tri.
Variables (cx cy m k q gx gy M : R) (inside : R -> R -> bool).
Hypothesis Hm : 0 < m.
Hypothesis Hq : 0 < q.
Hypothesis Hin : forall x y, inside x y = true <-> ((y - cy) / m) * ((y - cy) / m) + ((x - cx - k * ((y - cy) / m)) / q) * ((x - cx - k * ((y - cy) / m)) / q) <= 1.
Hypothesis Hbox : forall x y, inside x y = true -> Rabs x < M /\ Rabs y < M.
Let wv (x y : R) : C := if inside x y then expi (- (gx * x + gy * y)) else RtoC 0.
Let sl (y : R) : R := / m * y + - (cy / m).
Let inner (y : R) : C :=
  if Rle_dec (sl y * sl y) 1 then Cmult (expi (- (gx * (cx + k * sl y) + gy * y))) (RtoC (q * chord (gx * q) (sqrt (1 - sl y * sl y)))) else RtoC 0.

Lemma sl_eq y : (y - cy) / m = sl y.
Proof. unfold sl. field. lra. Qed.
Lemma in_iff x y : inside x y = true <-> sl y * sl y + ((x - cx - k * sl y) / q) * ((x - cx - k * sl y) / q) <= 1.
Proof. rewrite Hin, sl_eq. tauto. Qed.
Lemma out_f x y : ~ (sl y * sl y + ((x - cx - k * sl y) / q) * ((x - cx - k * sl y) / q) <= 1) -> wv x y = RtoC 0.
Proof. intros H. unfold wv. destruct (inside x y) eqn:E; [|reflexivity]. apply in_iff in E. contradiction. Qed.

Lemma mid_int mid y h : is_CInt (fun x => expi (- (gx * x + gy * y))) (mid - q * h) (mid + q * h)
  (Cmult (expi (- (gx * mid + gy * y))) (RtoC (q * chord (gx * q) h))).
Proof.
  destruct (Req_EM_T gx 0) as [E|E].
  - rewrite E. eapply is_CInt_eq; [|eapply is_CInt_ext; [|apply (is_CInt_const (mid - q * h) (mid + q * h) (expi (- (0 * mid + gy * y))))]].
    + unfold chord. destruct (Req_EM_T (0 * q) 0) as [_|N]; [|exfalso; apply N; ring].
      replace (mid + q * h - (mid - q * h)) with (q * (2 * h)) by ring. apply Cmult_comm.
    + intros x _. cbv beta. f_equal. ring.
  - eapply is_CInt_eq; [|apply (is_CInt_anti (fun x => (sin (gx * x + gy * y) / gx, cos (gx * x + gy * y) / gx)))].
    + unfold chord. destruct (Req_EM_T (gx * q) 0) as [N|_]; [exfalso; apply Rmult_integral in N as [N|N]; lra|].
      replace (gx * (mid + q * h) + gy * y) with ((gx * mid + gy * y) + gx * q * h) by ring.
      replace (gx * (mid - q * h) + gy * y) with ((gx * mid + gy * y) - gx * q * h) by ring.
      generalize (gx * mid + gy * y). generalize (gx * q * h). intros w u.
      apply Ceq; simpl; rewrite ?cos_neg, ?sin_neg, ?cos_plus, ?cos_minus, ?sin_plus, ?sin_minus; field; split; lra.
    + intros x. simpl. auto_derive; [auto|]. rewrite cos_neg. field. exact E.
    + intros x. simpl. auto_derive; [auto|]. rewrite sin_neg. field. exact E.
    + intros x. simpl. apply (cont_ex (fun x => cos (- (gx * x + gy * y)))). auto_derive. auto.
    + intros x. simpl. apply (cont_ex (fun x => sin (- (gx * x + gy * y)))). auto_derive. auto.
Qed.

Lemma slice y : is_CInt (fun x => wv x y) (- M) M (inner y).
Proof.
  unfold inner. destruct (Rle_dec (sl y * sl y) 1) as [L|L].
  - set (h := sqrt (1 - sl y * sl y)). set (mid := cx + k * sl y).
    assert (Hh : 0 <= h) by apply sqrt_pos. assert (HH : h * h = 1 - sl y * sl y) by (apply sqrt_sqrt; lra).
    assert (E1 : inside (mid + q * h) y = true).
    { apply in_iff. replace ((mid + q * h - cx - k * sl y) / q) with h by (unfold mid; field; lra). lra. }
    assert (E2 : inside (mid - q * h) y = true).
    { apply in_iff. replace ((mid - q * h - cx - k * sl y) / q) with (- h) by (unfold mid; field; lra). lra. }
    apply Hbox in E1 as [E1 _]. apply Hbox in E2 as [E2 _]. apply Rabs_def2 in E1. apply Rabs_def2 in E2.
    assert (QH : 0 <= q * h) by (apply Rmult_le_pos; lra).
    assert (OUT : forall x, (x < mid - q * h \/ mid + q * h < x) -> wv x y = RtoC 0).
    { intros x Hx. apply out_f. intros K. set (t := (x - cx - k * sl y) / q) in K.
      assert (X : x = mid + q * t) by (unfold t, mid; field; lra).
      assert (T : t < - h \/ h < t) by (destruct Hx; [left|right]; apply (Rmult_lt_reg_l q); lra).
      assert (h * h < t * t) by (destruct T; nra). lra. }
    assert (I1 : is_CInt (fun x => wv x y) (- M) (mid - q * h) (RtoC 0)).
    { eapply is_CInt_ext; [|apply is_CInt_zero]. intros x Hx. rewrite Rmin_left, Rmax_right in Hx by lra. symmetry. apply OUT. lra. }
    assert (I3 : is_CInt (fun x => wv x y) (mid + q * h) M (RtoC 0)).
    { eapply is_CInt_ext; [|apply is_CInt_zero]. intros x Hx. rewrite Rmin_left, Rmax_right in Hx by lra. symmetry. apply OUT. lra. }
    assert (I2 : is_CInt (fun x => wv x y) (mid - q * h) (mid + q * h) (Cmult (expi (- (gx * mid + gy * y))) (RtoC (q * chord (gx * q) h)))).
    { eapply is_CInt_ext; [|apply mid_int]. intros x Hx. rewrite Rmin_left, Rmax_right in Hx by lra.
      assert (X : inside x y = true).
      { apply in_iff. set (t := (x - cx - k * sl y) / q). assert (X : x = mid + q * t) by (unfold t, mid; field; lra).
        assert (T : - h < t < h) by (split; apply (Rmult_lt_reg_l q); lra). nra. }
      unfold wv. rewrite X. reflexivity. }
    eapply is_CInt_eq; [|exact (is_CInt_Chasles _ _ _ _ _ _ (is_CInt_Chasles _ _ _ _ _ _ I1 I2) I3)]. ring.
  - eapply is_CInt_ext; [|apply is_CInt_zero]. intros x _. symmetry. apply out_f. intros K.
    assert (0 <= ((x - cx - k * sl y) / q) * ((x - cx - k * sl y) / q)) by apply Rle_0_sqr. lra.
Qed.

Definition tri_ft : C := Cmult (Cmult (RtoC (m * q)) (expi (- (gx * cx + gy * cy))))
  (RtoC (airy (sqrt ((gx * q) * (gx * q) + (gx * k + gy * m) * (gx * k + gy * m))))).

Lemma outer : is_CInt inner (- M) M tri_ft.
Proof.
  assert (S1 : sl (cy + m) = 1) by (unfold sl; field; lra). assert (S2 : sl (cy - m) = -1) by (unfold sl; field; lra).
  assert (E1 : Rabs (cy + m) < M).
  { apply (Hbox (cx + k)). apply in_iff. rewrite S1. replace ((cx + k - cx - k * 1) / q) with 0 by (field; lra). lra. }
  assert (E2 : Rabs (cy - m) < M).
  { apply (Hbox (cx - k)). apply in_iff. rewrite S2. replace ((cx - k - cx - k * -1) / q) with 0 by (field; lra). lra. }
  apply Rabs_def2 in E1. apply Rabs_def2 in E2.
  assert (Y : forall y, y = cy + m * sl y) by (intros y; unfold sl; field; lra).
  assert (OUT : forall y, y < cy - m \/ cy + m < y -> inner y = RtoC 0).
  { intros y Hy. unfold inner. destruct (Rle_dec (sl y * sl y) 1) as [L|L]; [|reflexivity]. exfalso.
    pose proof (Y y) as Yy. assert (-1 <= sl y <= 1) by nra. destruct Hy; nra. }
  assert (I1 : is_CInt inner (- M) (cy - m) (RtoC 0)).
  { eapply is_CInt_ext; [|apply is_CInt_zero]. intros y Hy. rewrite Rmin_left, Rmax_right in Hy by lra. symmetry. apply OUT. lra. }
  assert (I3 : is_CInt inner (cy + m) M (RtoC 0)).
  { eapply is_CInt_ext; [|apply is_CInt_zero]. intros y Hy. rewrite Rmin_left, Rmax_right in Hy by lra. symmetry. apply OUT. lra. }
  assert (I2 : is_CInt inner (cy - m) (cy + m) tri_ft).
  { pose proof (disc_complex (gx * q) (gx * k + gy * m)) as D.
    assert (D2 : is_CInt (fun y => Cmult (expi (- ((gx * k + gy * m) * sl y))) (RtoC (chord (gx * q) (sqrt (1 - sl y * sl y))))) (cy - m) (cy + m)
       (Cmult (RtoC (/ / m)) (RtoC (airy (sqrt ((gx * q) * (gx * q) + (gx * k + gy * m) * (gx * k + gy * m))))))).
    { apply (is_CInt_lin (fun s => Cmult (expi (- ((gx * k + gy * m) * s))) (RtoC (chord (gx * q) (sqrt (1 - s * s))))) (/ m) (- (cy / m))).
      - apply Rinv_neq_0_compat. lra.
      - replace (/ m * (cy - m) + - (cy / m)) with (-1) by (field; lra). replace (/ m * (cy + m) + - (cy / m)) with 1 by (field; lra). exact D. }
    apply (is_CInt_scal _ _ _ _ (Cmult (RtoC q) (expi (- (gx * cx + gy * cy))))) in D2.
    eapply is_CInt_eq; [|eapply is_CInt_ext; [|exact D2]].
    - unfold tri_ft. rewrite Rinv_inv, RtoC_mult. ring.
    - intros y Hy. rewrite Rmin_left, Rmax_right in Hy by lra. cbv beta. unfold inner. pose proof (Y y) as Yy.
      assert (R1 : -1 < sl y < 1) by (split; apply (Rmult_lt_reg_l m); lra).
      destruct (Rle_dec (sl y * sl y) 1) as [L|L]; [|exfalso; nra].
      replace (- (gx * (cx + k * sl y) + gy * y)) with (- (gx * cx + gy * cy) + - ((gx * k + gy * m) * sl y)) by (replace (gy * y) with (gy * (cy + m * sl y)) by (rewrite <- Yy; reflexivity); ring).
      rewrite expi_plus, (RtoC_mult q). ring. }
  eapply is_CInt_eq; [|exact (is_CInt_Chasles _ _ _ _ _ _ (is_CInt_Chasles _ _ _ _ _ _ I1 I2) I3)]. ring.
Qed.
Lemma tri_int : is_CInt2 wv M tri_ft.
Proof. exists inner. split; [exact slice|exact outer]. Qed.
End Tri.

(** ** the regulariser *)
Lemma airy_lip a b : 0 <= a -> 0 <= b -> Rabs (airy a - airy b) <= PI * Rabs (a - b).
Proof.
  intros Ha Hb.
  assert (A1 : forall g, 0 <= g -> is_RInt (fun s => cos (g * s) * (2 * sqrt (1 - s * s))) (-1) 1 (airy g)).
  { intros g Hg. pose proof (disc_real 0 g) as K. rewrite Rmult_0_l, Rplus_0_l, sqrt_square in K by exact Hg.
    eapply is_RInt_ext; [|exact K]. intros x _. cbv beta. unfold chord. destruct (Req_EM_T 0 0); [reflexivity|congruence]. }
  pose proof (is_RInt_minus (V := R_NormedModule) _ _ _ _ _ _ (A1 a Ha) (A1 b Hb)) as D.
  pose proof (is_RInt_scal (V := R_NormedModule) _ _ _ (Rabs (a - b)) _ (A1 0 (Rle_refl 0))) as P.
  assert (B : Rabs (airy a - airy b) <= Rabs (a - b) * airy 0).
  { apply (norm_RInt_le (V := R_NormedModule) _ _ (-1) 1 _ _ ltac:(lra)) with (2 := D) (3 := P).
    intros x Hx. cbv beta. change (Rabs (cos (a * x) * (2 * sqrt (1 - x * x)) - cos (b * x) * (2 * sqrt (1 - x * x))) <= Rabs (a - b) * (cos (0 * x) * (2 * sqrt (1 - x * x)))).
    rewrite <- Rmult_minus_distr_r, Rabs_mult, Rmult_0_l, cos_0, Rmult_1_l.
    pose proof (sqrt_pos (1 - x * x)). rewrite (Rabs_right (2 * _)) by lra. apply Rmult_le_compat_r; [lra|].
    eapply Rle_trans; [apply cos_lip|]. rewrite <- Rmult_minus_distr_r, Rabs_mult.
    assert (Rabs x <= 1) by (apply Rabs_le; lra). pose proof (Rabs_pos (a - b)). pose proof (Rabs_pos x). nra. }
  replace (airy 0) with PI in B; [lra|]. unfold airy. destruct (Req_EM_T 0 0); [reflexivity|congruence].
Qed.

(** ** circle and ellipse *)
Lemma tri_ext (f g : R -> R -> C) M v : (forall x y, f x y = g x y) -> is_CInt2 f M v -> is_CInt2 g M v.
Proof.
  intros H [inner [H1 H2]]. exists inner. split; [|exact H2]. intros y. eapply is_CInt_ext; [|apply H1]. intros x _. apply H.
Qed.
Lemma airy_val g : 0 < g -> airy g = 2 * PI * bessel_J1 g / g.
Proof. intros H. unfold airy. destruct (Req_EM_T g 0); [lra|reflexivity]. Qed.
Lemma ft_close (c : R) (ph : C) (a b v : R) : Cmod ph = 1 -> 0 <= c -> Rabs (a - b) <= v ->
  Cmod (Cminus (Cmult ph (RtoC (c * a))) (Cmult (Cmult (RtoC c) ph) (RtoC b))) <= c * v.
Proof.
  intros Hp Hc Hv. replace (Cminus (Cmult ph (RtoC (c * a))) (Cmult (Cmult (RtoC c) ph) (RtoC b))) with (Cmult ph (RtoC (c * (a - b)))).
  - rewrite Cmod_mult, Hp, Cmod_R, Rabs_mult, Rmult_1_l, (Rabs_right c) by lra. apply Rmult_le_compat_l; assumption.
  - rewrite !RtoC_mult, RtoC_minus. ring.
Qed.

Lemma circle_fourier xc yc r G M : 0 < r -> (forall x y, circle_inside xc yc r x y = true -> Rabs x < M /\ Rabs y < M) ->
  exists F, is_CInt2 (fun x y => if circle_inside xc yc r x y then expi (- (fst G * x + snd G * y)) else RtoC 0) M F /\
    Cmod (Cminus (circle_ft bessel_J1 xc yc r G) F) <= 1 / 10 ^ 10 * (PI * r ^ 3).
Proof.
  intros Hr Hb. exists (tri_ft xc yc r 0 r (fst G) (snd G)). split.
  - apply tri_int; [exact Hr|exact Hr| |exact Hb].
    intros x y. unfold circle_inside. rewrite Rleb_true.
    replace ((y - yc) / r * ((y - yc) / r) + (x - xc - 0 * ((y - yc) / r)) / r * ((x - xc - 0 * ((y - yc) / r)) / r))
      with (((x - xc) ^ 2 + (y - yc) ^ 2) / r ^ 2) by (field; lra).
    assert (P : 0 < r ^ 2) by (apply pow_lt; exact Hr). split; intros K.
    + apply (Rmult_le_reg_r (r ^ 2)); [exact P|]. unfold Rdiv. rewrite Rmult_assoc, Rinv_l, Rmult_1_r by lra. lra.
    + apply (Rmult_le_compat_r (r ^ 2)) in K; [|lra]. unfold Rdiv in K. rewrite Rmult_assoc, Rinv_l, Rmult_1_r in K by lra. lra.
  - unfold circle_ft, tri_ft. cbv zeta.
    set (g := sqrt (Rabs (fst G ^ 2) + Rabs (snd G ^ 2))). set (d := 1 / 10 ^ 10).
    assert (Dp : 0 < d) by (unfold d; lra). assert (Gp : 0 <= g) by apply sqrt_pos.
    assert (E : sqrt (fst G * r * (fst G * r) + (fst G * 0 + snd G * r) * (fst G * 0 + snd G * r)) = g * r).
    { unfold g. rewrite <- (sqrt_square r) at 5 by lra. rewrite <- sqrt_mult; [|pose proof (Rabs_pos (fst G ^ 2)); pose proof (Rabs_pos (snd G ^ 2)); lra|nra].
      f_equal. rewrite !Rabs_right by (apply Rle_ge, pow2_ge_0). ring. }
    rewrite E. replace (- fst G * xc - snd G * yc) with (- (fst G * xc + snd G * yc)) by ring.
    replace (r * 2 * PI / (g + d) * bessel_J1 ((g + d) * r)) with ((r * r) * airy ((g + d) * r)).
    2:{ rewrite airy_val by (apply Rmult_lt_0_compat; lra). field. split; lra. }
    eapply Rle_trans; [apply (ft_close _ _ _ _ (PI * Rabs ((g + d) * r - g * r)))|].
    + apply Cmod_expi.
    + nra.
    + apply airy_lip; [apply Rmult_le_pos; lra|apply Rmult_le_pos; lra].
    + replace ((g + d) * r - g * r) with (d * r) by ring. rewrite Rabs_right by (apply Rle_ge, Rmult_le_pos; lra). apply Req_le. ring.
Qed.

Lemma ellipse_fourier xc yc rx ry phi G M : 0 < rx -> 0 < ry ->
  (forall x y, ellipse_inside xc yc rx ry phi x y = true -> Rabs x < M /\ Rabs y < M) ->
  exists F, is_CInt2 (fun x y => if ellipse_inside xc yc rx ry phi x y then expi (- (fst G * x + snd G * y)) else RtoC 0) M F /\
    Cmod (Cminus (ellipse_ft bessel_J1 xc yc rx ry phi G) F) <= 1 / 10 ^ 10 * (PI * (rx * ry)).
Proof.
  intros Hx Hy Hb.
  set (c := cos phi). set (s := sin phi).
  assert (CS : c * c + s * s = 1) by (unfold c, s; pose proof (sin2_cos2 phi) as Q; unfold Rsqr in Q; lra).
  set (Q := rx * rx * (s * s) + ry * ry * (c * c)).
  assert (QP : 0 < Q).
  { unfold Q. assert (0 < rx * rx) by nra. assert (0 < ry * ry) by nra. assert (0 <= s * s) by nra. assert (0 <= c * c) by nra.
    destruct (Req_dec s 0) as [->|N]; [|assert (0 < s * s) by nra; nra]. assert (c * c = 1) by lra. nra. }
  set (m := sqrt Q). assert (MP : 0 < m) by (apply sqrt_lt_R0; exact QP). assert (MM : m * m = Q) by (apply sqrt_sqrt; lra).
  set (q := rx * ry / m). assert (qP : 0 < q) by (apply Rdiv_lt_0_compat; nra).
  set (k := (rx * rx - ry * ry) * (c * s) / m).
  exists (tri_ft (xc * c - yc * s) (xc * s + yc * c) m k q (fst G) (snd G)). split.
  - apply tri_int; [exact MP|exact qP| |exact Hb].
    intros x y. unfold ellipse_inside. cbv zeta. rewrite Rleb_true. fold c s.
    set (u := x * c + y * s - xc). set (v := - x * s + y * c - yc).
    assert (E1 : y - (xc * s + yc * c) = s * u + c * v).
    { unfold u, v. transitivity (y * (c * c + s * s) - (xc * s + yc * c)); [rewrite CS; ring|ring]. }
    assert (E2 : x - (xc * c - yc * s) = c * u - s * v).
    { unfold u, v. transitivity (x * (c * c + s * s) - (xc * c - yc * s)); [rewrite CS; ring|ring]. }
    rewrite E1, E2.
    assert (ID : (u / rx) ^ 2 + (v / ry) ^ 2 = (s * u + c * v) / m * ((s * u + c * v) / m) +
       (c * u - s * v - k * ((s * u + c * v) / m)) / q * ((c * u - s * v - k * ((s * u + c * v) / m)) / q)).
    { assert (K1 : (c * u - s * v - k * ((s * u + c * v) / m)) / q = (c * (ry * ry) * u - s * (rx * rx) * v) / (m * (rx * ry))).
      { unfold k, q. assert (N : (c * u - s * v) * (m * m) - (rx * rx - ry * ry) * (c * s) * (s * u + c * v) = c * (ry * ry) * u - s * (rx * rx) * v).
        { rewrite MM. unfold Q.
          transitivity ((c * (ry * ry) * u - s * (rx * rx) * v) * (c * c + s * s)); [ring|rewrite CS; ring]. }
        rewrite <- N. field. repeat split; lra. }
      rewrite K1. unfold Rdiv.
      replace ((s * u + c * v) * / m * ((s * u + c * v) * / m) + (c * (ry * ry) * u - s * (rx * rx) * v) * / (m * (rx * ry)) * ((c * (ry * ry) * u - s * (rx * rx) * v) * / (m * (rx * ry))))
        with (((s * u + c * v) * (s * u + c * v) * (rx * rx * (ry * ry)) + (c * (ry * ry) * u - s * (rx * rx) * v) * (c * (ry * ry) * u - s * (rx * rx) * v)) / ((m * m) * (rx * rx * (ry * ry))))
        by (field; repeat split; lra).
      rewrite MM. replace ((s * u + c * v) * (s * u + c * v) * (rx * rx * (ry * ry)) + (c * (ry * ry) * u - s * (rx * rx) * v) * (c * (ry * ry) * u - s * (rx * rx) * v))
        with (Q * (u * u * (ry * ry) + v * v * (rx * rx))) by (unfold Q; ring).
      field. repeat split; lra. }
    rewrite <- ID. tauto.
  - unfold ellipse_ft, tri_ft. cbv zeta. fold c s.
    set (g := sqrt (Rabs (((fst G * c + snd G * s) * rx) ^ 2) + Rabs (((- fst G * s + snd G * c) * ry) ^ 2))). set (d := 1 / 10 ^ 10).
    assert (Dp : 0 < d) by (unfold d; lra). assert (Gp : 0 <= g) by apply sqrt_pos.
    assert (E : sqrt (fst G * q * (fst G * q) + (fst G * k + snd G * m) * (fst G * k + snd G * m)) = g).
    { unfold g. f_equal. rewrite !Rabs_right by (apply Rle_ge, pow2_ge_0).
      assert (KM : k * m = (rx * rx - ry * ry) * (c * s)) by (unfold k; field; lra).
      assert (QK : q * q + k * k = rx * rx * (c * c) + ry * ry * (s * s)).
      { unfold q, k. apply (Rmult_eq_reg_r (m * m)); [|nra].
        transitivity (rx * rx * (ry * ry) + (rx * rx - ry * ry) * (rx * rx - ry * ry) * (c * c * (s * s))); [field; lra|].
        rewrite MM. unfold Q.
        transitivity (rx * rx * (ry * ry) * ((c * c + s * s) * (c * c + s * s)) + (rx * rx - ry * ry) * (rx * rx - ry * ry) * (c * c * (s * s))); [rewrite CS; ring|ring]. }
      transitivity (fst G * fst G * (q * q + k * k) + 2 * (fst G * snd G) * (k * m) + snd G * snd G * (m * m)); [ring|].
      rewrite QK, KM, MM. unfold Q. ring. }
    rewrite E. replace (- (fst G * c + snd G * s) * xc - (- fst G * s + snd G * c) * yc) with (- (fst G * (xc * c - yc * s) + snd G * (xc * s + yc * c))) by ring.
    replace (rx * ry * 2 * PI / (g + d) * bessel_J1 (g + d)) with ((m * q) * airy (g + d)).
    2:{ rewrite airy_val by lra. unfold q. field. split; lra. }
    eapply Rle_trans; [apply (ft_close _ _ _ _ (PI * Rabs ((g + d) - g)))|].
    + apply Cmod_expi.
    + apply Rmult_le_pos; lra.
    + apply airy_lip; lra.
    + replace (g + d - g) with d by ring. rewrite Rabs_right by lra. apply Req_le. unfold q. field. lra.
Qed.
