(** C22 stated for polygons built by [poly_init]. *)
From Verif Require Import Py LatticeSpec CBase PhcModel ShapesModel ShapesSpec ShapesProofs ShapesProofs2 ShapesProofs3 CInt ShapesProofs4 ShapesProofs5 ShapesProofs6.
From Coquelicot Require Import Complex.
Open Scope R_scope.
Open Scope list_scope.

Lemma init_closed eps xs ys P : poly_init eps xs ys = Ok P -> po_pts P = closed (combine xs ys).
Proof.
  intros H. apply init_of in H. destruct H as (_ & _ & _ & _ & p & rest & H1 & H2 & _). rewrite H2, H1. auto.
Qed.
Lemma poly_limit_init eps xs ys P G M : poly_init eps xs ys = Ok P ->
  inside_box (combine xs ys) M -> G = (0, 0) \/ 1 / 10 ^ 10 <= Rabs (fst G) \/ 1 / 10 ^ 10 <= Rabs (snd G) ->
  exists I, is_CInt2 (fun x y => Cmult (RtoC (winding (combine xs ys) x y)) (expi (- (fst G * x + snd G * y)))) M I /\
   forall ep, 0 < ep -> exists r0, 0 < r0 /\ forall r, 0 < r < r0 ->
     Cmod (Cminus (poly_ft (mkRegs r (r ^ 2) (r ^ 5)) (po_pts P) G) I) < ep.
Proof. intros H. rewrite (init_closed _ _ _ _ H). apply poly_limit. Qed.
Lemma code_error_init eps xs ys P G M : poly_init eps xs ys = Ok P -> let vs := combine xs ys in
  inside_box vs M ->
  exists I, is_CInt2 (fun x y => Cmult (RtoC (winding vs x y)) (expi (- (fst G * x + snd G * y)))) M I /\
   (G = (0, 0) -> poly_ft code_regs (po_pts P) G = I) /\
   (1 / 10 ^ 10 <= Rabs (fst G) ->
      Cmod (Cminus (poly_ft code_regs (po_pts P) G) I) <=
      rsuml (map (fun i => edge_error (vert vs i) (vert vs (S i)) (fst G) (snd G)) (seq 0 (List.length vs)))) /\
   (Rabs (fst G) < 1 / 10 ^ 10 -> 1 / 10 ^ 10 <= Rabs (snd G) ->
      Cmod (Cminus (poly_ft code_regs (po_pts P) G) I) <=
      rsuml (map (fun i => edge_error_gx0 (vert vs i) (vert vs (S i)) (fst G) (snd G)) (seq 0 (List.length vs)))).
Proof.
  intros H vs Hb. rewrite (init_closed _ _ _ _ H). fold vs. pose proof ten10 as T.
  destruct (Rlt_dec (Rabs (fst G)) (1 / 10 ^ 10)) as [HX|HX]; [destruct (Rlt_dec (Rabs (snd G)) (1 / 10 ^ 10)) as [HY|HY]|].
  - destruct (Req_EM_T (fst G) 0) as [X0|X0]; [destruct (Req_EM_T (snd G) 0) as [Y0|Y0]|].
    + destruct G as [Gx Gy]. cbn [fst snd] in X0, Y0. subst Gx Gy. exists (poly_ft code_regs vs (0, 0)).
      split; [apply (main_00 vs M code_regs Hb)|]. split; [intros _; apply poly_ft_closed|].
      cbn [fst snd]. rewrite Rabs_R0. split; intros; lra.
    + assert (HN : - snd G <> 0) by lra. eexists. split; [apply (integrand_ext vs G)|].
      * rewrite X0, Ropp_0. apply (area_gx0 vs (- snd G) M Hb HN).
      * split; [intros ->; simpl in Y0; lra|]. split; intros; lra.
    + assert (HN : - fst G <> 0) by lra. eexists. split; [apply (integrand_ext vs G)|].
      * apply (area_gx vs (- fst G) (- snd G) M Hb HN).
      * split; [intros ->; simpl in X0; lra|]. split; intros; lra.
  - apply Rnot_lt_le in HY. destruct (code_error_gx0 vs G M Hb HX HY) as (I & H1 & H2). exists I. split; [exact H1|].
    split; [intros ->; simpl in HY; rewrite Rabs_R0 in HY; lra|]. split; [intros; lra|auto].
  - apply Rnot_lt_le in HX. destruct (code_error_gx vs G M Hb HX) as (I & H1 & H2). exists I. split; [exact H1|].
    split; [intros ->; simpl in HX; rewrite Rabs_R0 in HX; lra|]. split; [auto|intros; lra].
Qed.

Lemma square_pts eps P : square_init eps 0 0 1 = Ok P -> po_pts P = closed sq.
Proof.
  intros H. unfold square_init in H. apply init_closed in H. rewrite H. f_equal. cbn [map combine]. unfold sq.
  assert (E1 : 0 + - (1) / 2 = -1 / 2) by field. assert (E2 : 0 + 1 / 2 = 1 / 2) by field. rewrite E1, E2. auto.
Qed.
Lemma square_refuted : exists eps P G I,
  square_init eps 0 0 1 = Ok P /\
  is_CInt2 (fun x y => Cmult (RtoC (winding ((-1/2, -1/2) :: (1/2, -1/2) :: (1/2, 1/2) :: (-1/2, 1/2) :: nil) x y))
                             (expi (- (fst G * x + snd G * y)))) 1 I /\
  1 <= Rabs (fst G) /\ 1 / 5 <= Cmod (Cminus (poly_ft code_regs (po_pts P) G) I).
Proof.
  destruct poly_refuted as (I & H1 & H2). destruct (square_ok 1 0 0 1) as (P & HP & _).
  exists 1, P, badG, I. split; auto. split; [exact H1|]. rewrite (square_pts 1 P HP). split; auto.
  unfold badG; cbn [fst]. rewrite Rabs_Ropp, Rabs_pos_eq; pose proof PI2_3_2; unfold PI2 in *; lra.
Qed.
Lemma winding_square : winding sq 0 0 = 1 /\ winding sq 1 0 = 0 /\ winding sq 0 1 = 0.
Proof.
  unfold winding, sq. cbn [List.length seq map]. unfold vert. cbn [List.length Nat.modulo Nat.divmod fst snd nth Nat.sub].
  unfold crossing, edge_x, rsuml. cbn [fst snd fold_right].
  replace (1 / 2 - 1 / 2) with 0 by ring. replace (-1 / 2 - -1 / 2) with 0 by ring.
  assert (D : forall z, 0 / z = 0) by (intros; unfold Rdiv; ring). rewrite !D, !Rmult_0_r.
  repeat split.
  all: repeat match goal with
    | |- context[Rltb ?a ?b] => first [rewrite (proj2 (Rltb_true a b)) by lra | rewrite (proj2 (Rltb_false a b)) by lra]
    | |- context[Rleb ?a ?b] => first [rewrite (proj2 (Rleb_true a b)) by lra | rewrite (proj2 (Rleb_false a b)) by lra]
    end; cbn [andb]; repeat match goal with |- context[if ?b then _ else _] => destruct b end; lra.
Qed.

Lemma circle_moved j1 xc yc r tx ty :
  (forall G, circle_ft j1 (xc + tx) (yc + ty) r G = Cmult (expi (- (fst G * tx + snd G * ty))) (circle_ft j1 xc yc r G)) /\
  (forall x y, circle_inside (xc + tx) (yc + ty) r (x + tx) (y + ty) = circle_inside xc yc r x y) /\
  (forall x y, circle_inside xc yc r x y = true <-> dist2 (x, y) (xc, yc) <= r ^ 2).
Proof.
  split; [intros; apply circle_translate|]. split; [intros; apply circle_inside_translate|].
  intros x y. unfold circle_inside, dist2, Rsqr. cbn [fst snd]. rewrite Rleb_true.
  replace ((x - xc) * (x - xc) + (y - yc) * (y - yc)) with ((x - xc) ^ 2 + (y - yc) ^ 2) by ring. tauto.
Qed.
Lemma ellipse_moved j1 xc yc rx ry phi tx ty :
  let ux := tx * cos phi + ty * sin phi in
  let uy := - tx * sin phi + ty * cos phi in
  (forall G, ellipse_ft j1 (xc + ux) (yc + uy) rx ry phi G =
     Cmult (expi (- (fst G * tx + snd G * ty))) (ellipse_ft j1 xc yc rx ry phi G)) /\
  (forall x y, ellipse_inside (xc + ux) (yc + uy) rx ry phi (x + tx) (y + ty) = ellipse_inside xc yc rx ry phi x y) /\
  (let cx := xc * cos phi - yc * sin phi in
   let cy := xc * sin phi + yc * cos phi in
   ellipse_inside xc yc rx ry phi cx cy = true /\
   forall u v, ellipse_inside xc yc rx ry phi (cx + u) (cy + v) = ellipse_inside xc yc rx ry phi (cx - u) (cy - v)).
Proof.
  split; [intros; apply ellipse_translate|]. split; [intros; apply ellipse_inside_translate|].
  split; [apply ellipse_centre_in|]. intros. apply ellipse_centre_sym.
Qed.
Lemma ellipse_set xc yc rx ry phi s t :
  ellipse_inside xc yc rx ry phi (xc * cos phi - yc * sin phi + (s * cos phi - t * sin phi))
    (xc * sin phi + yc * cos phi + (s * sin phi + t * cos phi)) = true <-> (s / rx) ^ 2 + (t / ry) ^ 2 <= 1.
Proof.
  unfold ellipse_inside. rewrite Rleb_true.
  pose proof (sin2_cos2 phi) as E. unfold Rsqr in E.
  set (k := cos phi) in *. set (q := sin phi) in *.
  replace ((xc * k - yc * q + (s * k - t * q)) * k + (xc * q + yc * k + (s * q + t * k)) * q - xc) with s.
  2:{ replace ((xc * k - yc * q + (s * k - t * q)) * k + (xc * q + yc * k + (s * q + t * k)) * q - xc) with ((xc + s) * (q * q + k * k) - xc) by ring. rewrite E. ring. }
  replace (- (xc * k - yc * q + (s * k - t * q)) * q + (xc * q + yc * k + (s * q + t * k)) * k - yc) with t.
  2:{ replace (- (xc * k - yc * q + (s * k - t * q)) * q + (xc * q + yc * k + (s * q + t * k)) * k - yc) with ((yc + t) * (q * q + k * k) - yc) by ring. rewrite E. ring. }
  reflexivity.
Qed.
Lemma ellipse_centre_wrong : exists xc yc rx ry phi,
  0 < rx /\ 0 < ry /\ ellipse_inside xc yc rx ry phi xc yc = false.
Proof. exists 1, 0, (1/10), (1/10), (PI/2). split; [lra|]. split; [lra|]. apply ellipse_centre_out. Qed.
Lemma ellipse_phase_wrong : exists xc yc rx ry phi tx ty, exists G : R * R,
  0 < rx /\ 0 < ry /\
  ellipse_ft bessel_J1 (xc + tx) (yc + ty) rx ry phi G <>
  Cmult (expi (- (fst G * tx + snd G * ty))) (ellipse_ft bessel_J1 xc yc rx ry phi G).
Proof.
  exists 0, 0, (1/10), (1/10), (PI / 2), 1, 0, (PI, 0). cbn [fst snd]. split; [lra|]. split; [lra|].
  intros H. pose proof (ellipse_translate bessel_J1 0 0 (1/10) (1/10) (PI / 2) 0 1 (PI, 0)) as E. cbn [fst snd] in E.
  rewrite cos_PI2, sin_PI2 in E.
  replace (0 + (0 * 0 + 1 * 1)) with (0 + 1) in E by ring. replace (0 + (- 0 * 1 + 1 * 0)) with (0 + 0) in E by ring.
  replace (- (PI * 0 + 0 * 1)) with 0 in E by ring. rewrite expi_0 in E. rewrite E in H. clear E.
  replace (- (PI * 1 + 0 * 0)) with (- PI) in H by ring.
  assert (EN : expi (- PI) = RtoC (-1)).
  { unfold expi. rewrite cos_neg, sin_neg, cos_PI, sin_PI, Ropp_0. reflexivity. }
  rewrite EN in H. unfold ellipse_ft in H. cbn [fst snd] in H. rewrite cos_PI2, sin_PI2 in H.
  replace (- (PI * 0 + 0 * 1) * 0 - (- PI * 1 + 0 * 0) * 0) with 0 in H by ring. rewrite expi_0 in H.
  replace ((PI * 0 + 0 * 1) * (1 / 10)) with 0 in H by ring. replace ((- PI * 1 + 0 * 0) * (1 / 10)) with (- (PI / 10)) in H by field.
  set (ga := sqrt (Rabs (0 ^ 2) + Rabs ((- (PI / 10)) ^ 2)) + 1 / 10 ^ 10) in H.
  assert (HP := PI_RGT_0). assert (HP4 := PI_4).
  assert (G : ga = PI / 10 + 1 / 10 ^ 10).
  { unfold ga. f_equal. replace (0 ^ 2) with 0 by ring. rewrite Rabs_R0, Rplus_0_l.
    replace ((- (PI / 10)) ^ 2) with ((PI / 10) * (PI / 10)) by ring. rewrite Rabs_pos_eq by nra. apply sqrt_square. lra. }
  pose proof ten10 as T. assert (T1 : 1 / 10 ^ 10 <= 1 / 10) by (apply Rmult_le_reg_r with (10 ^ 10); [apply pow_lt; lra|]; field_simplify; lra).
  assert (Hga : 0 < ga <= 1) by (rewrite G; lra).
  assert (J : 0 < bessel_J1 ga).
  { pose proof (j1_bound ga ltac:(lra)) as B. pose proof (Rle_abs (- (bessel_J1 ga - ga / 2))) as Q. rewrite Rabs_Ropp in Q. assert (ga * ga <= 1) by nra. assert (ga ^ 3 <= ga) by (simpl; nra). lra. }
  assert (K : 0 < 1 / 10 * (1 / 10) * 2 * PI / ga * bessel_J1 ga).
  { apply Rmult_lt_0_compat; auto. apply Rdiv_lt_0_compat; lra. }
  apply (f_equal fst) in H. unfold Cmult, RtoC in H. cbn [fst snd] in H. lra.
Qed.
Lemma small_error : edge_error (1/2, -1/2) (1/2, 1/2) 1 1 <= 1 / 10 ^ 9.
Proof.
  unfold edge_error. cbn [fst snd]. replace (1 / 2 - 1 / 2) with 0 by ring. replace (1 / 2 - -1 / 2) with 1 by field.
  rewrite Rplus_0_l, !Rmult_1_l, Rminus_0_r, Rabs_R1.
  change (1 / 10 ^ 10 / (1 + 1 / 10 ^ 20)) with s1. pose proof s1_bound as B. rewrite (Rabs_pos_eq s1) by lra.
  assert (1 <= (1 + s1) ^ 2) by nra. pose proof (pow10_pos 50) as P.
  assert (1 / 10 ^ 50 / ((1 + s1) ^ 2 + 1 / 10 ^ 50) <= 1 / 10 ^ 50).
  { apply Rmult_le_reg_r with ((1 + s1) ^ 2 + 1 / 10 ^ 50); [lra|]. unfold Rdiv at 1. rewrite Rmult_assoc, Rinv_l by lra. nra. }
  assert (1 / 10 ^ 50 <= 1 / 10 ^ 10) by (apply Rmult_le_reg_r with (10 ^ 50); [apply pow_lt; lra|]; field_simplify; lra).
  assert (3 * (1 / 10 ^ 10) <= 1 / 10 ^ 9) by (apply Rmult_le_reg_r with (10 ^ 10); [apply pow_lt; lra|]; field_simplify; lra).
  unfold Rdiv at 1. rewrite Rinv_1, !Rmult_1_l, ?Rmult_1_r. lra.
Qed.
