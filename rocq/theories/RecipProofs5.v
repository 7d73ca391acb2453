(** Witness layers: why the two truncations disagree, and why the test for a
    homogeneous layer is not sound (C28, C76). *)
From Verif Require Import Py LatticeModel LatticeSpec LatticeProofs CBase PhcModel PhcSpec PhcProofs3 PhcProofs4 ShapesModel ShapesSpec ShapesProofs2 ShapesProofs3
  RecipModel RecipSpec RecipProofs RecipProofs2 RecipProofs3 RecipProofs4.
Open Scope R_scope.
Open Scope list_scope.

Lemma t10 : 0 < 1 / 10 ^ 10 <= 1 / 100.
Proof.
  split; [apply Rdiv_lt_0_compat; [lra|apply pow_lt; lra]|]. apply Rmult_le_reg_r with (10 ^ 10); [apply pow_lt; lra|]. field_simplify; lra.
Qed.
Lemma circle_small g : len g <= 18 -> exists c, 0 < c /\
  (forall xc yc, circle_ft bessel_J1 xc yc (1/20) g = Cmult (expi (- fst g * xc - snd g * yc)) (RtoC c)).
Proof.
  intros H. set (ga := len g + 1 / 10 ^ 10). exists (1/20 * 2 * PI / ga * bessel_J1 (ga * (1/20))).
  pose proof t10 as T. pose proof (len_pos g) as P. assert (0 < ga) by (unfold ga; lra). assert (Hga : 0 < ga * (1/20) <= 1) by (unfold ga in *; lra).
  assert (J : 0 < bessel_J1 (ga * (1/20))).
  { pose proof (j1_bound (ga * (1/20)) ltac:(lra)) as B. pose proof (Rle_abs (- (bessel_J1 (ga * (1/20)) - ga * (1/20) / 2))) as Q. rewrite Rabs_Ropp in Q.
    set (y := ga * (1/20)) in *. assert (y * y <= 1) by nra. assert (y ^ 3 <= y) by (simpl; nra). lra. }
  split.
  - apply Rmult_lt_0_compat; auto. apply Rdiv_lt_0_compat; auto. pose proof PI_RGT_0. lra.
  - intros x y. unfold circle_ft. replace (sqrt (Rabs (fst g ^ 2) + Rabs (snd g ^ 2))) with (len g); auto.
    unfold len, inner. f_equal. rewrite !Rabs_pos_eq by (apply pow2_ge_0). ring.
Qed.

Definition off_centre (area : R) : layer := append_shape area (shapes_layer 0 1 1) (circle_shape bessel_J1 12 (1/4) 0 (1/20)).
Definition five_circles (area : R) : layer :=
  fold_left (append_shape area) (map (fun k => circle_shape bessel_J1 12 (INR k / 5) (INR k / 5) (1/20)) (seq 0 5)) (shapes_layer 0 1 1).

Lemma ft_conj ly area : (forall s, In s (ly_shapes ly) -> exists x y, sh_ft s = circle_ft bessel_J1 x y (1/20)) ->
  conj_symmetric (layer_ft_at area ly).
Proof.
  intros H g. apply (layer_ft_herm area ly g). intros s Hs. destruct (H s Hs) as (x & y & ->). apply circle_conj.
Qed.
Lemma off_conj area : conj_symmetric (layer_ft_at area (off_centre area)).
Proof. apply ft_conj. intros s [<-|[]]. repeat eexists. Qed.
Lemma five_conj area : conj_symmetric (layer_ft_at area (five_circles area)).
Proof. apply ft_conj. intros s H. simpl in H. decompose [or] H; subst; try contradiction; repeat eexists. Qed.
Lemma far g : 1 <= Rabs (fst g) -> near_zero g = false.
Proof.
  intros H. unfold near_zero. apply Rltb_false. pose proof t10. pose proof (Rabs_pos (snd g)). lra.
Qed.

Lemma square_area L : lattice_init (LatName "square") = Ok L -> lt_ec_area L = 1 /\ independent (lt_a1 L) (lt_a2 L) /\
  lt_b1 L = (2 * PI, 0) /\ lt_b2 L = (0, 2 * PI) /\ len (lt_b1 L) = 2 * PI /\ len (lt_b2 L) = 2 * PI.
Proof.
  intros HL. destruct (init_shape _ _ HL) as (_ & _ & E & _). destruct (init_named _ _ HL) as [(_ & _ & A1 & A2)|(N & _)]; [|discriminate].
  destruct (square_b L HL) as [B1 B2]. rewrite E, A1, A2, B1, B2. unfold independent, det; cbn [fst snd].
  pose proof PI_RGT_0. split; [rewrite Rabs_pos_eq; lra|]. split; [lra|]. split; auto. split; auto.
  split; apply len_val; try lra; ring.
Qed.
Lemma int_part_unique x n m : integer_part x n -> INR m <= x < INR m + 1 -> n = m.
Proof.
  unfold integer_part. intros [A B] [D E]. apply INR_eq. destruct (Nat.lt_trichotomy n m) as [H|[H|H]]; [| congruence|].
  - apply le_INR in H. rewrite S_INR in H. lra.
  - apply le_INR in H. rewrite S_INR in H. lra.
Qed.

(** ft(2 pi, 0) of the off-centre circle is -i times a positive number *)
Lemma off_ft : exists c, 0 < c /\ layer_ft_at 1 (off_centre 1) (2 * PI, 0) = (0, - c) /\ layer_ft_at 1 (off_centre 1) (- (2 * PI), 0) = (0, c).
Proof.
  pose proof PI_RGT_0 as HP. pose proof PI_4 as H4.
  destruct (circle_small (2 * PI, 0)) as (c & Hc & E). { rewrite (len_val _ _ (2 * PI)); lra. }
  exists (11 * c). split; [lra|].
  assert (V : layer_ft_at 1 (off_centre 1) (2 * PI, 0) = (0, - (11 * c))).
  { unfold layer_ft_at. rewrite far; [|cbn [fst]; pose proof PI2_3_2; rewrite Rabs_pos_eq; lra].
    unfold off_centre, append_shape, shapes_layer, circle_shape. cbn [ly_shapes ly_epsb ly_epsavg app fold_left sh_eps sh_ft]. rewrite E. cbn [fst snd].
    replace (- (2 * PI) * (1 / 4) - 0 * 0) with (- (PI / 2)) by field.
    unfold expi. rewrite cos_neg, sin_neg, cos_PI2, sin_PI2. rewrite Rminus_0_r, Rmult_0_r.
    apply Ceq; cbn [fst snd Cmult Cdiv Cplus Cinv RtoC]; field. }
  split; auto.
  assert (O : (- (2 * PI), 0) = opp (2 * PI, 0)) by (unfold opp; cbn [fst snd]; f_equal; ring).
  rewrite O, off_conj, V. unfold Cconj; cbn [fst snd]. f_equal. ring.
Qed.

Lemma abs_tbt_differ : exists L fuel rc i j i' j' gi gj,
  lattice_init (LatName "square") = Ok L /\ recip_abs fuel L (3/2) = Some (Ok rc) /\
  let rc' := recip_tbt L (3/2) in
  let ft := layer_ft_at (lt_ec_area L) (off_centre (lt_ec_area L)) in
  conj_symmetric ft /\
  nth_error (rc_g rc) i = Some gi /\ nth_error (rc_g rc) j = Some gj /\
  nth_error (rc_g rc') i' = Some gi /\ nth_error (rc_g rc') j' = Some gj /\
  eps_mat_abs L ft rc i j <> ft (diff gi gj) /\ eps_mat_abs L ft rc i j <> eps_mat_tbt ft rc' i' j'.
Proof.
  destruct (lattice_init (LatName "square")) as [L|] eqn:HL; [|discriminate].
  destruct (square_area L HL) as (EA & Ha & B1 & B2 & L1 & L2). pose proof PI_RGT_0 as HP. pose proof (indep_recip _ _ HL Ha) as Hb.
  destruct (recip_abs_form L (3/2)) as (n1 & n2 & k & I1 & I2 & Hk & _ & _ & F & T & _); auto; [lra|].
  rewrite L1 in I1. rewrite L2 in I2.
  apply (int_part_unique _ _ 3) in I1; [|replace (4 * PI * (3 / 2) / (2 * PI)) with 3 by (field; lra); simpl; lra].
  apply (int_part_unique _ _ 3) in I2; [|replace (4 * PI * (3 / 2) / (2 * PI)) with 3 by (field; lra); simpl; lra].
  subst n1 n2. destruct (T (S k)) as (r & HR); [lia|]. destruct (F _ _ HR) as (rc & -> & G & I & _).
  assert (GM : 3 / 2 <= 3 / 2 + INR k * dl) by (pose proof (pos_INR k); pose proof dl_pos; nra).
  assert (M : forall g i j, g = cmb (lt_b1 L) (lt_b2 L) (i, j) -> (Z.abs i <= 1)%Z -> (Z.abs j <= 1)%Z -> len g <= 2 * PI -> In g (rc_g rc)).
  { intros g i j -> Hi Hj Hl. rewrite G. apply in_map. apply filter_In. split; [apply block_in; lia|]. unfold selq. apply Rleb_true. nra. }
  assert (G0 : (0, 0) = cmb (lt_b1 L) (lt_b2 L) (0, 0)%Z) by (rewrite cmb_0; auto).
  assert (G1 : (2 * PI, 0) = cmb (lt_b1 L) (lt_b2 L) (1, 0)%Z) by (rewrite B1, B2; unfold cmb, comb; cbn [fst snd]; f_equal; ring).
  assert (X0 : In (0, 0) (rc_g rc)) by (apply (M _ 0%Z 0%Z); auto; [lia|lia|rewrite (len_val _ _ 0); lra]).
  assert (X1 : In (2 * PI, 0) (rc_g rc)) by (apply (M _ 1%Z 0%Z); auto; [lia|lia|rewrite (len_val _ _ (2 * PI)); lra]).
  destruct (recip_tbt_form L (3/2)) as (m1 & m2 & J1 & J2 & G' & _); auto; [lra|].
  rewrite L1 in J1. rewrite L2 in J2.
  apply (int_part_unique _ _ 1) in J1; [|replace (2 * PI * (3 / 2) / (2 * PI)) with (3/2) by (field; lra); simpl; lra].
  apply (int_part_unique _ _ 1) in J2; [|replace (2 * PI * (3 / 2) / (2 * PI)) with (3/2) by (field; lra); simpl; lra].
  subst m1 m2.
  assert (Y0 : In (0, 0) (rc_g (recip_tbt L (3/2)))) by (rewrite G', G0; apply in_map, block_in; lia).
  assert (Y1 : In (2 * PI, 0) (rc_g (recip_tbt L (3/2)))) by (rewrite G', G1; apply in_map, block_in; lia).
  apply In_nth_error in X0. apply In_nth_error in X1. apply In_nth_error in Y0. apply In_nth_error in Y1.
  destruct X0 as (i & Ei), X1 as (j & Ej), Y0 as (i' & Ei'), Y1 as (j' & Ej').
  exists L, (S k), rc, i, j, i', j', (0, 0), (2 * PI, 0). split; auto. split; auto. cbv zeta. rewrite EA.
  set (ft := layer_ft_at 1 (off_centre 1)). assert (Hc : conj_symmetric ft) by apply off_conj.
  split; auto. split; auto. split; auto. split; auto. split; auto.
  destruct (abs_matrix _ L (3/2) (S k) rc ft HL Ha ltac:(lra) Hc HR) as [_ A].
  specialize (A i j _ _ Ei Ej).
  destruct (tbt_matrix _ L (3/2) ft HL Ha ltac:(lra) Hc) as [_ A'].
  specialize (A' i' j' _ _ Ei' Ej').
  destruct off_ft as (c & Hcp & V1 & V2). fold ft in V1, V2.
  assert (D1 : diff (2 * PI, 0) (0, 0) = (2 * PI, 0)) by (unfold diff; cbn [fst snd]; f_equal; ring).
  assert (D2 : diff (0, 0) (2 * PI, 0) = (- (2 * PI), 0)) by (unfold diff; cbn [fst snd]; f_equal; ring).
  rewrite D1, V1 in A. rewrite D2, V2 in A'. rewrite A, D2, V2. split.
  - intros Q. apply (f_equal snd) in Q. cbn [snd] in Q. lra.
  - intros Q. apply (f_equal snd) in Q. destruct A' as [A'|[A' _]]; rewrite A' in Q; cbn [fst snd RtoC] in Q; lra.
Qed.

(** five circles on the diagonal *)
Lemma geom5 th : expi (5 * th) = RtoC 1 -> expi th <> RtoC 1 ->
  Cplus (Cplus (Cplus (Cplus (RtoC 1) (expi th)) (expi (2 * th))) (expi (3 * th))) (expi (4 * th)) = RtoC 0.
Proof.
  intros H5 H1. set (w := expi th) in *.
  assert (E2 : expi (2 * th) = Cmult w w) by (unfold w; rewrite <- expi_plus; f_equal; ring).
  assert (E3 : expi (3 * th) = Cmult w (Cmult w w)) by (rewrite <- E2; unfold w; rewrite <- expi_plus; f_equal; ring).
  assert (E4 : expi (4 * th) = Cmult w (Cmult w (Cmult w w))) by (rewrite <- E3; unfold w; rewrite <- expi_plus; f_equal; ring).
  assert (E5 : expi (5 * th) = Cmult w (Cmult w (Cmult w (Cmult w w)))) by (rewrite <- E4; unfold w; rewrite <- expi_plus; f_equal; ring).
  rewrite E2, E3, E4. rewrite E5 in H5.
  assert (N : Cminus w (RtoC 1) <> RtoC 0). { intros Q. apply H1. replace w with (Cplus (Cminus w (RtoC 1)) (RtoC 1)) by ring. rewrite Q. ring. }
  set (S := Cplus _ _). assert (Z : Cmult (Cminus w (RtoC 1)) S = RtoC 0).
  { unfold S. transitivity (Cminus (Cmult w (Cmult w (Cmult w (Cmult w w)))) (RtoC 1)); [ring|]. rewrite H5. ring. }
  replace S with (Cmult (Cinv (Cminus w (RtoC 1))) (Cmult (Cminus w (RtoC 1)) S)) by (rewrite Cmult_assoc, Cinv_l, Cmult_1_l; auto).
  rewrite Z. ring.
Qed.
Lemma root_not_one s : (1 <= s <= 4)%nat -> expi (2 * PI * INR s / 5) <> RtoC 1.
Proof.
  intros H Q. apply (f_equal snd) in Q. unfold expi, RtoC in Q; cbn [snd] in Q. pose proof PI_RGT_0.
  assert (s = 1 \/ s = 2 \/ s = 3 \/ s = 4)%nat as [->|[->|[->| ->]]] by lia; simpl INR in Q.
  - pose proof (sin_gt_0 (2 * PI * 1 / 5)). lra.
  - pose proof (sin_gt_0 (2 * PI * (1 + 1) / 5)). lra.
  - pose proof (sin_lt_0 (2 * PI * (1 + 1 + 1) / 5)). lra.
  - pose proof (sin_lt_0 (2 * PI * (1 + 1 + 1 + 1) / 5)). lra.
Qed.
Lemma expi_2PI s : expi (2 * PI * INR s) = RtoC 1.
Proof.
  induction s; [simpl; rewrite Rmult_0_r; apply expi_0|]. rewrite S_INR.
  replace (2 * PI * (INR s + 1)) with (2 * PI * INR s + 2 * PI) by ring. rewrite (expi_plus (2 * PI * INR s) (2 * PI)), IHs.
  unfold expi. rewrite cos_2PI, sin_2PI. apply Ceq; cbn [fst snd Cmult RtoC]; ring.
Qed.
Lemma five_shape area g c : near_zero g = false ->
  (forall x y, circle_ft bessel_J1 x y (1/20) g = Cmult (expi (- fst g * x - snd g * y)) (RtoC c)) ->
  let th := - (fst g + snd g) / 5 in
  layer_ft_at area (five_circles area) g =
  Cdiv (Cmult (RtoC (11 * c)) (Cplus (Cplus (Cplus (Cplus (RtoC 1) (expi th)) (expi (2 * th))) (expi (3 * th))) (expi (4 * th)))) (RtoC area).
Proof.
  intros HN HE. cbv zeta. unfold layer_ft_at. rewrite HN. rewrite Rminus_0_r, Rmult_0_r.
  unfold five_circles. cbn [seq map fold_left append_shape shapes_layer ly_shapes ly_epsb ly_epsavg app circle_shape sh_ft sh_eps].
  rewrite !HE.
  replace (- fst g * (INR 0 / 5) - snd g * (INR 0 / 5)) with 0 by (simpl; field).
  replace (- fst g * (INR 1 / 5) - snd g * (INR 1 / 5)) with (- (fst g + snd g) / 5) by (simpl; field).
  replace (- fst g * (INR 2 / 5) - snd g * (INR 2 / 5)) with (2 * (- (fst g + snd g) / 5)) by (simpl; field).
  replace (- fst g * (INR 3 / 5) - snd g * (INR 3 / 5)) with (3 * (- (fst g + snd g) / 5)) by (simpl; field).
  replace (- fst g * (INR 4 / 5) - snd g * (INR 4 / 5)) with (4 * (- (fst g + snd g) / 5)) by (simpl; field).
  rewrite expi_0. replace (12 - 1) with 11 by ring. rewrite RtoC_mult. unfold Cdiv. ring.
Qed.
Lemma circle_any g : exists c, forall x y, circle_ft bessel_J1 x y (1/20) g = Cmult (expi (- fst g * x - snd g * y)) (RtoC c).
Proof. eexists. intros x y. unfold circle_ft. reflexivity. Qed.
Lemma far' g : 1 <= Rabs (fst g) + Rabs (snd g) -> near_zero g = false.
Proof. intros H. unfold near_zero. apply Rltb_false. pose proof t10. lra. Qed.

Lemma five_quadrant a p : (a <= 2)%nat -> (p <= 2)%nat -> (0 < a + p)%nat ->
  layer_ft_at 1 (five_circles 1) (- (2 * PI * INR a), - (2 * PI * INR p)) = RtoC 0.
Proof.
  intros Ha Hp Hap. destruct (circle_any (- (2 * PI * INR a), - (2 * PI * INR p))) as (c & E).
  pose proof PI2_3_2 as P2. pose proof (pos_INR a) as Pa. pose proof (pos_INR p) as Pp.
  assert (S1 : 1 <= INR a + INR p). { rewrite <- plus_INR. change 1 with (INR 1). apply le_INR. lia. }
  rewrite (five_shape 1 _ c); auto.
  2:{ apply far'. cbn [fst snd]. rewrite !Rabs_Ropp, !Rabs_pos_eq by nra. nra. }
  cbn [fst snd]. replace (- (- (2 * PI * INR a) + - (2 * PI * INR p)) / 5) with (2 * PI * INR (a + p) / 5) by (rewrite plus_INR; field).
  rewrite geom5.
  - unfold Cdiv. ring.
  - replace (5 * (2 * PI * INR (a + p) / 5)) with (2 * PI * INR (a + p)) by field. apply expi_2PI.
  - apply root_not_one. lia.
Qed.
Lemma five_anti : exists c, 0 < c /\ layer_ft_at 1 (five_circles 1) (2 * PI, - (2 * PI)) = RtoC c.
Proof.
  pose proof PI2_3_2 as P2. pose proof PI_4 as P4.
  destruct (circle_small (2 * PI, - (2 * PI))) as (c & Hc & E).
  { unfold len, inner; cbn [fst snd]. rewrite <- (sqrt_square 18) by lra. apply sqrt_le_1_alt. nra. }
  exists (55 * c). split; [lra|]. rewrite (five_shape 1 _ c); auto.
  2:{ apply far'. cbn [fst snd]. rewrite Rabs_Ropp, !Rabs_pos_eq by lra. lra. }
  cbn [fst snd]. replace (- (2 * PI + - (2 * PI)) / 5) with 0 by field. rewrite !Rmult_0_r, expi_0.
  apply Ceq; cbn [fst snd Cmult Cdiv Cplus Cinv RtoC]; field.
Qed.
Lemma five_zero : exists e, 1 < e /\ layer_ft_at 1 (five_circles 1) (0, 0) = RtoC e.
Proof.
  destruct (circle_small (0, 0)) as (c & Hc & E). { rewrite (len_val 0 0 0); lra. }
  exists (1 + 55 * c). split; [lra|]. rewrite layer_ft_zero.
  2:{ unfold is_g0; cbn [fst snd]. rewrite Rabs_R0. pose proof t10. unfold Rdiv in *. lra. }
  f_equal. unfold five_circles. cbn [seq map fold_left append_shape shapes_layer ly_shapes ly_epsb ly_epsavg app circle_shape sh_ft sh_eps sh_area].
  rewrite !E. cbn [fst snd]. 
  assert (X : forall x, - 0 * x - 0 * x = 0) by (intros; ring). rewrite !X, expi_0. cbn [fst snd Cmult RtoC]. field.
Qed.

Lemma hom_tbt_wrong : exists L ly i j, lattice_init (LatName "square") = Ok L /\
  let ft := layer_ft_at (lt_ec_area L) ly in
  let rc := recip_tbt L 1 in
  let n := List.length (rc_g rc) in
  conj_symmetric ft /\ (i < n)%nat /\ (j < n)%nat /\
  hom_tbt (T1_tbt ft rc) = true /\ eps_mat_tbt ft rc i j <> RtoC 0 /\ i <> j /\
  forall inv, ~ is_inverse n (eps_mat_tbt ft rc) (eps_inv_tbt inv false ft rc).
Proof.
  destruct (lattice_init (LatName "square")) as [L|] eqn:HL; [|discriminate].
  destruct (square_area L HL) as (EA & Ha & B1 & B2 & L1 & L2). pose proof PI_RGT_0 as HP. pose proof (indep_recip _ _ HL Ha) as Hb.
  destruct (recip_tbt_form L 1) as (m1 & m2 & J1 & J2 & G & N1 & N2 & _); auto; [lra|].
  rewrite L1 in J1. rewrite L2 in J2.
  apply (int_part_unique _ _ 1) in J1; [|replace (2 * PI * 1 / (2 * PI)) with 1 by (field; lra); simpl; lra].
  apply (int_part_unique _ _ 1) in J2; [|replace (2 * PI * 1 / (2 * PI)) with 1 by (field; lra); simpl; lra].
  subst m1 m2. exists L, (five_circles (lt_ec_area L)), 3%nat, 1%nat. split; auto. cbv zeta. rewrite EA.
  set (ft := layer_ft_at 1 (five_circles 1)). set (rc := recip_tbt L 1) in *.
  assert (Hc : conj_symmetric ft) by apply five_conj.
  pose proof (g_len _ _ _ _ _ G) as GL. change ((2 * 1 + 1) * (2 * 1 + 1))%nat with 9%nat in GL. rewrite GL.
  assert (CM : forall i j, cmb (lt_b1 L) (lt_b2 L) (i, j) = (2 * PI * IZR i, 2 * PI * IZR j)).
  { intros. rewrite B1, B2. unfold cmb, comb; cbn [fst snd]. f_equal; ring. }
  assert (TN : forall a p, (a < 3)%nat -> (p < 3)%nat -> (0 < a + p)%nat -> nth (a * 3 + p) (T1_tbt ft rc) (RtoC 0) = RtoC 0).
  { intros a p H1 H2 H3. pose proof (T1_nth (lt_b1 L) (lt_b2 L) 1 1 ft rc G a p H1 H2) as Q. simpl (2 * 1 + 1)%nat in Q. rewrite Q.
    rewrite CM, !opp_IZR, <- !INR_IZR_INZ, <- !Ropp_mult_distr_r.
    unfold ft. rewrite five_quadrant by lia. unfold sn. destruct (tiny _); auto. }
  pose proof (T1_nth (lt_b1 L) (lt_b2 L) 1 1 ft rc G 0 0 ltac:(lia) ltac:(lia)) as T0. simpl (0 * (2 * 1 + 1) + 0)%nat in T0.
  rewrite CM in T0. simpl Z.opp in T0. rewrite Rmult_0_r in T0. destruct five_zero as (e & He & E0). fold ft in E0. rewrite E0 in T0.
  assert (T0' : nth 0 (T1_tbt ft rc) (RtoC 0) = RtoC e) by (rewrite T0; unfold sn; destruct (tiny _); auto).
  pose proof (T1_len (lt_b1 L) (lt_b2 L) 1 1 ft rc G) as TL. change ((2 * 1 + 1) * (2 * 1 + 1))%nat with 9%nat in TL.
  assert (HH : hom_tbt (T1_tbt ft rc) = true).
  { unfold hom_tbt. apply Rltb_true.
    assert (Z : rsuml (map Cmod (tl (T1_tbt ft rc))) = 0).
    { assert (AZ : forall x, In x (tl (T1_tbt ft rc)) -> x = RtoC 0).
      { intros x Hx. apply (In_nth _ _ (RtoC 0)) in Hx. destruct Hx as (k & Hk & <-).
        assert (LT : List.length (tl (T1_tbt ft rc)) = 8%nat) by (destruct (T1_tbt ft rc); simpl in *; lia). rewrite LT in Hk.
        assert (NT : nth k (tl (T1_tbt ft rc)) (RtoC 0) = nth (S k) (T1_tbt ft rc) (RtoC 0)) by (destruct (T1_tbt ft rc); [simpl in TL; lia|auto]).
        rewrite NT. specialize (TN (S k / 3)%nat (S k mod 3)%nat).
        rewrite (Nat.div_mod (S k) 3) by lia. rewrite (Nat.mul_comm 3). apply TN.
        - apply Nat.div_lt_upper_bound; lia. - apply Nat.mod_upper_bound; lia. - pose proof (Nat.div_mod (S k) 3 ltac:(lia)). lia. }
      induction (tl (T1_tbt ft rc)) as [|x l IH]; [reflexivity|]. cbn [map]. rewrite rsuml_cons, IH by (intros; apply AZ; right; auto).
      rewrite (AZ x) by (left; auto). rewrite Cmod_0. ring. }
    rewrite Z. apply t10. }
  assert (A31 : exists c, 0 < c /\ eps_mat_tbt ft rc 3%nat 1%nat = RtoC c).
  { destruct (entry_tbt (lt_b1 L) (lt_b2 L) 1 1 ft rc G N1 N2 Hc 3 1) as (s & E & _); [lia|lia|].
    pose proof (g_diff (lt_b1 L) (lt_b2 L) 1 1 rc G 1 0 0 1 ltac:(lia) ltac:(lia) ltac:(lia) ltac:(lia)) as D.
    simpl (1 * (2 * 1 + 1) + 0)%nat in D. simpl (0 * (2 * 1 + 1) + 1)%nat in D. rewrite D, CM in E. simpl in E.
    destruct five_anti as (c & Hcp & V). fold ft in V.
    replace (2 * PI * 1, 2 * PI * -1) with (2 * PI, - (2 * PI)) in E by (f_equal; ring).
    rewrite V in E. exists c. split; auto. rewrite E. unfold sn. destruct s; auto. }
  destruct A31 as (c & Hcp & A31).
  split; auto. split; [lia|]. split; [lia|]. split; auto. split; [rewrite A31; intros Q; apply (f_equal fst) in Q; simpl in Q; lra|]. split; [lia|].
  intros inv [Q _]. specialize (Q 3%nat 1%nat ltac:(lia) ltac:(lia)). unfold eps_inv_tbt in Q. rewrite HH in Q. cbn [orb] in Q. rewrite T0' in Q.
  unfold mmul in Q. rewrite (csum_single 9 1) in Q; [|lia|intros k _ Hk; rewrite (proj2 (Nat.eqb_neq k 1) Hk); unfold Cdiv; ring].
  rewrite A31 in Q. cbn [Nat.eqb] in Q. unfold mid in Q. cbn [Nat.eqb] in Q.
  rewrite <- RtoC_div, <- RtoC_mult in Q by lra. apply (f_equal fst) in Q. cbn [fst RtoC] in Q.
  assert (0 < c * (1 / e)) by (apply Rmult_lt_0_compat; [|apply Rdiv_lt_0_compat]; lra). lra.
Qed.

(** ** What does hold *)


Lemma rsuml_mod_in l (z : C) : In z l -> Cmod z <= rsuml (map Cmod l).
Proof.
  induction l as [|w l IH]; intros H; [destruct H|]. cbn [map]. rewrite rsuml_cons.
  assert (0 <= rsuml (map Cmod l)). { clear. induction l; [simpl; lra|]. cbn [map]. rewrite rsuml_cons. pose proof (Cmod_ge_0 a). lra. }
  pose proof (Cmod_ge_0 w). destruct H as [->|H]; [lra|]. specialize (IH H). lra.
Qed.
Lemma select_nth {A} (p : list bool) (l : list A) k d : List.length p = List.length l -> (k < List.length l)%nat ->
  nth k p false = true -> In (nth k l d) (select p l).
Proof.
  revert l k. induction p as [|b p IH]; intros [|x l] k HL Hk Hn; simpl in *; try lia. destruct k.
  - subst b. left; auto.
  - destruct b; [right|]; apply IH; auto; lia.
Qed.

(** hom_abs: every entry belonging to a non-zero difference is tiny *)
Lemma hom_abs_sound args L gmax fuel rc ft inv : lattice_init args = Ok L -> independent (lt_a1 L) (lt_a2 L) -> 0 <= gmax ->
  conj_symmetric ft -> recip_abs fuel L gmax = Some (Ok rc) -> inverts inv ->
  let gs := rc_g rc in
  let n := List.length gs in
  let A := eps_mat_abs L ft rc in
  let B := eps_inv_abs inv false L ft rc in
  let hom := hom_abs (G1_abs rc) (T1_abs L ft rc) in
  (hom = true ->
     (forall i j gi gj, nth_error gs i = Some gi -> nth_error gs j = Some gj -> 1 / 10 ^ 10 < len (diff gj gi) -> Cmod (A i j) < 1 / 10 ^ 10) /\
     (forall i j, (i < n)%nat -> (j < n)%nat -> B i j = if Nat.eqb i j then Cdiv (RtoC 1) (ft (0, 0)) else RtoC 0)) /\
  (hom = false -> (exists B', is_inverse n A B') -> is_inverse n A B).
Proof.
  intros HL Ha Hg Hc HR HI. cbv zeta. pose proof (indep_recip _ _ HL Ha) as Hb.
  destruct (recip_abs_form L gmax Hg Hb) as (n1 & n2 & k & _ & _ & _ & _ & _ & F & _).
  destruct (F _ _ HR) as (rc' & E & G & I & _). injection E as E. subst rc'.
  pose proof (abs_g_len _ _ _ G) as GL. pose proof (abs_T1_len L ft rc _ I) as TL.
  assert (G1L : List.length (G1_abs rc) = (List.length (rc_g rc) * List.length (rc_g rc))%nat) by apply grid_len.
  split.
  - intros Hh. split.
    + intros i j gi gj Ei Ej Hlen. unfold hom_abs in Hh. apply Rltb_true in Hh. eapply Rle_lt_trans; [|exact Hh]. apply rsuml_mod_in.
      assert (Hi : (i < List.length (rc_g rc))%nat) by (apply nth_error_Some; congruence).
      assert (Hj : (j < List.length (rc_g rc))%nat) by (apply nth_error_Some; congruence).
      assert (LT : (i * List.length (rc_g rc) + j < List.length (rc_g rc) * List.length (rc_g rc))%nat).
      { assert ((i + 1) * List.length (rc_g rc) <= List.length (rc_g rc) * List.length (rc_g rc))%nat by (apply Nat.mul_le_mono_r; lia). lia. }
      unfold eps_mat_abs, keep. apply select_nth.
      * rewrite map_length, TL, G1L, GL. auto.
      * rewrite TL, <- GL. auto.
      * rewrite (nth_map_lt _ _ _ (0, 0)) by (rewrite G1L; auto). unfold G1_abs, grid_diff. rewrite (nth_grid RecipModel.vsub _ _ i j (0, 0)) by auto.
        apply Rltb_true. rewrite norm2_len, vsub_diff. rewrite (nth_error_nth _ _ _ Ei), (nth_error_nth _ _ _ Ej). auto.
    + intros i j Hi Hj. unfold eps_inv_abs. rewrite Hh. cbn [orb].
      assert (AM : nth (argmin (map norm2 (G1_abs rc))) (T1_abs L ft rc) (RtoC 0) = ft (0, 0)).
      { assert (P : (0 < List.length (rc_g rc))%nat) by lia.
        assert (A0 : argmin (map norm2 (G1_abs rc)) = 0%nat).
        { assert (HD : exists t, G1_abs rc = (0, 0) :: t).
          { unfold G1_abs, grid_diff. destruct (rc_g rc) as [|g l]; [simpl in P; lia|]. cbn [flat_map map app]. eexists. f_equal. unfold RecipModel.vsub. f_equal; ring. }
          destruct HD as (t & ->). cbn [map argmin]. rewrite norm2_len, (len_val 0 0 0) by lra.
          assert (AF : forall l b, (forall x, In x l -> 0 <= x) -> argmin_from 0 0 b l = 0%nat).
          { induction l as [|x l IH]; intros b Hx; auto. cbn [argmin_from]. rewrite (proj2 (Rltb_false x 0)); [apply IH; intros; apply Hx; right; auto|].
            specialize (Hx x (or_introl eq_refl)). lra. }
          apply AF. intros x Hx. apply in_map_iff in Hx. destruct Hx as (g & <- & _). rewrite norm2_len. apply len_pos. }
        rewrite A0. pose proof (abs_entry L ft rc _ G I Hc 0 0) as AE. rewrite <- GL in AE. specialize (AE P P). simpl (0 * _ + 0)%nat in AE. rewrite AE.
        f_equal. unfold diff. f_equal; ring. }
      rewrite AM. destruct (Nat.eqb i j); auto. unfold Cdiv. ring.
  - intros Hh Hex. unfold eps_inv_abs. rewrite Hh. cbn [orb]. apply HI. auto.
Qed.

(** the 'tbt' test looks at one quadrant (and, by symmetry, the opposite one) *)
Lemma hom_tbt_partial args L gmax ft inv : lattice_init args = Ok L -> independent (lt_a1 L) (lt_a2 L) -> 0 <= gmax ->
  conj_symmetric ft -> inverts inv ->
  let rc := recip_tbt L gmax in
  let n := List.length (rc_g rc) in
  let A := eps_mat_tbt ft rc in
  let B := eps_inv_tbt inv false ft rc in
  let hom := hom_tbt (T1_tbt ft rc) in
  exists n1 n2 : nat,
    integer_part (2 * PI * gmax / len (lt_b1 L)) n1 /\ integer_part (2 * PI * gmax / len (lt_b2 L)) n2 /\
  (hom = true ->
     (forall a p, (a <= 2 * n1)%nat -> (p <= 2 * n2)%nat -> (0 < a + p)%nat ->
        Rabs (fst (ft (comb (Z.of_nat a) (Z.of_nat p) (lt_b1 L) (lt_b2 L)))) < 1 / 10 ^ 10) /\
     (forall i j, (i < n)%nat -> (j < n)%nat -> B i j = if Nat.eqb i j then Cdiv (RtoC 1) (ft (0, 0)) else RtoC 0)) /\
  (hom = false -> (exists B', is_inverse n A B') -> is_inverse n A B).
Proof.
  intros HL Ha Hg Hc HI. cbv zeta. pose proof (indep_recip _ _ HL Ha) as Hb.
  destruct (recip_tbt_form L gmax) as (n1 & n2 & J1 & J2 & G & N1 & N2 & _); auto.
  exists n1, n2. split; auto. split; auto. set (rc := recip_tbt L gmax) in *.
  pose proof (g_len _ _ _ _ _ G) as GL. pose proof (T1_len (lt_b1 L) (lt_b2 L) n1 n2 ft rc G) as TL.
  split.
  - intros Hh. split.
    + intros a p H1 H2 H3. unfold hom_tbt in Hh. apply Rltb_true in Hh. eapply Rle_lt_trans; [|exact Hh].
      pose proof (T1_nth (lt_b1 L) (lt_b2 L) n1 n2 ft rc G a p ltac:(lia) ltac:(lia)) as T.
      set (b := tiny _) in T.
      assert (E : ft (comb (Z.of_nat a) (Z.of_nat p) (lt_b1 L) (lt_b2 L)) = Cconj (ft (cmb (lt_b1 L) (lt_b2 L) (- Z.of_nat a, - Z.of_nat p)%Z))).
      { change (- Z.of_nat a, - Z.of_nat p)%Z with (zopp (Z.of_nat a, Z.of_nat p)). rewrite cmb_opp, Hc, Cconj_conj. auto. }
      rewrite E. cbn [Cconj fst].
      assert (IN : In (sn b (ft (cmb (lt_b1 L) (lt_b2 L) (- Z.of_nat a, - Z.of_nat p)%Z))) (tl (T1_tbt ft rc))).
      { rewrite <- T. pose proof (lt_prod n1 n2 a p ltac:(lia) ltac:(lia)) as LT. rewrite <- TL in LT.
        destruct (a * (2 * n2 + 1) + p)%nat as [|k] eqn:EK; [exfalso; nia|]. destruct (T1_tbt ft rc) as [|x l]; [simpl in LT; lia|]. simpl. apply nth_In. simpl in LT. lia. }
      pose proof (rsuml_mod_in _ _ IN) as Q. eapply Rle_trans; [|exact Q].
      assert (FS : fst (sn b (ft (cmb (lt_b1 L) (lt_b2 L) (- Z.of_nat a, - Z.of_nat p)%Z))) = fst (ft (cmb (lt_b1 L) (lt_b2 L) (- Z.of_nat a, - Z.of_nat p)%Z))) by (unfold sn; destruct b; auto).
      rewrite <- FS. eapply Rle_trans; [apply Rmax_l|apply Rmax_Cmod].
    + intros i j Hi Hj. unfold eps_inv_tbt. rewrite Hh. cbn [orb].
      pose proof (T1_nth (lt_b1 L) (lt_b2 L) n1 n2 ft rc G 0 0 ltac:(lia) ltac:(lia)) as T0. simpl (0 * _ + 0)%nat in T0. simpl Z.opp in T0.
      rewrite cmb_0 in T0.
      assert (R0 : RtoC (fst (ft (0, 0))) = ft (0, 0)).
      { assert (Q : ft (0, 0) = Cconj (ft (0, 0))) by (rewrite <- Hc; f_equal; unfold opp; cbn [fst snd]; f_equal; ring).
        apply (f_equal snd) in Q. cbn [Cconj snd] in Q. apply Ceq; cbn [fst snd RtoC]; lra. }
      assert (T0' : nth 0 (T1_tbt ft rc) (RtoC 0) = ft (0, 0)) by (rewrite T0; unfold sn; destruct (tiny _); auto).
      rewrite T0'. destruct (Nat.eqb i j); auto. unfold Cdiv. ring.
  - intros Hh Hex. unfold eps_inv_tbt. rewrite Hh. cbn [orb]. rewrite TL, <- GL. apply HI. auto.
Qed.
