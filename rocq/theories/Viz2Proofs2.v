(** Proofs about viz.pot_ft. *)
From Coq Require Import Ascii Permutation.
From Verif Require Import Py LatticeModel LatticeSpec LatticeProofs CBase PhcModel PhcSpec PhcProofs RecipModel RecipSpec RecipProofs RecipProofs2 RecipProofs3 RecipProofs4 RecipProofs5 MatElModel FieldsSpec FieldsModel RunModel ExcSpec ExcModel ExcProofs ExcProofs2 ExcProofs3 ExcProofs4 VizModel VizSpec VizProofs2 VizProofs4 Viz2Model Viz2Spec.
Open Scope R_scope.

Lemma entry_map2 {A} (f : R -> R -> A) xg yg i j u v : nth_error xg i = Some u -> nth_error yg j = Some v ->
  entry (map (fun y => map (fun x => f x y) xg) yg) j i = Some (f u v).
Proof. intros Hu Hv. unfold entry. rewrite nth_error_map, Hv. cbn [option_map]. now rewrite nth_error_map, Hu. Qed.
Lemma pot_picture s Nx Ny f : (0 < Nx)%nat -> (0 < Ny)%nat ->
  (exists rows xg yg, get_pot_xy s Nx Ny = Ok (rows, xg, yg) /\ xy_grid (ex_lat s) Nx Ny PerNone = Ok (xg, yg) /\ rows = map (fun y => map (fun x => f x y) xg) yg) ->
  exists im, viz_pot_ft (Some s) Nx Ny false false = Ok (im, (0, Rabs (ex_V s))) /\ shows_function (fun x y => fst (f x y)) Nx Ny im.
Proof.
  intros Hn Hm (rs & xg & yg & Hg & Hx & ->). destruct (window (ex_lat s) Nx Ny) as (X & Y & HX & HY & HG & HM). rewrite HG in Hx. injection Hx as <- <-.
  unfold viz_pot_ft. rewrite HM. cbn [bind andb orb]. rewrite Hg. cbn [bind].
  assert (E1 := linspace_ends (- X) X Nx Hn). assert (E2 := linspace_ends (- Y) Y Ny Hm).
  set (g1 := linspace (- X) X Nx) in *. set (g2 := linspace (- Y) Y Ny) in *. rewrite E1, E2. cbn [bind].
  assert (L1 : List.length g1 = Nx) by apply linspace_len. assert (L2 : List.length g2 = Ny) by apply linspace_len.
  eexists. split; [reflexivity|]. split; [|split]; cbn [im_rows].
  - now rewrite !map_length.
  - apply Forall_forall. intros r Hr. rewrite map_map in Hr. apply in_map_iff in Hr. destruct Hr as (v & <- & _). now rewrite !map_length.
  - intros i j Hi' Hj'. destruct (linspace_pixel (- X) X Nx i ltac:(lra) Hi') as (u & l & r & Hu & Hends & Hpu). fold g1 in Hu, Hends. rewrite E1 in Hends. inversion Hends; subst l r; clear Hends.
    destruct (linspace_pixel (- Y) Y Ny j ltac:(lra) Hj') as (v & b & t & Hv & Hends & Hpv). fold g2 in Hv, Hends. rewrite E2 in Hends. inversion Hends; subst b t; clear Hends.
    exists u, v. split; [|split; assumption]. etransitivity; [apply (entry_map (@fst R R))|]. exact (f_equal (option_map (@fst R R)) (entry_map2 f g1 g2 i j u v Hu Hv)).
Qed.
Lemma pot_drawn fuel P z V a M E0 loss osc gmax s args pot Nx Ny : exc_init fuel P z V a M E0 loss osc gmax "abs" = Some (Ok s) ->
  lattice_init args = Ok (pc_lattice P) -> independent (lt_a1 (pc_lattice P)) (lt_a2 (pc_lattice P)) -> 0 <= gmax ->
  conj_symmetric pot -> transform_of (lt_ec_area (pc_lattice P)) (ex_layer s) V (rc_g (ex_rc s)) pot -> (0 < Nx)%nat -> (0 < Ny)%nat ->
  exists im ds, viz_pot_ft (Some s) Nx Ny false false = Ok (im, (0, Rabs V)) /\
    NoDup ds /\ (forall D, In D ds <-> difference (rc_g (ex_rc s)) D) /\
    shows_function (fun x y => fst (series (map (fun D => (pot D, D)) ds) x y)) Nx Ny im.
Proof.
  intros HI HL Ha Hg Hc Ht Hn Hm. destruct (pot_abs_series _ _ _ _ _ _ _ _ _ _ _ _ _ Nx Ny HI HL Ha Hg Hc Ht) as (rs & xg & yg & ds & H1 & H2 & H3 & H4 & H5 & _).
  assert (EV : ex_V s = V /\ ex_lat s = pc_lattice P).
  { revert HI. unfold exc_init. destruct (_ || _)%bool; [discriminate|]. destruct (nth_error _ _); [|discriminate]. destruct (check_osc osc); [|discriminate].
    cbn [String.eqb Ascii.eqb Bool.eqb]. destruct (recip_abs _ _ _) as [[rc|]|]; cbn [bind]; try discriminate. destruct (pot_abs _ _ _ _) as [[x t1]|]; cbn [bind]; [|discriminate].
    intros E. injection E as E. subst s. split; reflexivity. }
  destruct EV as [EV EL]. destruct (pot_picture s Nx Ny (series (map (fun D => (pot D, D)) ds)) Hn Hm) as (im & E & Hs).
  { exists rs, xg, yg. rewrite EL. auto. }
  rewrite EV in E. exists im, ds. auto.
Qed.
Lemma pot_tbt_raises fuel P z V a M E0 loss osc gmax s args Nx Ny : exc_init fuel P z V a M E0 loss osc gmax "tbt" = Some (Ok s) ->
  lattice_init args = Ok (pc_lattice P) -> independent (lt_a1 (pc_lattice P)) (lt_a2 (pc_lattice P)) -> 0 <= gmax ->
  viz_pot_ft (Some s) Nx Ny false false = Raise IndexError.
Proof.
  intros HI HL Ha Hg. unfold viz_pot_ft. destruct (window (ex_lat s) Nx Ny) as (X & Y & _ & _ & _ & HM). rewrite HM. cbn [bind andb orb].
  now rewrite (pot_tbt_fails _ _ _ _ _ _ _ _ _ _ _ _ Nx Ny HI HL Ha Hg).
Qed.
Lemma pot_args s Nx Ny : viz_pot_ft None Nx Ny false false = Raise ValueError /\ viz_pot_ft (Some s) Nx Ny true true = Raise NameError /\
  viz_pot_ft (Some s) Nx Ny true false = Raise ValueError /\ viz_pot_ft (Some s) Nx Ny false true = Raise ValueError.
Proof. unfold viz_pot_ft. destruct (window (ex_lat s) Nx Ny) as (X & Y & _ & _ & _ & HM). rewrite HM. repeat split; reflexivity. Qed.

(** ** a stripe: half of the cell, the exact transform of a box w x h *)
Lemma sinc_even w g : sinc w (- g) = sinc w g.
Proof.
  unfold sinc. destruct (Reqb g 0) eqn:E.
  - apply Reqb_true in E. subst g. replace (Reqb (- 0) 0) with true by (symmetry; apply Reqb_true; lra). reflexivity.
  - apply Reqb_false in E. replace (Reqb (- g) 0) with false by (symmetry; apply Reqb_false; lra).
    replace (- g * w / 2) with (- (g * w / 2)) by field. rewrite sin_neg. field. exact E.
Qed.
Lemma sinc_0 w : sinc w 0 = w.
Proof. unfold sinc. now rewrite (proj2 (Reqb_true 0 0) eq_refl). Qed.
Lemma sinc_off w g : g <> 0 -> sinc w g = 2 * sin (g * w / 2) / g.
Proof. intros H. unfold sinc. now rewrite (proj2 (Reqb_false g 0) H). Qed.
Lemma box_conj w h : conj_symmetric (sh_ft (box w h)).
Proof. intros g. unfold box, opp. cbn [sh_ft fst snd]. rewrite !sinc_even. symmetry. apply Cconj_R. Qed.
Lemma sin_turn (n : Z) : sin (IZR n * PI) = 0.
Proof. apply sin_eq_0_1. now exists n. Qed.

(** a sum over a list without repetitions, all but some of whose terms vanish *)
Lemma series_perm l l' x y : Permutation l l' -> series l x y = series l' x y.
Proof. induction 1; cbn [series fold_right] in *; [reflexivity|unfold series in *; cbn [fold_right]; now rewrite IHPermutation|unfold series; cbn [fold_right]; ring|congruence]. Qed.
Lemma series_zero (pot : R * R -> C) ds x y : (forall D, In D ds -> pot D = RtoC 0) -> series (map (fun D => (pot D, D)) ds) x y = RtoC 0.
Proof.
  induction ds as [|d ds IH]; intros H; [reflexivity|]. unfold series in *. cbn [map fold_right fst snd]. rewrite IH by (intros; apply H; now right).
  rewrite (H d (or_introl eq_refl)). ring.
Qed.
Lemma series_few (pot : R * R -> C) few : forall ds x y, NoDup ds -> NoDup few -> incl few ds -> (forall D, In D ds -> ~ In D few -> pot D = RtoC 0) ->
  series (map (fun D => (pot D, D)) ds) x y = series (map (fun D => (pot D, D)) few) x y.
Proof.
  induction few as [|d few IH]; intros ds x y Nd Nf Hi Hz; [apply series_zero; auto|].
  assert (Hd : In d ds) by (apply Hi; now left). apply in_split in Hd. destruct Hd as (l1 & l2 & ->).
  inversion Nf as [|? ? Hnd Nf']; subst. pose proof (NoDup_remove_1 _ _ _ Nd) as N1. pose proof (NoDup_remove_2 _ _ _ Nd) as N2.
  rewrite (series_perm _ (map (fun D => (pot D, D)) (d :: l1 ++ l2))) by (apply Permutation_map; symmetry; apply Permutation_middle).
  unfold series in *. cbn [map fold_right fst snd]. f_equal. apply IH; auto.
  - intros e He. assert (In e (l1 ++ d :: l2)) by (apply Hi; now right). apply in_app_or in H. apply in_or_app. destruct H as [H|[H|H]]; auto. subst e. contradiction.
  - intros D HD Hn. apply Hz; [apply in_app_or in HD; apply in_or_app; destruct HD; [left|right; right]; assumption|]. intros [<-|H]; [now apply N2|contradiction].
Qed.

Lemma box_zero_x w h : sh_ft (box w h) (0, 0) = RtoC (w * h).
Proof. unfold box. cbn [sh_ft fst snd]. now rewrite !sinc_0. Qed.
(** the transform of the stripe at lattice vectors with small first index *)
Lemma stripe_ft (m n : Z) : (Z.abs m <= 2)%Z -> sh_ft (box (1 / 2) 1) (IZR m * (2 * PI), IZR n * (2 * PI)) =
  RtoC (if Z.eqb n 0 then if Z.eqb m 0 then 1 / 2 else if Z.eqb (Z.abs m) 1 then / PI else 0 else 0).
Proof.
  intros Hm. pose proof PI_RGT_0 as HP. unfold box. cbn [sh_ft fst snd]. f_equal. destruct (Z.eqb_spec n 0) as [->|Hn].
  - rewrite Rmult_0_l, sinc_0, Rmult_1_r. destruct (Z.eqb_spec m 0) as [->|H0]; [now rewrite Rmult_0_l, sinc_0|].
    assert (Hc : (m = 1 \/ m = -1 \/ m = 2 \/ m = -2)%Z) by lia.
    assert (S1 : sinc (1 / 2) (1 * (2 * PI)) = / PI).
    { rewrite sinc_off by lra. replace (1 * (2 * PI) * (1 / 2) / 2) with (PI / 2) by field. rewrite sin_PI2. field. lra. }
    assert (S2 : sinc (1 / 2) (2 * (2 * PI)) = 0).
    { rewrite sinc_off by lra. replace (2 * (2 * PI) * (1 / 2) / 2) with PI by field. rewrite sin_PI. field. lra. }
    destruct Hc as [->|[->|[->| ->]]]; cbn [Z.abs Z.eqb Pos.eqb].
    + exact S1.
    + replace (-1 * (2 * PI)) with (- (1 * (2 * PI))) by ring. rewrite sinc_even. exact S1.
    + exact S2.
    + replace (-2 * (2 * PI)) with (- (2 * (2 * PI))) by ring. rewrite sinc_even. exact S2.
  - rewrite (sinc_off 1 (IZR n * (2 * PI))). 2:{ intros E. apply Hn, eq_IZR. apply Rmult_eq_reg_r with (2 * PI); lra. }
    replace (IZR n * (2 * PI) * 1 / 2) with (IZR n * PI) by field. rewrite sin_turn. unfold Rdiv. ring.
Qed.
Lemma stripe_form L : pc_lattice (stripe_phc L) = L /\ pc_layers (stripe_phc L) = [stripe_layer L] /\ z_to_lind (stripe_phc L) (1/2) = 1%nat.
Proof.
  assert (E : stripe_phc L = mkPhc L (shapes_layer (- 10 ^ 10) 0 1) (set_zmin (shapes_layer 0 (10 ^ 10) 1) (0 + 1)) [stripe_layer L] []) by reflexivity.
  rewrite E. cbn [pc_lattice pc_layers]. split; auto. split; auto. unfold z_to_lind. cbn [pc_layers pc_clad_l].
  assert (T : ly_zmax (stripe_layer L) = 0 + 1) by reflexivity. assert (T0 : ly_zmax (shapes_layer (- 10 ^ 10) 0 1) = 0) by reflexivity.
  rewrite T0. cbn [z_loop]. rewrite (proj2 (Rltb_true 0 (1/2))) by lra. rewrite T.
  rewrite (proj2 (Rltb_false (0 + 1) (1/2))) by lra. cbn [fst snd]. try rewrite (proj2 (Rltb_false (0 + 1) (1/2))) by lra. reflexivity.
Qed.
Lemma pot_out_of_scale : exists L fuel s, lattice_init (LatName "square") = Ok L /\
  exc_init fuel (stripe_phc L) (1/2) 1 1 1 0 0 OscNone (6/5) "abs" = Some (Ok s) /\
  exists im c, viz_pot_ft (Some s) 1 1 false false = Ok (im, c) /\ ~ in_scale im c.
Proof.
  destruct (lattice_init (LatName "square")) as [L|] eqn:HL; [|discriminate]. exists L.
  destruct (square_area L HL) as (EA & Ha & B1 & B2 & L1 & L2). pose proof PI_RGT_0 as HP. pose proof (indep_recip _ _ HL Ha) as Hb.
  destruct (recip_abs_form L (6/5)) as (n1 & n2 & k & I1 & I2 & Hk & _ & _ & F & T & _); auto; [lra|].
  rewrite L1 in I1. rewrite L2 in I2.
  apply (int_part_unique _ _ 2) in I1; [|replace (4 * PI * (6 / 5) / (2 * PI)) with (12 / 5) by (field; lra); simpl; lra].
  apply (int_part_unique _ _ 2) in I2; [|replace (4 * PI * (6 / 5) / (2 * PI)) with (12 / 5) by (field; lra); simpl; lra].
  subst n1 n2. destruct (T (S k)) as (r & HR); [lia|]. exists (S k).
  destruct (stripe_form L) as (F1 & F2 & F3).
  destruct (init_ok (S k) (stripe_phc L) (1/2) 1 1 1 0 0 OscNone None (6/5) "abs" (stripe_layer L) (LatName "square")) as (s & HI & Hly & Sp).
  { now rewrite F3, F2. } { now rewrite F3. } { rewrite F3, F2. discriminate. } { reflexivity. } { now rewrite F1. } { rewrite F1. exact Ha. } { lra. }
  { rewrite F1. intros gs. now apply square_separated. } { intros s0 [<-|[]]. apply box_conj. } { right. rewrite F1. eauto. }
  exists s. split; [reflexivity|]. split; [exact HI|].
  set (sh := box (1 / 2) 1). set (pot := fun g => Cdiv (Cmult (RtoC 1) (sh_ft sh g)) (RtoC (lt_ec_area L))).
  assert (Ht : transform_of (lt_ec_area L) (ex_layer s) 1 (rc_g (ex_rc s)) pot).
  { apply (one_transform (lt_ec_area L) (ex_layer s) sh 1); [rewrite Hly; reflexivity|lra|rewrite EA; lra|exact Sp| |]; unfold sh; rewrite box_zero_x; cbn; lra. }
  assert (Hc : conj_symmetric pot).
  { intros g. unfold pot. rewrite Cconj_div, Cconj_mult, !Cconj_R. do 2 f_equal. apply box_conj. }
  assert (HL' : lattice_init (LatName "square") = Ok (pc_lattice (stripe_phc L))) by (rewrite F1; auto).
  assert (Ha' : independent (lt_a1 (pc_lattice (stripe_phc L))) (lt_a2 (pc_lattice (stripe_phc L)))) by (rewrite F1; auto).
  assert (Ht' : transform_of (lt_ec_area (pc_lattice (stripe_phc L))) (ex_layer s) 1 (rc_g (ex_rc s)) pot) by (rewrite F1; auto).
  assert (HR' : recip_abs (S k) L (6/5) = Some (Ok (ex_rc s))).
  { destruct (init_abs _ _ _ _ _ _ _ _ _ _ _ _ _ HI HL' Ha' ltac:(lra) Ht') as (HR' & _). now rewrite F1 in HR'. }
  destruct (F _ _ HR') as (rc & E & G & I & _). injection E as E. subst rc.
  assert (Hgm : 6 / 5 <= 6 / 5 + INR k * dl < 13 / 10).
  { pose proof (pos_INR k) as K0. pose proof dl_pos as D0. assert (INR k <= 25) by (apply (le_INR k 25) in Hk; simpl in Hk; lra).
    assert (dl <= / 1000) by (unfold dl; unfold Rdiv; rewrite Rmult_1_l; apply Rinv_le_contravar; lra). nra. }
  set (gm := 6 / 5 + INR k * dl) in *.
  assert (Cv : forall i j : Z, cmb (lt_b1 L) (lt_b2 L) (i, j) = (IZR i * (2 * PI), IZR j * (2 * PI))).
  { intros i j. rewrite B1, B2. unfold cmb, comb. cbn [fst snd]. f_equal; ring. }
  assert (M : forall i j, (Z.abs i + Z.abs j <= 1)%Z -> In (IZR i * (2 * PI), IZR j * (2 * PI)) (rc_g (ex_rc s))).
  { intros i j Hij. rewrite G, <- Cv. apply in_map. apply filter_In. split; [apply block_in; lia|]. unfold selq. rewrite Cv. apply Rleb_true.
    assert (Hl : len (IZR i * (2 * PI), IZR j * (2 * PI)) <= 2 * PI); [|nra].
    rewrite (len_val _ _ (IZR (Z.abs i + Z.abs j) * (2 * PI))).
    - apply IZR_le in Hij. nra.
    - apply Rmult_le_pos; [apply IZR_le; lia|lra].
    - assert (Hz : (i * j = 0)%Z) by nia. apply (f_equal IZR) in Hz. rewrite mult_IZR in Hz.
      assert (Hs : ((Z.abs i + Z.abs j) * (Z.abs i + Z.abs j) = i * i + j * j)%Z) by nia. apply (f_equal IZR) in Hs. rewrite !plus_IZR, !mult_IZR, !plus_IZR in Hs.
      rewrite plus_IZR. nra. }
  assert (M' : forall g, In g (rc_g (ex_rc s)) -> exists i j, (Z.abs i <= 1)%Z /\ g = (IZR i * (2 * PI), IZR j * (2 * PI))).
  { intros g Hg. rewrite G in Hg. apply in_map_iff in Hg. destruct Hg as ((i & j) & <- & Hg). apply filter_In in Hg. destruct Hg as [_ Hg]. unfold selq in Hg. apply Rleb_true in Hg. rewrite Cv in Hg.
    exists i, j. split; [|apply Cv]. destruct (Z_le_gt_dec (Z.abs i) 1) as [|Hi]; [assumption|exfalso].
    assert (Hl : 2 * (2 * PI) <= len (IZR i * (2 * PI), IZR j * (2 * PI))).
    { unfold len, inner. cbn [fst snd]. rewrite <- (sqrt_square (2 * (2 * PI))) by lra. apply sqrt_le_1_alt.
      assert (4 <= IZR i * IZR i) by (rewrite <- mult_IZR; apply IZR_le; nia). assert (0 <= IZR j * IZR j) by (rewrite <- mult_IZR; apply IZR_le; nia). nra. }
    nra. }
  destruct (pot_abs_series _ _ _ _ _ _ _ _ _ _ _ _ _ 1 1 HI HL' Ha' ltac:(lra) Hc Ht') as (rs & xg & yg & ds & H1 & H2 & H3 & H4 & H5 & _).
  rewrite F1 in H2.
  assert (Hxy : lt_a1 L = (1, 0) /\ lt_a2 L = (0, 1) /\ lt_type L = LSquare).
  { clear -HL. unfold lattice_init in HL. cbn in HL. injection HL as <-. repeat split; cbn; f_equal; try field. }
  destruct Hxy as (A1 & A2 & TT).
  assert (Hg : xg = [- (1 / 2)] /\ yg = [- (1 / 2)]).
  { unfold xy_grid in H2. rewrite TT, A1, A2 in H2. cbn [bind fst snd] in H2. unfold linspace in H2. cbn [seq map Nat.sub INR] in H2. injection H2 as <- <-.
    rewrite (Rmax_left 1 0), (Rmax_right 0 1) by lra. rewrite Rabs_R1. split; f_equal; unfold Rdiv; ring. }
  destruct Hg as [-> ->]. cbn [map] in H5.
  assert (V0 : forall D i j, (Z.abs i <= 2)%Z -> D = (IZR i * (2 * PI), IZR j * (2 * PI)) -> pot D = RtoC (if Z.eqb j 0 then if Z.eqb i 0 then 1 / 2 else if Z.eqb (Z.abs i) 1 then / PI else 0 else 0)).
  { intros D i j Hi ->. unfold pot, sh. rewrite stripe_ft by exact Hi. rewrite EA. apply Ceq; cbn; field. }
  set (few := [(0, 0); (2 * PI, 0); (- (2 * PI), 0)]).
  assert (Hser : series (map (fun D => (pot D, D)) ds) (- (1 / 2)) (- (1 / 2)) = RtoC (1 / 2 - 2 / PI)).
  { rewrite (series_few pot few); auto.
    - unfold few, series. cbn [map fold_right fst snd].
      rewrite (V0 (0, 0) 0%Z 0%Z), (V0 (2 * PI, 0) 1%Z 0%Z), (V0 (- (2 * PI), 0) (-1)%Z 0%Z) by (try lia; f_equal; ring). cbn [Z.eqb Z.abs Pos.eqb].
      replace (0 * - (1 / 2) + 0 * - (1 / 2)) with 0 by ring. replace (2 * PI * - (1 / 2) + 0 * - (1 / 2)) with (- PI) by field. replace (- (2 * PI) * - (1 / 2) + 0 * - (1 / 2)) with PI by field.
      unfold expi. rewrite cos_0, sin_0, cos_neg, sin_neg, cos_PI, sin_PI. apply Ceq; cbn; field; lra.
    - unfold few. repeat constructor; cbn; intuition; match goal with H : (_, _) = (_, _) |- _ => injection H; intros; lra end.
    - intros D [<-|[<-|[<-|[]]]]; apply H4; unfold difference, diff.
      + exists (0, 0), (0, 0). replace (0, 0) with (IZR 0 * (2 * PI), IZR 0 * (2 * PI)) by (f_equal; ring). split; [apply (M 0 0)%Z; lia|]. split; [apply (M 0 0)%Z; lia|]. cbn [fst snd]. f_equal; ring.
      + exists (IZR 1 * (2 * PI), IZR 0 * (2 * PI)), (IZR 0 * (2 * PI), IZR 0 * (2 * PI)). split; [apply M; lia|]. split; [apply M; lia|]. cbn [fst snd]. f_equal; ring.
      + exists (IZR 0 * (2 * PI), IZR 0 * (2 * PI)), (IZR 1 * (2 * PI), IZR 0 * (2 * PI)). split; [apply M; lia|]. split; [apply M; lia|]. cbn [fst snd]. f_equal; ring.
    - intros D HD Hn. apply H4 in HD. destruct HD as (g & g' & Hg & Hg' & ->). destruct (M' _ Hg) as (i & j & Hi & ->), (M' _ Hg') as (i' & j' & Hi' & ->).
      rewrite (V0 _ (i - i')%Z (j - j')%Z) by (try lia; unfold diff; cbn [fst snd]; rewrite !minus_IZR; f_equal; ring).
      f_equal. destruct (Z.eqb_spec (j - j') 0) as [Ej|]; [|reflexivity]. destruct (Z.eqb_spec (i - i') 0) as [Ei|Ei]; [exfalso|destruct (Z.eqb_spec (Z.abs (i - i')) 1) as [E1|]; [exfalso|reflexivity]].
      + apply Hn. left. unfold diff. cbn [fst snd]. assert (i = i') as -> by lia. assert (j = j') as -> by lia. f_equal; ring.
      + apply Hn. right. assert (j = j') as -> by lia. assert (Hd : (i = i' + 1 \/ i = i' - 1)%Z) by lia. unfold diff. cbn [fst snd].
        destruct Hd as [-> | ->]; [left|right; left]; rewrite ?plus_IZR, ?minus_IZR; f_equal; ring. }
  unfold viz_pot_ft. destruct (window (ex_lat s) 1 1) as (X & Y & _ & _ & _ & HM). rewrite HM. cbn [bind andb orb]. rewrite H1. cbn [bind ends last]. do 2 eexists. split; [reflexivity|].
  intros HS. specialize (HS (1 / 2 - 2 / PI)). cbn [fst snd im_rows] in HS. rewrite H5, Hser in HS. cbn in HS.
  assert (Hneg : 1 / 2 - 2 / PI < 0).
  { destruct (PI_ineq 2) as [_ HU]. unfold tg_alt, PI_tg in HU. simpl in HU. assert (/ 4 < / PI) by (apply Rinv_lt_contravar; nra). lra. }
  destruct (HS (or_introl eq_refl)). lra.
Qed.
