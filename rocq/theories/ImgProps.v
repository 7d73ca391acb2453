(** C148-C149: shapes drawn in another unit cell. *)
From Coq Require Import List.
From Verif Require Import Py CBase LatticeModel LatticeSpec LatticeProofs PhcModel PhcSpec RecipModel ShapesModel RunModel PweModel ExcModel PolModel.
From Verif Require Import InvSpec GinvSpec ImgSpec ImgProofs ImgProofs2 ImgProofs3 ImgProofs4.
Open Scope R_scope.
Open Scope list_scope.

(** ** C148: every shape may be drawn in a unit cell of its own *)
Theorem C148_transform : forall args L area ly ly' g, lattice_init args = Ok L -> independent (lt_a1 L) (lt_a2 L) ->
  redrawn L ly ly' -> in_lattice (lt_b1 L) (lt_b2 L) g -> layer_ft_at area ly' g = layer_ft_at area ly g.
Proof. exact (fun args L area ly ly' g HL Hi => redrawn_ft args L HL Hi area ly ly' g). Qed.
Print Assumptions C148_transform.
(** guided-mode expansion: the same outcome and the same object, whatever the options *)
Theorem C148_gme argsort eigh eigsh inv root dl : forall args gmax d d' o ks an s,
  lattice_init args = Ok (cell d) -> independent (lt_a1 (cell d)) (lt_a2 (cell d)) -> waves_of (cell d) (dv_tbt d) gmax (dv_rc d) ->
  crystal_redrawn (dv_phc d) (dv_phc d') -> dv_tbt d' = dv_tbt d -> dv_rc d' = dv_rc d -> dv_custom d' = dv_custom d ->
  run argsort eigh eigsh inv root dl d' o ks an s = run argsort eigh eigsh inv root dl d o ks an s.
Proof. exact (gme_same argsort eigh eigsh inv root dl). Qed.
Print Assumptions C148_gme.
Theorem C148_pwe argsort eigh inv : forall args L ly ly' gmax e ks pol m,
  lattice_init args = Ok L -> independent (lt_a1 L) (lt_a2 L) -> redrawn L ly ly' ->
  let r := pwe_run argsort eigh inv (pwe_init L ly gmax e) ks pol m in let r' := pwe_run argsort eigh inv (pwe_init L ly' gmax e) ks pol m in
  snd r' = snd r /\ pw_freqs (fst r') = pw_freqs (fst r) /\ pw_vecs (fst r') = pw_vecs (fst r) /\ pw_einv (fst r') = pw_einv (fst r) /\
  pw_T1 (fst r') = pw_T1 (fst r) /\ pw_T2 (fst r') = pw_T2 (fst r).
Proof. exact (pwe_same argsort eigh inv). Qed.
Print Assumptions C148_pwe.
(** excitons: both objects can be made or neither, and they give the same results *)
Theorem C148_exc argsort eigh : forall args fuel P P' z V a M E0 loss osc gmax tr,
  lattice_init args = Ok (pc_lattice P) -> independent (lt_a1 (pc_lattice P)) (lt_a2 (pc_lattice P)) -> crystal_redrawn P P' ->
  match exc_init fuel P z V a M E0 loss osc gmax tr with
  | Some (Ok s) => exists s', exc_init fuel P' z V a M E0 loss osc gmax tr = Some (Ok s') /\
      forall ks m, let r := exc_run argsort eigh s ks m in let r' := exc_run argsort eigh s' ks m in
      snd r' = snd r /\ ex_eners (fst r') = ex_eners (fst r) /\ ex_vecs (fst r') = ex_vecs (fst r) /\ ex_pot (fst r') = ex_pot (fst r)
  | x => exc_init fuel P' z V a M E0 loss osc gmax tr = x
  end.
Proof. exact (exc_same argsort eigh). Qed.
Print Assumptions C148_exc.
(** polaritons, for the same photonic part (C148_gme) and the same quantum wells *)
Theorem C148_pol eig cargsort argsort eigh : forall args fuel P P' gmax tr gme_run,
  lattice_init args = Ok (pc_lattice P) -> independent (lt_a1 (pc_lattice P)) (lt_a2 (pc_lattice P)) -> crystal_redrawn P P' -> pc_qws P' = pc_qws P ->
  match pol_init fuel P gmax tr with
  | Some (Ok o) => exists o', pol_init fuel P' gmax tr = Some (Ok o') /\
      forall ks m, snd (pol_run eig cargsort argsort eigh gme_run o' ks m) = snd (pol_run eig cargsort argsort eigh gme_run o ks m)
  | x => pol_init fuel P' gmax tr = x
  end.
Proof. exact (pol_same eig cargsort argsort eigh). Qed.
Print Assumptions C148_pol.
(** any number of circles as the program makes them, each moved by its own number of cells *)
Theorem C148_circles : forall j1 L z1 z2 eb cs mns, List.length mns = List.length cs ->
  let circles := map (fun c => circle_shape j1 (fst (fst c)) (fst (snd (fst c))) (snd (snd (fst c))) (snd c)) in
  redrawn L (fold_left (append_shape (lt_ec_area L)) (circles cs) (shapes_layer z1 z2 eb))
    (fold_left (append_shape (lt_ec_area L)) (circles (map (fun c => cells_away L (fst c) (snd c)) (combine cs mns))) (shapes_layer z1 z2 eb)).
Proof. exact circles_redrawn. Qed.
Print Assumptions C148_circles.
(** a polygon, for a point test that moves with the polygon and a lattice without tiny
    reciprocal vectors *)
Theorem C148_polygons : forall inside L eps xs ys P m n,
  (forall pts t x y, inside (map (ShapesSpec.shift t) pts) (x + fst t) (y + snd t) = inside pts x y) ->
  (forall g, in_lattice (lt_b1 L) (lt_b2 L) g -> g = (0, 0) \/ 1 / 10 ^ 10 <= Rabs (fst g) \/ 1 / 10 ^ 10 <= Rabs (snd g)) ->
  poly_init eps xs ys = Ok P -> let t := comb m n (lt_a1 L) (lt_a2 L) in
  exists Q, poly_init eps (map (fun x => x + fst t) xs) (map (fun y => y + snd t) ys) = Ok Q /\ image_of L (poly_shape inside P) (poly_shape inside Q).
Proof. exact polygon_image. Qed.
Print Assumptions C148_polygons.
Example C148_polygons_example : exists L, lattice_init (LatName "square") = Ok L /\
  (forall g, in_lattice (lt_b1 L) (lt_b2 L) g -> g = (0, 0) \/ 1 / 10 ^ 10 <= Rabs (fst g) \/ 1 / 10 ^ 10 <= Rabs (snd g)) /\
  let inside pts x y := match pts with [] => false | p :: _ => (Rleb (x - fst p) 0 && Rleb (snd p - y) 0)%bool end in
  forall pts t x y, inside (map (ShapesSpec.shift t) pts) (x + fst t) (y + snd t) = inside pts x y.
Proof.
  destruct (lattice_init (LatName "square")) as [L|] eqn:HL; [|discriminate]. exists L. split; [reflexivity|]. split.
  - intros g (m & n & ->). destruct (square_b L HL) as (B1 & B2). rewrite B1, B2. unfold comb. cbn [fst snd].
    pose proof PI_RGT_0. pose proof PI2_1.
    assert (K : forall z : Z, z <> 0%Z -> 1 / 10 ^ 10 <= Rabs (IZR z * (2 * PI))).
    { intros z Hz. rewrite Rabs_mult, (Rabs_pos_eq (2 * PI)) by lra. rewrite <- abs_IZR. assert (1 <= IZR (Z.abs z)) by (apply IZR_le; lia). simpl. nra. }
    destruct (Z.eq_dec m 0) as [->|Hm]; [destruct (Z.eq_dec n 0) as [->|Hn]|].
    + left. f_equal; ring.
    + right. right. replace (0 * 0 + IZR n * (2 * PI)) with (IZR n * (2 * PI)) by ring. apply K; auto.
    + right. left. replace (IZR m * (2 * PI) + IZR n * 0) with (IZR m * (2 * PI)) by ring. apply K; auto.
  - cbv zeta. intros [|p pts] t x y; [reflexivity|]. cbn [map]. unfold ShapesSpec.shift. cbn [fst snd]. f_equal; f_equal; ring.
Qed.
(** two circles in a slab of the hexagonal lattice, the second drawn elsewhere *)
Example C148_example : forall L, lattice_init (LatName "hexagonal") = Ok L ->
  let slab c := Dev (mkPhc L (shapes_layer (- 10 ^ 10) 0 1) (set_zmin (shapes_layer 0 (10 ^ 10) 1) 1)
    [fold_left (append_shape (lt_ec_area L)) (map (circle ShapesSpec.bessel_J1) [(1, (0, 0), 1 / 5); (4, c, 1 / 10)]) (shapes_layer 0 1 12)] []) true (recip_tbt L 3) None in
  let d := slab (1 / 2, 1 / 2) in
  let d' := slab (1 / 2 + (IZR 3 * fst (lt_a1 L) + IZR (-1) * fst (lt_a2 L)), 1 / 2 + (IZR 3 * snd (lt_a1 L) + IZR (-1) * snd (lt_a2 L))) in
  independent (lt_a1 (cell d)) (lt_a2 (cell d)) /\ waves_of (cell d) (dv_tbt d) 3 (dv_rc d) /\ crystal_redrawn (dv_phc d) (dv_phc d') /\
  dv_tbt d' = dv_tbt d /\ dv_rc d' = dv_rc d /\ dv_custom d' = dv_custom d.
Proof.
  intros L HL. cbv zeta. split; [apply (named_independent _ L HL)|]. split; [reflexivity|]. split; [apply two_holes|]. repeat split.
Qed.

(** ** C149: the map of the permittivity *)
(** True of lattices with a right angle when all shapes, before and after, lie within
    one period of the origin.  Missing: other lattices and shapes further away. *)
Theorem C149_map_partial : forall L ly ly' pts vs vs', independent (lt_a1 L) (lt_a2 L) -> inner (lt_a1 L) (lt_a2 L) = 0 -> redrawn L ly ly' ->
  (forall s, In s (ly_shapes ly) -> within_one_period L s) -> (forall s, In s (ly_shapes ly') -> within_one_period L s) ->
  layer_get_eps L ly pts = Ok vs -> layer_get_eps L ly' pts = Ok vs' -> vs' = vs.
Proof. exact map_same. Qed.
Print Assumptions C149_map_partial.
(** True of every lattice as long as the images that get_eps looks at include one over
    every point that is covered at all. *)
Theorem C149_reach_partial : forall L ly ly' pts vs vs', redrawn L ly ly' ->
  (forall p s, In p pts -> In s (ly_shapes ly) \/ In s (ly_shapes ly') -> covers_any L s p -> covers L (nmax_of L pts) s p) ->
  layer_get_eps L ly pts = Ok vs -> layer_get_eps L ly' pts = Ok vs' -> vs' = vs.
Proof. exact map_reach. Qed.
Print Assumptions C149_reach_partial.
(** an oblique lattice, a circle at the origin or one cell further *)
Example C149_reach_example : exists L, lattice_init (LatVecs (1, 0) (1/2, 1)) = Ok L /\ forall j1,
  let hole x := append_shape (lt_ec_area L) (shapes_layer 0 1 12) (circle_shape j1 1 x 0 (1/5)) in
  redrawn L (hole 0) (hole 1) /\
  forall p s, In p [(0, 0)] -> In s (ly_shapes (hole 0)) \/ In s (ly_shapes (hole 1)) -> covers_any L s p -> covers L (nmax_of L [(0, 0)]) s p.
Proof.
  destruct (init_vecs (1, 0) (1/2, 1)) as (L & HL & A1 & A2 & _). exists L. split; [exact HL|]. intros j1. cbv zeta. split.
  - apply append_redrawn; [apply redrawn_refl_empty; reflexivity|].
    pose proof (circle_image j1 L (1, (0, 0), 1/5) (1, 0)%Z) as H. unfold circle, cells_away, moved_by, comb in H. rewrite A1, A2 in H. cbn [fst snd] in H.
    match type of H with image_of _ _ (circle_shape _ _ ?x ?y _) => replace x with 1 in H by ring; replace y with 0 in H by ring end. exact H.
  - intros p s [<-|[]] Hs H. assert (NM : nmax_of L [(0, 0)] = 1%Z).
    { unfold nmax_of, maxabs. cbn [map fold_right fst snd]. rewrite Rabs_R0, (Rmax_left 0 0) by lra. replace (Rsqr 0 + Rsqr 0) with 0 by (unfold Rsqr; ring).
      rewrite sqrt_0. unfold Rdiv. rewrite Rmult_0_l. rewrite (PhcProofs4.Int_part_unique 0 0) by lra. reflexivity. }
    rewrite NM. apply covers_any_iff in H. destruct H as (n1 & n2 & H). exists n1, n2. rewrite A1, A2 in H |- *. cbn [fst snd] in H |- *.
    assert (X : exists c, (c = 0%Z \/ c = 1%Z) /\ s = circle_shape j1 1 (IZR c) 0 (1/5)).
    { cbn [append_shape shapes_layer ly_shapes app] in Hs. destruct Hs as [[<-|[]]|[<-|[]]]; [exists 0%Z|exists 1%Z]; auto. }
    destruct X as (c & Hc & ->). assert (B : (- (1) <= n1 <= 1)%Z /\ (- (1) <= n2 <= 1)%Z); [|repeat split; try apply B; exact H].
    cbn [sh_inside circle_shape] in H. unfold circle_inside in H. apply Rleb_true in H.
    assert (N2 : n2 = 0%Z).
    { pose proof (pow2_ge_0 (0 + IZR n1 * 1 + IZR n2 * (1 / 2) - IZR c)) as Q. assert (IZR n2 * IZR n2 <= 1 / 25) by (simpl in H, Q; lra). assert (-1 < IZR n2 < 1) by nra. assert (-1 < n2 < 1)%Z by (split; apply lt_IZR; lra). lia. }
    subst n2. assert ((IZR n1 - IZR c) * (IZR n1 - IZR c) <= 1 / 25) by (simpl in H; lra). assert (-1 < IZR n1 - IZR c < 1) by nra. rewrite <- minus_IZR in *. assert (-1 < n1 - c < 1)%Z by (split; apply lt_IZR; lra). lia.
Qed.
(** a circle drawn five cells away is missing from the map of the origin *)
Theorem C149_map_refuted : exists L, lattice_init (LatName "square") = Ok L /\ forall j1, exists ly ly' vs ws,
  let hole x := append_shape (lt_ec_area L) (shapes_layer 0 1 12) (circle_shape j1 1 x 0 (1/5)) in
  ly = hole 0 /\ ly' = hole 5 /\ redrawn L ly ly' /\ layer_get_eps L ly [(0, 0)] = Ok vs /\ layer_get_eps L ly' [(0, 0)] = Ok ws /\ vs = [1] /\ ws = [12].
Proof. exact map_differs. Qed.
Print Assumptions C149_map_refuted.
(** the corner of the cell, left or right *)
Example C149_example : exists L, lattice_init (LatName "square") = Ok L /\ forall j1,
  let hole x := append_shape (lt_ec_area L) (shapes_layer 0 1 12) (circle_shape j1 1 x 0 (1/5)) in
  independent (lt_a1 L) (lt_a2 L) /\ inner (lt_a1 L) (lt_a2 L) = 0 /\ redrawn L (hole (1/2)) (hole (-1/2)) /\
  (forall x, In x [1/2; -1/2] -> within_one_period L (circle_shape j1 1 x 0 (1/5))).
Proof.
  eexists; split; [reflexivity|]. intros j1. cbv zeta. split; [unfold independent, det; simpl; lra|]. split; [unfold inner; simpl; lra|]. split.
  - apply append_redrawn; [apply redrawn_refl_empty; reflexivity|].
    match goal with |- image_of ?L _ _ => pose proof (circle_image j1 L (1, (1/2, 0), 1/5) (-1, 0)%Z) as H; assert (A1 : lt_a1 L = (1, 0)) by reflexivity; assert (A2 : lt_a2 L = (0, 1)) by reflexivity end.
    unfold circle, cells_away, moved_by, comb in H. rewrite A1, A2 in H. cbn [fst snd] in H.
    match type of H with image_of _ _ (circle_shape _ _ ?x ?y _) => replace x with (-1/2) in H by (simpl; field); replace y with 0 in H by ring end. exact H.
  - intros x I a b H. cbn [sh_inside circle_shape] in H. unfold circle_inside in H. apply Rleb_true in H. simpl. unfold Rsqr.
    assert (X : x = 1/2 \/ x = -1/2) by (destruct I as [<-|[<-|[]]]; auto).
    assert (Ha : -1 < a < 1) by (destruct X; subst; nra). assert (Hb : -1 < b < 1) by (destruct X; subst; nra).
    split; apply Rabs_def1; lra.
Qed.
