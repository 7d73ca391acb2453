(** Circles drawn in another unit cell, and the map of the permittivity. *)
From Coq Require Import List.
From Verif Require Import Py CBase LatticeModel LatticeSpec LatticeProofs PhcModel PhcSpec PhcProofs PhcProofs2 PhcProofs3 PhcProofs4 RecipModel RecipSpec ShapesSpec ShapesModel ShapesProofs6 ShapesProofs7 RunModel.
From Verif Require Import InvSpec GinvSpec ImgSpec ImgProofs ImgProofs2.
Open Scope R_scope.
Open Scope list_scope.

Definition circle (j1 : R -> R) (c : R * (R * R) * R) : shape := circle_shape j1 (fst (fst c)) (fst (snd (fst c))) (snd (snd (fst c))) (snd c).
Lemma circle_image j1 L c mn : image_of L (circle j1 c) (circle j1 (cells_away L c mn)).
Proof.
  destruct c as [[e [xc yc]] r], mn as [m n]. unfold circle, cells_away, moved_by. cbn [fst snd].
  set (t := comb m n (lt_a1 L) (lt_a2 L)). destruct (ShapesProofs7.circle_moved j1 xc yc r (fst t) (snd t)) as (F & I & _).
  split; [reflexivity|]. split.
  - cbn [sh_area circle_shape]. rewrite F. cbn [fst snd]. replace (- (0 * fst t + 0 * snd t)) with 0 by ring. rewrite expi_0. f_equal. ring.
  - exists t. split; [exists m, n; reflexivity|]. split.
    + intros g _. cbn [sh_ft circle_shape]. rewrite F. reflexivity.
    + intros x y. cbn [sh_inside circle_shape]. apply I.
Qed.
Lemma append_redrawn L area ly ly' s s' : redrawn L ly ly' -> image_of L s s' -> redrawn L (append_shape area ly s) (append_shape area ly' s').
Proof.
  intros (E1 & E2 & E3 & E4 & E5 & F) H. pose proof H as (H1 & H2 & _). unfold redrawn, append_shape. cbn [ly_zmin ly_zmax ly_d ly_epsb ly_epsavg ly_shapes].
  rewrite E1, E2, E3, E4, E5, H1, H2. repeat split. apply Forall2_app; auto.
Qed.
Lemma fold_redrawn L area : forall ss ss', Forall2 (image_of L) ss ss' -> forall ly ly', redrawn L ly ly' ->
  redrawn L (fold_left (append_shape area) ss ly) (fold_left (append_shape area) ss' ly').
Proof. intros ss ss' F. induction F as [|s s' l l' H F IH]; intros ly ly' R; cbn [fold_left]; auto. apply IH. apply append_redrawn; auto. Qed.
Lemma redrawn_refl_empty L ly : ly_shapes ly = [] -> redrawn L ly ly.
Proof. intros E. unfold redrawn. rewrite E. repeat split. constructor. Qed.
Lemma circles_redrawn j1 L z1 z2 eb cs mns : List.length mns = List.length cs ->
  redrawn L (fold_left (append_shape (lt_ec_area L)) (map (circle j1) cs) (shapes_layer z1 z2 eb))
            (fold_left (append_shape (lt_ec_area L)) (map (circle j1) (map (fun c => cells_away L (fst c) (snd c)) (combine cs mns))) (shapes_layer z1 z2 eb)).
Proof.
  intros Hl. apply fold_redrawn; [|apply redrawn_refl_empty; reflexivity].
  revert mns Hl. induction cs as [|c cs IH]; intros [|mn mns] Hl; try discriminate; cbn [map combine]; constructor.
  - apply circle_image.
  - apply IH. injection Hl as Hl. auto.
Qed.

(** the map *)
Lemma covers_any_iff L s p : covers_any L s p <-> exists n1 n2 : Z, sh_inside s (fst p + IZR n1 * fst (lt_a1 L) + IZR n2 * fst (lt_a2 L)) (snd p + IZR n1 * snd (lt_a1 L) + IZR n2 * snd (lt_a2 L)) = true.
Proof.
  split.
  - intros (N & n1 & n2 & _ & _ & H). exists n1, n2. exact H.
  - intros (n1 & n2 & H). exists (Z.max (Z.abs n1) (Z.abs n2)), n1, n2. repeat split; auto; lia.
Qed.
Lemma image_covers L s s' p : image_of L s s' -> (covers_any L s' p <-> covers_any L s p).
Proof.
  intros (_ & _ & r & (m & n & ->) & _ & I). rewrite !covers_any_iff. unfold comb in I. cbn [fst snd] in I. split; intros (n1 & n2 & H).
  - exists (n1 - m)%Z, (n2 - n)%Z. rewrite <- I, !minus_IZR. rewrite <- H. f_equal; ring.
  - exists (n1 + m)%Z, (n2 + n)%Z. rewrite <- I in H. rewrite !plus_IZR, <- H. f_equal; ring.
Qed.
Lemma last_wins_image L p e l l' v : Forall2 (image_of L) l l' ->
  last_wins (fun s => covers_any L s p) e l' v -> last_wins (fun s => covers_any L s p) e l v.
Proof.
  intros F.
  assert (N : forall l l', Forall2 (image_of L) l l' -> (forall t, In t l' -> ~ covers_any L t p) -> forall t, In t l -> ~ covers_any L t p).
  { clear. intros l l' F H. induction F as [|s s' l l' Hs F IH]; intros t []; [subst; rewrite <- (image_covers L t s' p Hs); apply H; left; reflexivity|].
    apply IH; auto. intros u Hu. apply H. right. auto. }
  intros [(pre & s' & post & -> & C & -> & Hp)|(-> & H)].
  - apply Forall2_app_inv_r in F. destruct F as (l1 & l2 & F1 & F2 & ->). inversion F2 as [|s s0 l3 l4 Hs F3]. subst. left. exists l1, s, l3.
    split; [reflexivity|]. split; [apply (image_covers L s s' p Hs); auto|]. split; [apply Hs|]. apply (N l3 post F3 Hp).
  - right. split; [reflexivity|]. apply (N l l' F H).
Qed.
Lemma map_same L ly ly' pts vs vs' : independent (lt_a1 L) (lt_a2 L) -> inner (lt_a1 L) (lt_a2 L) = 0 -> redrawn L ly ly' ->
  (forall s, In s (ly_shapes ly) -> within_one_period L s) -> (forall s, In s (ly_shapes ly') -> within_one_period L s) ->
  layer_get_eps L ly pts = Ok vs -> layer_get_eps L ly' pts = Ok vs' -> vs' = vs.
Proof.
  intros Hi Ho R W W' E E'. destruct pts as [|p0 pts0]; [discriminate|]. set (pts := p0 :: pts0) in *.
  assert (Lv : List.length vs = List.length pts /\ List.length vs' = List.length pts).
  { unfold layer_get_eps in E, E'. unfold pts in E, E'. injection E as <-. injection E' as <-. unfold pts; cbn [List.length map]; rewrite ?map_length; auto. }
  destruct Lv as (L1 & L2). apply (nth_ext _ _ 0 0); [lia|]. intros j Hj.
  assert (Ep : nth_error pts j = Some (nth j pts (0, 0))) by (apply nth_error_nth'; lia).
  assert (Ev : nth_error vs j = Some (nth j vs 0)) by (apply nth_error_nth'; lia).
  assert (Ev' : nth_error vs' j = Some (nth j vs' 0)) by (apply nth_error_nth'; lia).
  pose proof (orth_value L ly pts vs j _ _ Hi Ho W E Ep Ev) as V. pose proof (orth_value L ly' pts vs' j _ _ Hi Ho W' E' Ep Ev') as V'.
  destruct R as (_ & _ & _ & Eb & _ & F). rewrite Eb in V'. apply (last_wins_image L _ _ _ _ _ F) in V'. eapply last_wins_fun; eauto.
Qed.
(** a circle five cells away from the origin is not on the map of the origin *)
Lemma map_differs : exists L, lattice_init (LatName "square") = Ok L /\ forall j1, exists ly ly' vs ws,
  let hole x := append_shape (lt_ec_area L) (shapes_layer 0 1 12) (circle_shape j1 1 x 0 (1/5)) in
  ly = hole 0 /\ ly' = hole 5 /\ redrawn L ly ly' /\ layer_get_eps L ly [(0, 0)] = Ok vs /\ layer_get_eps L ly' [(0, 0)] = Ok ws /\ vs = [1] /\ ws = [12].
Proof.
  eexists; split; [reflexivity|]. intros j1. do 4 eexists. cbv zeta. split; [reflexivity|]. split; [reflexivity|].
  split; [|split; [reflexivity|split; [reflexivity|]]].
  - apply append_redrawn; [apply redrawn_refl_empty; reflexivity|].
    match goal with |- image_of ?L _ _ => pose proof (circle_image j1 L (1, (0, 0), 1/5) (5, 0)%Z) as H; assert (A1 : lt_a1 L = (1, 0)) by reflexivity; assert (A2 : lt_a2 L = (0, 1)) by reflexivity end.
    unfold circle, cells_away, moved_by, comb in H. rewrite A1, A2 in H. cbn [fst snd] in H.
    match type of H with image_of _ _ (circle_shape _ _ ?x ?y _) => replace x with 5 in H by ring; replace y with 0 in H by ring end. exact H.
  - assert (S1 : sqrt (Rsqr 1 + Rsqr 0) = 1).
    { replace (Rsqr 1 + Rsqr 0) with 1 by (unfold Rsqr; ring). apply sqrt_1. }
    assert (S2 : sqrt (Rsqr 0 + Rsqr 1) = 1).
    { replace (Rsqr 0 + Rsqr 1) with 1 by (unfold Rsqr; ring). apply sqrt_1. }
    assert (NM : forall X, nmax_of X [(0, 0)] = nmax_of X [(0, 0)]) by reflexivity. clear NM.
    cbn [map]. split; f_equal; apply single_shape_value; unfold nmax_of; simpl; rewrite S1, S2, Rabs_R0, (Rmax_left 0 0) by lra;
    replace (Rsqr 0 + Rsqr 0) with 0 by (unfold Rsqr; ring); rewrite sqrt_0; rewrite (Int_part_unique _ 0) by (rewrite Rmin_left by lra; lra).
    + left. split; [reflexivity|]. exists 0%Z, 0%Z. split; [lia|]. split; [lia|]. cbn [fst snd lt_a1 lt_a2 sh_inside circle_shape]. unfold circle_inside. apply Rleb_true. lra.
    + right. split; [reflexivity|]. intros (n1 & n2 & H1 & H2 & H). cbn [fst snd lt_a1 lt_a2 sh_inside circle_shape] in H. unfold circle_inside in H. apply Rleb_true in H.
      assert (IZR n1 <= 1) by (apply IZR_le; lia). nra.
Qed.
(** the exciton solver, object and run *)
Lemma exc_same argsort eigh args fuel P P' z V a M E0 loss osc gmax tr : lattice_init args = Ok (pc_lattice P) -> independent (lt_a1 (pc_lattice P)) (lt_a2 (pc_lattice P)) ->
  crystal_redrawn P P' ->
  match ExcModel.exc_init fuel P z V a M E0 loss osc gmax tr with
  | Some (Ok s) => exists s', ExcModel.exc_init fuel P' z V a M E0 loss osc gmax tr = Some (Ok s') /\
      forall ks m, let r := ExcModel.exc_run argsort eigh s ks m in let r' := ExcModel.exc_run argsort eigh s' ks m in
      snd r' = snd r /\ ExcModel.ex_eners (fst r') = ExcModel.ex_eners (fst r) /\ ExcModel.ex_vecs (fst r') = ExcModel.ex_vecs (fst r) /\ ExcModel.ex_pot (fst r') = ExcModel.ex_pot (fst r)
  | x => ExcModel.exc_init fuel P' z V a M E0 loss osc gmax tr = x
  end.
Proof.
  intros HL Hi H. pose proof (exc_init_same args fuel P P' z V a M E0 loss osc gmax tr HL Hi H) as X.
  destruct (ExcModel.exc_init fuel P z V a M E0 loss osc gmax tr) as [[s|]|]; auto. destruct X as (ly' & X). exists (with_layer ly' s). split; [exact X|].
  intros ks m. cbv zeta. rewrite exc_run_layer. repeat split; reflexivity.
Qed.
(** two circles in a slab, the second drawn three cells away *)
Lemma two_holes j1 L : let slab c := mkPhc L (shapes_layer (- 10 ^ 10) 0 1) (set_zmin (shapes_layer 0 (10 ^ 10) 1) 1)
    [fold_left (append_shape (lt_ec_area L)) (map (circle j1) [(1, (0, 0), 1 / 5); (4, c, 1 / 10)]) (shapes_layer 0 1 12)] [] in
  crystal_redrawn (slab (1 / 2, 1 / 2)) (slab (1 / 2 + (IZR 3 * fst (lt_a1 L) + IZR (-1) * fst (lt_a2 L)), 1 / 2 + (IZR 3 * snd (lt_a1 L) + IZR (-1) * snd (lt_a2 L)))).
Proof.
  cbv zeta. split; [reflexivity|]. cbn [pc_lattice pc_clad_l pc_clad_u pc_layers]. split; [apply redrawn_refl_empty; reflexivity|]. split; [apply redrawn_refl_empty; reflexivity|].
  constructor; [|constructor]. apply fold_redrawn; [|apply redrawn_refl_empty; reflexivity]. cbn [map]. constructor; [|constructor; [|constructor]].
  - pose proof (circle_image j1 L (1, (0, 0), 1 / 5) (0, 0)%Z) as H. unfold cells_away, moved_by, comb in H. cbn [fst snd] in H.
    match type of H with image_of _ _ (circle _ (_, (?x, ?y), _)) => replace x with 0 in H by ring; replace y with 0 in H by ring end. exact H.
  - exact (circle_image j1 L (4, (1 / 2, 1 / 2), 1 / 10) (3, -1)%Z).
Qed.

(** polygons *)
Lemma polygon_image inside L eps xs ys P m n : (forall pts t x y, inside (map (shift t) pts) (x + fst t) (y + snd t) = inside pts x y) ->
  (forall g, in_lattice (lt_b1 L) (lt_b2 L) g -> g = (0, 0) \/ 1 / 10 ^ 10 <= Rabs (fst g) \/ 1 / 10 ^ 10 <= Rabs (snd g)) ->
  poly_init eps xs ys = Ok P -> let t := comb m n (lt_a1 L) (lt_a2 L) in
  exists Q, poly_init eps (map (fun x => x + fst t) xs) (map (fun y => y + snd t) ys) = Ok Q /\ image_of L (poly_shape inside P) (poly_shape inside Q).
Proof.
  intros Hin Hb E t. destruct (poly_moved_ft eps xs ys P (fst t) (snd t) (0, 0) E (or_introl eq_refl)) as (Q & EQ & Ep & Ea & _).
  exists Q. split; [exact EQ|]. split; [|split; [exact Ea|]].
  - cbn [sh_eps poly_shape]. assert (K : forall xs ys P, poly_init eps xs ys = Ok P -> po_eps P = eps).
    { clear. intros xs ys P. unfold poly_init. destruct xs; [discriminate|]. destruct ys; [discriminate|]. cbv zeta. repeat match goal with |- context [if ?b then _ else _] => destruct b end; intros H; try discriminate H; injection H as <-; reflexivity. }
    rewrite (K _ _ _ E), (K _ _ _ EQ). reflexivity.
  - exists t. split; [exists m, n; reflexivity|]. split.
    + intros g Hg. destruct (poly_moved_ft eps xs ys P (fst t) (snd t) g E (Hb g Hg)) as (Q' & EQ' & _ & _ & F). rewrite EQ in EQ'. injection EQ' as <-. exact F.
    + intros x y. cbn [sh_inside poly_shape]. rewrite Ep. rewrite <- (Hin (po_pts P) t x y). destruct t. reflexivity.
Qed.
