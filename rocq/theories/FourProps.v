(** C150-C151: the Fourier coefficients of a layer and of the exciton potential; C16 and C123 in lattices without right angles. *)
From Coq Require Import List.
From Verif Require Import Py CBase LatticeModel LatticeSpec LatticeProofs PhcModel PhcSpec ShapesSpec ShapesModel FourSpec FourProofs FourProofs2 FourProofs3 FourProofs4 VizModel VizSpec FourSpec2 FourProofs5.
Open Scope R_scope.
Open Scope list_scope.

(** Full statement: for every layer and reciprocal vector g, compute_ft at g is the mean
    over the unit cell of get_eps times exp(- i g r), up to the errors d of the
    transforms of the shapes.  True when no point belongs to two shapes (here: the
    cell is a rectangle, as there is one for the square, rectangular and hexagonal lattices
    and all others with a1 along x, and every shape is inside the cell around the origin;
    M is any size that is large enough).  Missing: lattices turned at other angles, shapes
    that cross the boundary of the cell. *)
Theorem C150_cell_partial : forall args L a b M z1 z2 eb sd g eps,
  lattice_init args = Ok L -> bricks L a b -> 0 < a -> 0 < b -> a / 2 <= M -> b / 2 <= M ->
  let ly := fold_left (append_shape (lt_ec_area L)) (map fst sd) (shapes_layer z1 z2 eb) in
  in_lattice (lt_b1 L) (lt_b2 L) g -> g = (0, 0) \/ ~ is_g0 g -> apart (map fst sd) ->
  (forall s, In s (map fst sd) -> inside_cell (a / 2) (b / 2) s /\ sh_ft s (0, 0) = RtoC (sh_area s)) ->
  (forall p, In p sd -> transform_within M (snd p) g (fst p)) ->
  (forall x y, layer_get_eps L ly [(x, y)] = Ok [eps x y]) ->
  exists I, is_cell_integral (fun x y => Cmult (RtoC (eps x y)) (expi (- (fst g * x + snd g * y)))) (a / 2) (b / 2) I /\
    Cmod (Cminus (layer_ft_at (lt_ec_area L) ly g) (Cdiv I (RtoC (lt_ec_area L)))) <= weighted eb sd / lt_ec_area L.
Proof. exact (fun args L a b M z1 z2 eb sd g eps HL HB Ha Hb Ma Mb => cell_integral args L a b HL HB Ha Hb M sd z1 z2 eb g eps Ma Mb). Qed.
Print Assumptions C150_cell_partial.
(** any number of disjoint circles, given as (permittivity, centre, radius) *)
Theorem C150_circles_partial : forall args L a b z1 z2 eb cs g eps,
  lattice_init args = Ok L -> bricks L a b -> 0 < a <= 10 ^ 10 -> 0 < b <= 10 ^ 10 -> in_lattice (lt_b1 L) (lt_b2 L) g ->
  (forall c, In c cs -> 0 < snd c /\ Rabs (fst (snd (fst c))) + snd c < a / 2 /\ Rabs (snd (snd (fst c))) + snd c < b / 2) ->
  ForallOrdPairs (fun c d => (snd c + snd d) ^ 2 < (fst (snd (fst c)) - fst (snd (fst d))) ^ 2 + (snd (snd (fst c)) - snd (snd (fst d))) ^ 2) cs ->
  let circles := map (fun c => circle_shape bessel_J1 (fst (fst c)) (fst (snd (fst c))) (snd (snd (fst c))) (snd c)) cs in
  let ly := fold_left (append_shape (lt_ec_area L)) circles (shapes_layer z1 z2 eb) in
  (forall x y, layer_get_eps L ly [(x, y)] = Ok [eps x y]) ->
  exists I, is_cell_integral (fun x y => Cmult (RtoC (eps x y)) (expi (- (fst g * x + snd g * y)))) (a / 2) (b / 2) I /\
    Cmod (Cminus (layer_ft_at (lt_ec_area L) ly g) (Cdiv I (RtoC (lt_ec_area L)))) <=
    fold_right (fun c acc => Rabs (fst (fst c) - eb) * (1 / 10 ^ 10 * (PI * snd c ^ 3)) + acc) 0 cs / (a * b).
Proof. exact circles_integral. Qed.
Print Assumptions C150_circles_partial.
Theorem C150_bricks_hexagonal : forall L, lattice_init (LatName "hexagonal") = Ok L -> bricks L 1 (sqrt 3 / 2).
Proof. exact bricks_hex. Qed.
Print Assumptions C150_bricks_hexagonal.
Theorem C150_bricks_others : forall args L a b c, lattice_init args = Ok L -> lt_a1 L = (a, 0) -> lt_a2 L = (c, b) -> 0 < a -> 0 < b -> bricks L a b.
Proof. exact bricks_flat. Qed.
Print Assumptions C150_bricks_others.
(** an iterated integral has one value only *)
Theorem C150_integral_unique : forall f h k v w, 0 < k -> is_cell_integral f h k v -> is_cell_integral f h k w -> v = w.
Proof. exact cell_unique. Qed.
Print Assumptions C150_integral_unique.
(** The same hole drawn twice is one hole in the map and two in the coefficients, in the
    example at g = 0, the average permittivity. *)
Theorem C150_refuted : exists L, lattice_init (LatName "square") = Ok L /\
  let c := circle_shape bessel_J1 2 0 0 (1 / 4) in let ly := append_shape (lt_ec_area L) (append_shape (lt_ec_area L) (shapes_layer 0 1 1) c) c in
  exists eps I, (forall x y, layer_get_eps L ly [(x, y)] = Ok [eps x y]) /\
  is_cell_integral (fun x y => Cmult (RtoC (eps x y)) (expi (- (0 * x + 0 * y)))) (1 / 2) (1 / 2) I /\
  (forall J, is_cell_integral (fun x y => Cmult (RtoC (eps x y)) (expi (- (0 * x + 0 * y)))) (1 / 2) (1 / 2) J -> J = I) /\
  1 / 10 < Cmod (Cminus (layer_ft_at (lt_ec_area L) ly (0, 0)) (Cdiv I (RtoC (lt_ec_area L)))).
Proof. exact twice_differs. Qed.
Print Assumptions C150_refuted.
(** two holes in an oblique lattice and a reciprocal vector *)
Example C150_example : exists L, lattice_init (LatVecs (1, 0) (1, 2)) = Ok L /\ bricks L 1 2 /\ in_lattice (lt_b1 L) (lt_b2 L) (2 * PI, PI) /\
  let cs := [(1, (0, 0), 1 / 5); (4, (1 / 4, 3 / 4), 1 / 10)] in
  (forall c, In c cs -> 0 < snd c /\ Rabs (fst (snd (fst c))) + snd c < 1 / 2 /\ Rabs (snd (snd (fst c))) + snd c < 2 / 2) /\
  ForallOrdPairs (fun c d => (snd c + snd d) ^ 2 < (fst (snd (fst c)) - fst (snd (fst d))) ^ 2 + (snd (snd (fst c)) - snd (snd (fst d))) ^ 2) cs.
Proof.
  destruct (init_vecs (1, 0) (1, 2)) as (L & HL & A1 & A2 & _). exists L. split; [exact HL|]. split; [apply (bricks_flat _ L 1 2 1 HL A1 A2); lra|]. split; [|cbv zeta; split].
  - destruct (init_shape _ L HL) as (B1 & B2 & _). exists 1%Z, 2%Z. rewrite B1, B2, A1, A2. unfold comb, det. cbn [fst snd]. f_equal; field.
  - intros c [<-|[<-|[]]]; cbn [fst snd]; rewrite ?Rabs_R0, ?(Rabs_pos_eq (1 / 4)), ?(Rabs_pos_eq (3 / 4)) by lra; lra.
  - repeat constructor; cbn [fst snd]; lra.
Qed.
(** the general form applies to a circle, with the tolerance of C112 *)
Example C150_cell_example : forall L g, lattice_init (LatName "square") = Ok L -> in_lattice (lt_b1 L) (lt_b2 L) g ->
  let s := circle_shape bessel_J1 1 0 0 (1 / 5) in (g = (0, 0) \/ ~ is_g0 g) /\ apart [s] /\
  inside_cell (1 / 2) (1 / 2) s /\ sh_ft s (0, 0) = RtoC (sh_area s) /\ transform_within (1 / 2) (1 / 10 ^ 10 * (PI * (1 / 5) ^ 3)) g s.
Proof.
  intros L g HL Hg. cbv zeta. assert (A1 : lt_a1 L = (1, 0)) by (injection HL as <-; reflexivity). assert (A2 : lt_a2 L = (0, 1)) by (injection HL as <-; reflexivity).
  assert (Q : inside_cell (1 / 2) (1 / 2) (circle_shape bessel_J1 1 0 0 (1 / 5))).
  { apply (circle_cell (1 / 2) (1 / 2) (1, (0, 0), 1 / 5)); cbn [fst snd]; rewrite ?Rabs_R0; lra. }
  split; [apply (cell_nonzero _ L 1 1 g HL (bricks_flat _ L 1 1 0 HL A1 A2 ltac:(lra) ltac:(lra)) ltac:(lra) ltac:(lra) Hg)|]. split; [apply pairs_apart; repeat constructor|]. split; [exact Q|].
  split; [exact (circle_area0 (1, (0, 0), 1 / 5))|]. apply (circle_within (1 / 2) (1 / 2) (1 / 2) (1, (0, 0), 1 / 5) g); [cbn [snd]; lra|exact Q|lra|lra].
Qed.

(** ** C151: the potential of the exciton equation *)
(** Full statement: compute_exc_ft gives, at every reciprocal vector g, the mean over the
    unit cell of U(r) exp(- i g r) where U is V inside the shapes and 0 outside (V > 0) or
    0 inside and |V| outside (V < 0).  True for one shape. *)
Theorem C151_one_shape_partial : forall args L a b M ly s d V gs, lattice_init args = Ok L -> bricks L a b -> 0 < a -> 0 < b -> a / 2 <= M -> b / 2 <= M ->
  ly_shapes ly = [s] -> V <> 0 -> In (0, 0) gs -> (forall g, In g gs -> in_lattice (lt_b1 L) (lt_b2 L) g /\ (g = (0, 0) \/ ~ is_g0 g) /\ transform_within M d g s) ->
  inside_cell (a / 2) (b / 2) s -> sh_ft s (0, 0) = RtoC (sh_area s) -> 0 < sh_area s ->
  exists vs, layer_exc_ft (lt_ec_area L) ly V gs = Ok vs /\ List.length vs = List.length gs /\
  forall i g v, nth_error gs i = Some g -> nth_error vs i = Some v ->
  exists I, is_cell_integral (fun x y => Cmult (RtoC (if sh_inside s x y then Rmax V 0 else Rmax 0 (- V))) (expi (- (fst g * x + snd g * y)))) (a / 2) (b / 2) I /\
    Cmod (Cminus v (Cdiv I (RtoC (lt_ec_area L)))) <= Rabs V * d / lt_ec_area L.
Proof. exact well. Qed.
Print Assumptions C151_one_shape_partial.
(** True for any number of disjoint shapes with V > 0 when the area of the cell is 1. *)
Theorem C151_unit_area_partial : forall args L a b M ly sd V gs, lattice_init args = Ok L -> bricks L a b -> 0 < a -> 0 < b -> a * b = 1 -> a / 2 <= M -> b / 2 <= M ->
  ly_shapes ly = map fst sd -> 0 < V -> In (0, 0) gs ->
  (forall g, In g gs -> in_lattice (lt_b1 L) (lt_b2 L) g /\ (g = (0, 0) \/ ~ is_g0 g) /\ forall p, In p sd -> transform_within M (snd p) g (fst p)) -> apart (map fst sd) ->
  (forall s, In s (map fst sd) -> inside_cell (a / 2) (b / 2) s /\ sh_ft s (0, 0) = RtoC (sh_area s) /\ 0 <= sh_area s) ->
  exists vs, layer_exc_ft (lt_ec_area L) ly V gs = Ok vs /\ List.length vs = List.length gs /\
  forall i g v, nth_error gs i = Some g -> nth_error vs i = Some v ->
  exists I, is_cell_integral (fun x y => Cmult (RtoC (if existsb (fun s => sh_inside s x y) (map fst sd) then V else 0)) (expi (- (fst g * x + snd g * y)))) (a / 2) (b / 2) I /\
    Cmod (Cminus v (Cdiv I (RtoC (lt_ec_area L)))) <= V * total (map snd sd) / lt_ec_area L.
Proof. exact wells_unit. Qed.
Print Assumptions C151_unit_area_partial.
(** Two separate wells in a cell of area 2: the first is divided by the area twice. *)
Theorem C151_refuted : exists L, lattice_init (LatVecs (2, 0) (0, 1)) = Ok L /\
  let c x := circle_shape bessel_J1 1 x 0 (1 / 4) in let ly := fold_left (append_shape (lt_ec_area L)) [c (- (1 / 2)); c (1 / 2)] (shapes_layer 0 1 1) in
  apart (ly_shapes ly) /\
  exists v I, layer_exc_ft (lt_ec_area L) ly 1 [(0, 0)] = Ok [v] /\
  is_cell_integral (fun x y => Cmult (RtoC (if existsb (fun s => sh_inside s x y) (ly_shapes ly) then 1 else 0)) (expi (- (0 * x + 0 * y)))) 1 (1 / 2) I /\
  (forall J, is_cell_integral (fun x y => Cmult (RtoC (if existsb (fun s => sh_inside s x y) (ly_shapes ly) then 1 else 0)) (expi (- (0 * x + 0 * y)))) 1 (1 / 2) J -> J = I) /\
  1 / 30 < Cmod (Cminus v (Cdiv I (RtoC (lt_ec_area L)))).
Proof. exact two_wells_differ. Qed.
Print Assumptions C151_refuted.
(** a circle in the square cell, two plane waves *)
Example C151_example : forall L, lattice_init (LatName "square") = Ok L ->
  let s := circle_shape bessel_J1 1 0 0 (1 / 5) in let gs := [(0, 0); (2 * PI, 0)] in bricks L 1 1 /\
  (forall g, In g gs -> in_lattice (lt_b1 L) (lt_b2 L) g /\ (g = (0, 0) \/ ~ is_g0 g) /\ transform_within (1 / 2) (1 / 10 ^ 10 * (PI * (1 / 5) ^ 3)) g s) /\
  inside_cell (1 / 2) (1 / 2) s /\ sh_ft s (0, 0) = RtoC (sh_area s) /\ 0 < sh_area s.
Proof.
  intros L HL. cbv zeta. assert (HB : bricks L 1 1) by (apply (bricks_flat _ L 1 1 0 HL); [injection HL as <-; reflexivity|injection HL as <-; reflexivity|lra|lra]).
  assert (Q : forall g, in_lattice (lt_b1 L) (lt_b2 L) g -> _) by exact (fun g Hg => C150_cell_example L g HL Hg). cbv zeta in Q.
  assert (Z : in_lattice (lt_b1 L) (lt_b2 L) (0, 0)) by (exists 0%Z, 0%Z; unfold comb; f_equal; ring).
  split; [exact HB|]. split; [|split; [apply (Q (0, 0) Z)|split; [apply (Q (0, 0) Z)|]]].
  - intros g Hg. assert (G : in_lattice (lt_b1 L) (lt_b2 L) g).
    { destruct Hg as [<-|[<-|[]]]; [exact Z|]. destruct (square_b L HL) as (B1 & B2). exists 1%Z, 0%Z. rewrite B1, B2. unfold comb. cbn [fst snd]. f_equal; ring. }
    split; [exact G|]. destruct (Q g G) as (Q1 & _ & _ & _ & Q5). split; assumption.
  - assert (S := ShapesProofs3.circle_area 1 0 0 (1 / 5) ltac:(lra) ltac:(lra)). rewrite Rabs_minus_sym in S.
    pose proof (Rle_abs (PI * (1 / 5) ^ 2 - sh_area (circle_shape bessel_J1 1 0 0 (1 / 5)))). pose proof PI_RGT_0. nra.
Qed.

(** C16, full statement: get_eps at a point is the map of the shapes repeated over the whole
    lattice.  Any lattice: true on every mesh within |x| <= X, |y| <= Y when the shapes are
    within r of the origin and the reciprocal vectors are short enough.  Missing:
    meshes further out, where C16_periodic_refuted shows the claim to be false. *)
Theorem C16_reach_partial : forall args L X Y r ly pts vs j p v,
  let len (v : R * R) := sqrt (Rsqr (fst v) + Rsqr (snd v)) in
  lattice_init args = Ok L -> independent (lt_a1 L) (lt_a2 L) -> 0 <= X -> 0 <= Y -> 0 <= r ->
  (forall v, v = lt_b1 L \/ v = lt_b2 L -> r * (len v / (2 * PI)) <= 1 /\
     (len (X, Y) + r) * (len v / (2 * PI)) <= len (X, Y) / Rmin (len (lt_a1 L)) (len (lt_a2 L)) + 1) ->
  (forall p, In p pts -> Rabs (fst p) <= X /\ Rabs (snd p) <= Y) ->
  (forall s, In s (ly_shapes ly) -> forall x y, sh_inside s x y = true -> Rsqr x + Rsqr y <= Rsqr r) ->
  layer_get_eps L ly pts = Ok vs -> nth_error pts j = Some p -> nth_error vs j = Some v ->
  last_wins (fun s => covers_any L s p) (ly_epsb ly) (ly_shapes ly) v.
Proof. intros args L X Y r ly pts vs j p v len HL Hi HX HY H0 HR Hp Hs. exact (reach_value args L X Y r HL Hi HX HY H0 HR ly pts vs j p v Hp Hs). Qed.
Print Assumptions C16_reach_partial.
(** The hexagonal lattice: shapes within half a period, meshes up to 15/8 periods each way. *)
Theorem C16_hexagonal_partial : forall L ly pts vs j p v, lattice_init (LatName "hexagonal") = Ok L ->
  (forall p, In p pts -> Rabs (fst p) <= 15 / 8 /\ Rabs (snd p) <= 15 / 8) ->
  (forall s, In s (ly_shapes ly) -> forall x y, sh_inside s x y = true -> Rsqr x + Rsqr y <= Rsqr (1 / 2)) ->
  layer_get_eps L ly pts = Ok vs -> nth_error pts j = Some p -> nth_error vs j = Some v ->
  last_wins (fun s => covers_any L s p) (ly_epsb ly) (ly_shapes ly) v.
Proof. exact hex_value. Qed.
Print Assumptions C16_hexagonal_partial.
(** a circle around the origin; at the point (1, 1/10) the copy around a1 + a2 is found *)
Example C16_hexagonal_example : forall L, lattice_init (LatName "hexagonal") = Ok L ->
  let s := circle_shape bessel_J1 1 0 0 (3 / 10) in let ly := append_shape (lt_ec_area L) (shapes_layer 0 1 12) s in
  let pts := [(1, 1 / 10); (3 / 2, - (3 / 2))] in
  (forall p, In p pts -> Rabs (fst p) <= 15 / 8 /\ Rabs (snd p) <= 15 / 8) /\
  (forall s, In s (ly_shapes ly) -> forall x y, sh_inside s x y = true -> Rsqr x + Rsqr y <= Rsqr (1 / 2)) /\
  exists w, layer_get_eps L ly pts = Ok [1; w].
Proof.
  intros L HL s ly pts. assert (H1 : forall p, In p pts -> Rabs (fst p) <= 15 / 8 /\ Rabs (snd p) <= 15 / 8).
  { intros p [<-|[<-|[]]]; cbn [fst snd]; split; apply Rabs_le; lra. }
  assert (H2 : forall s, In s (ly_shapes ly) -> forall x y, sh_inside s x y = true -> Rsqr x + Rsqr y <= Rsqr (1 / 2)).
  { intros t [<-|[]] x y Ht. cbn [s sh_inside circle_shape] in Ht. unfold circle_inside in Ht. apply Rleb_true in Ht. unfold Rsqr. nra. }
  split; [exact H1|]. split; [exact H2|]. eexists.
  assert (E : layer_get_eps L ly pts = Ok (map (eps_at L ly (nmax_of L pts)) pts)) by reflexivity.
  pose proof (C16_hexagonal_partial L ly pts _ 0%nat _ _ HL H1 H2 E eq_refl eq_refl) as V. rewrite E. unfold pts at 2. cbn [map]. f_equal. f_equal.
  destruct V as [(pre & t & post & Es & _ & -> & _)|(_ & V)].
  - assert (I : In t (ly_shapes ly)) by (rewrite Es; apply in_or_app; right; left; reflexivity). destruct I as [<-|[]]. reflexivity.
  - exfalso. apply (V s); [left; reflexivity|]. exists 1%Z, (-1)%Z, (-1)%Z. split; [lia|]. split; [lia|].
    assert (A1 : lt_a1 L = (1/2, sqrt 3 / 2)) by (injection HL as <-; reflexivity). assert (A2 : lt_a2 L = (1/2, - sqrt 3 / 2)) by (injection HL as <-; reflexivity).
    rewrite A1, A2. cbn [s sh_inside circle_shape fst snd]. unfold circle_inside. apply Rleb_true. nra.
Qed.

(** C123 for the hexagonal lattice: the pictures of the cross sections show the crystal with
    its shapes repeated over the whole lattice, where the shapes are within half a period. *)
Theorem C123_hexagonal : forall L el eu ops, let P := run_ops (phc_init L el eu) ops in lattice_init (LatName "hexagonal") = Ok L ->
  Forall (fun d => 0 <= d) (thicknesses ops) ->
  (forall z Nx Ny a im, (0 < Nx)%nat -> (0 < Ny)%nat -> eps_xy P z Nx Ny = Ok (a, im) -> shows_repeated P (1 / 2) (fun p => (fst p, snd p, z)) Nx Ny a im) /\
  (thicknesses ops <> [] ->
   (forall y Nx Nz a im, Rabs y <= 15 / 8 -> (0 < Nx)%nat -> (0 < Nz)%nat -> eps_xz P y Nx Nz = Ok (a, im) -> shows_repeated P (1 / 2) (fun p => (fst p, y, snd p)) Nx Nz a im) /\
   (forall x Ny Nz a im, Rabs x <= 15 / 8 -> (0 < Ny)%nat -> (0 < Nz)%nat -> eps_yz P x Ny Nz = Ok (a, im) -> shows_repeated P (1 / 2) (fun p => (x, fst p, snd p)) Ny Nz a im)).
Proof. exact hex_pictures. Qed.
Print Assumptions C123_hexagonal.
(** a slab with a circular hole: the picture exists and its layer meets the condition on the shapes *)
Example C123_hexagonal_example : exists L, lattice_init (LatName "hexagonal") = Ok L /\
  let ops := [OpLayer (1 / 2) 12 "shapes"; OpShape (ShOne (circle_shape bessel_J1 1 0 0 (3 / 10))) 0 CladNone] in
  let P := run_ops (phc_init L 1 1) ops in
  Forall (fun d => 0 <= d) (thicknesses ops) /\ thicknesses ops <> [] /\ (exists a im, eps_xy P (1 / 4) 30 20 = Ok (a, im)) /\
  exists ly, pc_layers P = [ly] /\ ly_zmin ly <= 1 / 4 < ly_zmax ly /\ ly_shapes ly <> [] /\
  forall s, In s (ly_shapes ly) -> forall x y, sh_inside s x y = true -> Rsqr x + Rsqr y <= Rsqr (1 / 2).
Proof.
  assert (E : exists L, lattice_init (LatName "hexagonal") = Ok L) by (eexists; reflexivity). destruct E as (L & HL). exists L. split; [exact HL|]. cbv zeta.
  set (ops := [_; _]). assert (T : Forall (fun d => 0 <= d) (thicknesses ops)) by (cbn; repeat constructor; lra).
  split; [exact T|]. split; [discriminate|]. split.
  - destruct (VizProofs2.xy_shows L 1 1 ops (1 / 4) 30 20 T (named_independent _ L HL) ltac:(lia) ltac:(lia)) as (a & im & E & _). exists a, im. exact E.
  - eexists. split; [reflexivity|]. cbn [ly_zmin ly_zmax ly_shapes append_shape shapes_layer app]. split; [|split; [discriminate|]].
    + cbn. lra.
    + intros t [<-|[]] x y Ht. cbn [sh_inside circle_shape] in Ht. unfold circle_inside in Ht. apply Rleb_true in Ht. unfold Rsqr. nra.
Qed.

(** C16, points of the unit cell around the origin when every shape is inside that cell: the
    value is that of the last shape drawn around the point, so it is the periodic map and does
    not depend on the rest of the mesh.  Missing: points of the other cells. *)
Theorem C16_home_cell_partial : forall L a b ly pts vs j x y v, bricks L a b ->
  (forall s, In s (ly_shapes ly) -> inside_cell (a / 2) (b / 2) s) -> - (a / 2) < x < a / 2 -> - (b / 2) < y < b / 2 ->
  layer_get_eps L ly pts = Ok vs -> nth_error pts j = Some (x, y) -> nth_error vs j = Some v ->
  last_wins (fun s => sh_inside s x y = true) (ly_epsb ly) (ly_shapes ly) v /\ last_wins (fun s => covers_any L s (x, y)) (ly_epsb ly) (ly_shapes ly) v.
Proof. exact home_value. Qed.
Print Assumptions C16_home_cell_partial.
(** a circle in the hexagonal lattice, whose cell can be taken as a rectangle *)
Example C16_home_cell_example : forall L, lattice_init (LatName "hexagonal") = Ok L ->
  bricks L 1 (sqrt 3 / 2) /\ inside_cell (1 / 2) (sqrt 3 / 2 / 2) (circle_shape bessel_J1 1 0 0 (3 / 10)).
Proof.
  intros L HL. split; [exact (bricks_hex L HL)|]. assert (T1 : 17 / 10 <= sqrt 3) by (apply Rsqr_incr_0_var; [pose proof (sqrt_sqrt 3 ltac:(lra)); unfold Rsqr; lra|apply sqrt_pos]).
  apply (circle_cell (1 / 2) (sqrt 3 / 2 / 2) (1, (0, 0), 3 / 10)); cbn [fst snd]; rewrite ?Rabs_R0; lra.
Qed.
