(** C137-C138: how the bands of the guided-mode expansion change when the crystal
    is moved, and along k-points turned by a symmetry of the crystal. *)
From Coq Require Import List.
From Verif Require Import Py CBase LatticeModel LatticeSpec PhcModel PhcSpec RecipModel RecipSpec ShapesModel ShapesSpec RunModel RunSpec RecipProofs5.
From Verif Require Import InvSpec InvProofs6 GinvSpec GinvProofs3 GinvProofs4 GinvProofs5 InvProofs7 GinvProofs9.
Open Scope R_scope.
Open Scope list_scope.

(** ** C137: the origin is arbitrary.  Both truncations, any number of layers,
    interpolated or exact modes, also with the option only_gmodes; when the
    radiative losses are computed (compute_im) the frequencies still agree, and
    without them the calls agree in their errors too *)
Theorem C137_translation argsort eigh eigsh inv root dl : diagonalises eigh -> eigh_ascending eigh -> inverts inv ->
  forall args gmax d d' t o ks an s, lattice_init args = Ok (cell d) -> independent (lt_a1 (cell d)) (lt_a2 (cell d)) -> 0 <= gmax ->
  waves_of (cell d) (dv_tbt d) gmax (dv_rc d) -> each_layer (layer_usable d) d -> each_layer (layer_usable d') d' -> crystal_moved t d d' ->
  o_solver o = "eigh"%string -> o_symm o = None -> g_einv s = None ->
  let r := run argsort eigh eigsh inv root dl d o ks an s in let r' := run argsort eigh eigsh inv root dl d' o ks an s in
  g_freqs (fst r') = g_freqs (fst r) /\ (o_im o = false -> snd r' = snd r).
Proof. exact (translation_run argsort eigh eigsh inv root dl). Qed.
Print Assumptions C137_translation.
(** the solver asked for exists *)
Theorem C137_solver : exists eigh, diagonalises eigh /\ eigh_ascending eigh.
Proof. exact ascending_exists. Qed.
Print Assumptions C137_solver.
(** a slab of permittivity 12 in air with one hole in a square cell, nine plane
    waves; the hole is at the origin or, moved by half a diagonal, at the corner *)
Example C137_example L : lattice_init (LatName "square") = Ok L ->
  let slab c := Dev (mkPhc L (shapes_layer (- 10 ^ 10) 0 1) (set_zmin (shapes_layer 0 (10 ^ 10) 1) 1)
    [append_shape (lt_ec_area L) (shapes_layer 0 1 12) (circle_shape bessel_J1 1 (fst c) (snd c) (1 / 20))] []) true (recip_tbt L 1) None in
  let d := slab (0, 0) in let d' := slab (1 / 2, 1 / 2) in
  independent (lt_a1 (cell d)) (lt_a2 (cell d)) /\ waves_of (cell d) (dv_tbt d) 1 (dv_rc d) /\ List.length (dv_gvec d) = 9%nat /\
  each_layer (layer_usable d) d /\ each_layer (layer_usable d') d' /\ crystal_moved (1 / 2, 1 / 2) d d'.
Proof.
  intros HL. cbv zeta. split; [apply (square_area L HL)|]. split; [reflexivity|]. split; [apply (square_nine L HL)|].
  split; [apply holey_case; auto|]. split; [apply holey_case; auto|apply holey_moved; auto].
Qed.

(** ** C138: an isometry M that leaves every layer unchanged turns k-points into
    k-points with the same frequencies.  Partial: the regulariser dl (1e-20 in the
    code, slab_modes.py 9 and 14) is taken to be 0; the plane waves must be closed under M,
    which 'tbt' does not guarantee (C133_hexagonal_refuted) *)
Theorem C138_symmetry_partial argsort eigh eigsh inv root : diagonalises eigh -> eigh_ascending eigh -> inverts inv ->
  forall args gmax d M o ks an s, lattice_init args = Ok (cell d) -> independent (lt_a1 (cell d)) (lt_a2 (cell d)) -> 0 <= gmax ->
  waves_of (cell d) (dv_tbt d) gmax (dv_rc d) -> each_layer (layer_usable d) d ->
  linear_isometry M -> closed_under M (dv_gvec d) -> each_layer (fun ly => invariant_on (difference_of (dv_gvec d)) M (transform d ly)) d ->
  M (o_dgx o, 0) = (o_dgx o, 0) -> o_solver o = "eigh"%string -> o_symm o = None -> g_einv s = None ->
  let r := run argsort eigh eigsh inv root 0 d o ks an s in let r' := run argsort eigh eigsh inv root 0 d o (map M ks) an s in
  g_freqs (fst r') = g_freqs (fst r) /\ (o_im o = false -> snd r' = snd r).
Proof. exact (symmetry_run0 argsort eigh eigsh inv root). Qed.
Print Assumptions C138_symmetry_partial.
(** with a shift delta_gx that M does not keep, the turn is about the shifted
    origin; for gmode_compute 'interp' the lengths of the k-points fix the grid *)
Theorem C138_shifted_partial argsort eigh eigsh inv root : diagonalises eigh -> eigh_ascending eigh -> inverts inv ->
  forall args gmax d M o ks ks' an s, lattice_init args = Ok (cell d) -> independent (lt_a1 (cell d)) (lt_a2 (cell d)) -> 0 <= gmax ->
  waves_of (cell d) (dv_tbt d) gmax (dv_rc d) -> each_layer (layer_usable d) d ->
  linear_isometry M -> closed_under M (dv_gvec d) -> each_layer (fun ly => invariant_on (difference_of (dv_gvec d)) M (transform d ly)) d ->
  Forall2 (fun k k' => (fst k' + o_dgx o, snd k') = M (fst k + o_dgx o, snd k)) ks ks' ->
  (lower (o_compute o) = "interp"%string -> map len ks' = map len ks) -> o_solver o = "eigh"%string -> o_symm o = None -> g_einv s = None ->
  let r := run argsort eigh eigsh inv root 0 d o ks an s in let r' := run argsort eigh eigsh inv root 0 d o ks' an s in
  g_freqs (fst r') = g_freqs (fst r) /\ (o_im o = false -> snd r' = snd r).
Proof. exact (symmetry_run argsort eigh eigsh inv root). Qed.
Print Assumptions C138_shifted_partial.
(** truncate_g 'abs' on the square, the hexagonal and the rectangular lattice: the
    plane waves are closed under every symmetry of the lattice *)
Theorem C138_abs_closed : forall name L gmax rc M, lattice_init (LatName name) = Ok L -> independent (lt_a1 L) (lt_a2 L) -> 0 <= gmax -> waves_of L false gmax rc ->
  (forall g, in_lattice (lt_b1 L) (lt_b2 L) g -> len g <> 2 * PI * gmax) ->
  linear_isometry M -> (forall g, in_lattice (lt_b1 L) (lt_b2 L) g -> in_lattice (lt_b1 L) (lt_b2 L) (M g)) -> closed_under M (rc_g rc).
Proof. exact abs_closed. Qed.
Print Assumptions C138_abs_closed.
(** a quarter turn of the slab of C137_example with its hole at the origin; the
    mirror y -> -y keeps every delta_gx *)
Example C138_example L : lattice_init (LatName "square") = Ok L ->
  let slab c := Dev (mkPhc L (shapes_layer (- 10 ^ 10) 0 1) (set_zmin (shapes_layer 0 (10 ^ 10) 1) 1)
    [append_shape (lt_ec_area L) (shapes_layer 0 1 12) (circle_shape bessel_J1 1 (fst c) (snd c) (1 / 20))] []) true (recip_tbt L 1) None in
  let d := slab (0, 0) in let quarter u := (- snd u, fst u) in
  each_layer (layer_usable d) d /\ linear_isometry quarter /\ closed_under quarter (dv_gvec d) /\
  each_layer (fun ly => invariant_on (difference_of (dv_gvec d)) quarter (transform d ly)) d /\ quarter (0, 0) = (0, 0) /\
  forall dgx : R, let mirror u := (fst u, - snd u) in linear_isometry mirror /\ mirror (dgx, 0) = (dgx, 0).
Proof.
  intros HL. cbv zeta. split; [apply holey_case; auto|]. split; [exact quarter_iso|]. split; [apply (holey_turn L HL)|]. split; [apply (holey_turn L HL)|].
  split; [cbn [fst snd]; f_equal; ring|]. intros dgx. split; [|cbn [fst snd]; f_equal; ring]. split; intros u v; unfold LatticeSpec.inner; cbn [fst snd]; [f_equal; ring|ring].
Qed.
