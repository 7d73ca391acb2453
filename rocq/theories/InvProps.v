(** C131 - C136: how the bands of the plane-wave expansion change when the crystal
    is moved, reversed, rotated, scaled, filled with more permittivity, and when k is
    moved by a reciprocal vector. *)
From Coq Require Import Permutation List.
From Verif Require Import Py CBase LatticeModel LatticeSpec PhcModel PhcSpec RecipModel RecipSpec ShapesSpec ShapesModel RunModel RunSpec PweSpec PweModel PweProofs3 PweProofs7 RecipProofs5.
From Verif Require Import InvSpec InvProofs3 InvProofs5 InvProofs6 InvProofs7.
Open Scope R_scope.
Open Scope list_scope.

(** ** C131: the origin is arbitrary *)
Theorem C131_translation argsort eigh inv : sorts argsort -> diagonalises eigh -> inverts inv ->
  forall args L ly ly' t gmax e ks pol m, lattice_init args = Ok L -> independent (lt_a1 L) (lt_a2 L) -> 0 <= gmax ->
  conj_symmetric (layer_ft_at (lt_ec_area L) ly) -> conj_symmetric (layer_ft_at (lt_ec_area L) ly') -> lower pol = "te"%string \/ lower pol = "tm"%string ->
  let gs := rc_g (recip_tbt L gmax) in let n := List.length gs in let eps := ft_matrix (layer_ft_at (lt_ec_area L) ly) gs in
  (forall g g', In g gs -> In g' gs -> is_g0 (diff g g') -> g = g') ->
  ly_epsb ly' = ly_epsb ly -> ly_epsavg ly' = ly_epsavg ly ->
  Forall2 (fun s s' => sh_eps s' = sh_eps s /\ moved_on (difference_of gs) t (sh_ft s) (sh_ft s')) (ly_shapes ly) (ly_shapes ly') ->
  (exists B, is_inverse n eps B) -> psd n eps ->
  exists fs, pw_freqs (fst (pwe_run argsort eigh inv (pwe_init L ly gmax e) ks pol m)) = Some fs /\
    pw_freqs (fst (pwe_run argsort eigh inv (pwe_init L ly' gmax e) ks pol m)) = Some fs.
Proof. exact (translation argsort eigh inv). Qed.
Print Assumptions C131_translation.
(** any number of circles, as the program makes them, all moved by t *)
Theorem C131_circles argsort eigh inv : sorts argsort -> diagonalises eigh -> inverts inv ->
  forall args L j1 z1 z2 eb cs t gmax e ks pol m, lattice_init args = Ok L -> independent (lt_a1 L) (lt_a2 L) -> 0 <= gmax ->
  lower pol = "te"%string \/ lower pol = "tm"%string ->
  let gs := rc_g (recip_tbt L gmax) in let n := List.length gs in
  let circles cs := map (fun c => circle_shape j1 (fst (fst c)) (fst (snd (fst c))) (snd (snd (fst c))) (snd c)) cs in
  let ly := fold_left (append_shape (lt_ec_area L)) (circles cs) (shapes_layer z1 z2 eb) in
  let ly' := fold_left (append_shape (lt_ec_area L)) (circles (map (moved_by t) cs)) (shapes_layer z1 z2 eb) in
  let eps := ft_matrix (layer_ft_at (lt_ec_area L) ly) gs in
  (forall g g', In g gs -> In g' gs -> is_g0 (diff g g') -> g = g') ->
  (exists B, is_inverse n eps B) -> psd n eps ->
  exists fs, pw_freqs (fst (pwe_run argsort eigh inv (pwe_init L ly gmax e) ks pol m)) = Some fs /\
    pw_freqs (fst (pwe_run argsort eigh inv (pwe_init L ly' gmax e) ks pol m)) = Some fs.
Proof. exact (moved_circles argsort eigh inv). Qed.
Print Assumptions C131_circles.
(** one hole of radius 1/20 in permittivity 12, nine plane waves, the hole anywhere *)
Example C131_example c L : lattice_init (LatName "square") = Ok L ->
  let gs := rc_g (recip_tbt L 1) in let n := List.length gs in
  let ly := append_shape (lt_ec_area L) (shapes_layer 0 1 12) (circle_shape bessel_J1 1 (fst c) (snd c) (1 / 20)) in
  independent (lt_a1 L) (lt_a2 L) /\ (forall g g', In g gs -> In g' gs -> is_g0 (diff g g') -> g = g') /\
  n = 9%nat /\ conj_symmetric (layer_ft_at (lt_ec_area L) ly) /\
  (exists B, is_inverse n (ft_matrix (layer_ft_at (lt_ec_area L) ly) gs) B) /\ psd n (ft_matrix (layer_ft_at (lt_ec_area L) ly) gs).
Proof.
  intros HL. cbv zeta. split; [apply (square_area L HL)|]. split; [apply (square_sep L 1 HL); lra|]. destruct (hole_hyps c L HL) as (A & B & D).
  split; [exact A|]. split; [|split; [exact B|exact D]]. exact (filled_conj L 0 1 12 (circles bessel_J1 (hole_at c)) (circles_conj bessel_J1 (hole_at c))).
Qed.

(** ** C132: time reversal *)
Theorem C132_reversal argsort eigh inv : sorts argsort -> diagonalises eigh -> inverts inv ->
  forall args L ly gmax e ks pol m, lattice_init args = Ok L -> independent (lt_a1 L) (lt_a2 L) -> 0 <= gmax ->
  conj_symmetric (layer_ft_at (lt_ec_area L) ly) -> lower pol = "te"%string \/ lower pol = "tm"%string ->
  let gs := rc_g (recip_tbt L gmax) in let n := List.length gs in let eps := ft_matrix (layer_ft_at (lt_ec_area L) ly) gs in
  (exists B, is_inverse n eps B) -> psd n eps ->
  exists fs, pw_freqs (fst (pwe_run argsort eigh inv (pwe_init L ly gmax e) ks pol m)) = Some fs /\
    pw_freqs (fst (pwe_run argsort eigh inv (pwe_init L ly gmax e) (map opp ks) pol m)) = Some fs.
Proof. exact (reversal argsort eigh inv). Qed.
Print Assumptions C132_reversal.
(** an off-centre hole: no inversion symmetry is needed *)
Example C132_example L : lattice_init (LatName "square") = Ok L ->
  let gs := rc_g (recip_tbt L 1) in let n := List.length gs in
  let ly := append_shape (lt_ec_area L) (shapes_layer 0 1 12) (circle_shape bessel_J1 1 (1 / 4) (1 / 3) (1 / 20)) in
  n = 9%nat /\ conj_symmetric (layer_ft_at (lt_ec_area L) ly) /\
  (exists B, is_inverse n (ft_matrix (layer_ft_at (lt_ec_area L) ly) gs) B) /\ psd n (ft_matrix (layer_ft_at (lt_ec_area L) ly) gs).
Proof. intros HL. exact (proj2 (proj2 (C131_example (1 / 4, 1 / 3) L HL))). Qed.

(** ** C133: point symmetries.  M maps the crystal and the set of plane waves to
    themselves; then k and M k have the same bands *)
Theorem C133_symmetry_partial argsort eigh inv : sorts argsort -> diagonalises eigh -> inverts inv ->
  forall args L ly M gmax e ks pol m, lattice_init args = Ok L -> independent (lt_a1 L) (lt_a2 L) -> 0 <= gmax ->
  conj_symmetric (layer_ft_at (lt_ec_area L) ly) -> lower pol = "te"%string \/ lower pol = "tm"%string ->
  let gs := rc_g (recip_tbt L gmax) in let n := List.length gs in let eps := ft_matrix (layer_ft_at (lt_ec_area L) ly) gs in
  linear_isometry M -> closed_under M gs -> invariant_on (difference_of gs) M (layer_ft_at (lt_ec_area L) ly) ->
  (exists B, is_inverse n eps B) -> psd n eps ->
  exists fs, pw_freqs (fst (pwe_run argsort eigh inv (pwe_init L ly gmax e) ks pol m)) = Some fs /\
    pw_freqs (fst (pwe_run argsort eigh inv (pwe_init L ly gmax e) (map M ks) pol m)) = Some fs.
Proof. exact (symmetry_op argsort eigh inv). Qed.
Print Assumptions C133_symmetry_partial.
(** circles about the origin *)
Theorem C133_circles_partial argsort eigh inv : sorts argsort -> diagonalises eigh -> inverts inv ->
  forall args L j1 z1 z2 eb cs M gmax e ks pol m, lattice_init args = Ok L -> independent (lt_a1 L) (lt_a2 L) -> 0 <= gmax ->
  lower pol = "te"%string \/ lower pol = "tm"%string -> Forall (fun c => snd (fst c) = (0, 0)) cs ->
  let gs := rc_g (recip_tbt L gmax) in let n := List.length gs in
  let circles cs := map (fun c => circle_shape j1 (fst (fst c)) (fst (snd (fst c))) (snd (snd (fst c))) (snd c)) cs in
  let ly := fold_left (append_shape (lt_ec_area L)) (circles cs) (shapes_layer z1 z2 eb) in
  let eps := ft_matrix (layer_ft_at (lt_ec_area L) ly) gs in
  (forall g g', In g gs -> In g' gs -> is_g0 (diff g g') -> g = g') ->
  linear_isometry M -> closed_under M gs ->
  (exists B, is_inverse n eps B) -> psd n eps ->
  exists fs, pw_freqs (fst (pwe_run argsort eigh inv (pwe_init L ly gmax e) ks pol m)) = Some fs /\
    pw_freqs (fst (pwe_run argsort eigh inv (pwe_init L ly gmax e) (map M ks) pol m)) = Some fs.
Proof. exact (centred_circles argsort eigh inv). Qed.
Print Assumptions C133_circles_partial.
(** a quarter turn of the square lattice; the remaining hypotheses are met by C131_example *)
Example C133_example L : lattice_init (LatName "square") = Ok L ->
  linear_isometry (fun u => (- snd u, fst u)) /\ closed_under (fun u => (- snd u, fst u)) (rc_g (recip_tbt L 1)).
Proof. intros HL. split; [exact quarter_iso|exact (quarter_closed L HL)]. Qed.
(** the plane waves of the hexagonal lattice are no hexagon: a sixth of a turn, which
    maps lattice and uniform crystal to themselves, changes the bands *)
Theorem C133_hexagonal_refuted : exists L, lattice_init (LatName "hexagonal") = Ok L /\
  let M := rotate (PI / 3) in let gs := rc_g (recip_tbt L 2) in
  (forall g, in_lattice (lt_b1 L) (lt_b2 L) g -> in_lattice (lt_b1 L) (lt_b2 L) (M g)) /\
  exists k, forall argsort eigh inv, sorts argsort -> diagonalises eigh -> inverts inv ->
    exists fs fs', pw_freqs (fst (pwe_run argsort eigh inv (pwe_init L (shapes_layer 0 1 1) 2 None) [k] "te" 9)) = Some fs /\
      pw_freqs (fst (pwe_run argsort eigh inv (pwe_init L (shapes_layer 0 1 1) 2 None) [M k] "te" 9)) = Some fs' /\ fs <> fs'.
Proof. exact hexagonal_broken. Qed.
Print Assumptions C133_hexagonal_refuted.

(** ** C134: lengths times s, frequencies divided by s *)
Theorem C134_scaling_partial argsort eigh inv : sorts argsort -> diagonalises eigh -> inverts inv ->
  forall a1 a2 s L L' ly ly' gmax e ks pol m, 0 < s -> lattice_init (LatVecs a1 a2) = Ok L -> independent (lt_a1 L) (lt_a2 L) -> 0 <= gmax ->
  lattice_init (LatVecs (scale_by s a1) (scale_by s a2)) = Ok L' ->
  conj_symmetric (layer_ft_at (lt_ec_area L) ly) -> conj_symmetric (layer_ft_at (lt_ec_area L') ly') -> lower pol = "te"%string \/ lower pol = "tm"%string ->
  let gs := rc_g (recip_tbt L gmax) in let n := List.length gs in let eps := ft_matrix (layer_ft_at (lt_ec_area L) ly) gs in
  (forall g, difference_of gs g -> layer_ft_at (lt_ec_area L') ly' (scale_by (/ s) g) = layer_ft_at (lt_ec_area L) ly g) ->
  (exists B, is_inverse n eps B) -> psd n eps ->
  exists fs, pw_freqs (fst (pwe_run argsort eigh inv (pwe_init L ly gmax e) ks pol m)) = Some fs /\
    pw_freqs (fst (pwe_run argsort eigh inv (pwe_init L' ly' (gmax / s) e) (map (scale_by (/ s)) ks) pol m)) = Some (map (map (Rmult (/ s))) fs).
Proof. exact (length_scaling argsort eigh inv). Qed.
Print Assumptions C134_scaling_partial.
(** the hypothesis on the transforms, for a uniform crystal *)
Example C134_example L L' s eb z1 z2 gs : 0 < s ->
  (forall g g', In g gs -> In g' gs -> is_g0 (diff g g') -> g = g') ->
  (forall g g', In g gs -> In g' gs -> is_g0 (scale_by (/ s) (diff g g')) -> g = g') ->
  forall g, difference_of gs g -> layer_ft_at (lt_ec_area L') (shapes_layer z1 z2 eb) (scale_by (/ s) g) = layer_ft_at (lt_ec_area L) (shapes_layer z1 z2 eb) g.
Proof. exact (uniform_scaled L L' s eb z1 z2 gs). Qed.
(** not for every s: in units in which the lattice constant is 1e12, all plane waves
    look alike and the permittivity matrix of a uniform crystal is singular *)
Theorem C134_scaling_refuted : exists a1 a2 s L L' gmax, 0 < s /\ lattice_init (LatVecs a1 a2) = Ok L /\ lattice_init (LatVecs (scale_by s a1) (scale_by s a2)) = Ok L' /\
  independent (lt_a1 L) (lt_a2 L) /\ independent (lt_a1 L') (lt_a2 L') /\ 0 <= gmax /\
  let n := List.length (rc_g (recip_tbt L gmax)) in List.length (rc_g (recip_tbt L' (gmax / s))) = n /\
  (exists B, is_inverse n (ft_matrix (layer_ft_at (lt_ec_area L) (shapes_layer 0 1 12)) (rc_g (recip_tbt L gmax))) B) /\
  ~ exists B, is_inverse n (ft_matrix (layer_ft_at (lt_ec_area L') (shapes_layer 0 s 12)) (rc_g (recip_tbt L' (gmax / s)))) B.
Proof. exact too_coarse. Qed.
Print Assumptions C134_scaling_refuted.

(** ** C135: more permittivity, lower bands *)
Theorem C135_monotone argsort eigh inv : sorts argsort -> diagonalises eigh -> inverts inv ->
  forall args L ly ly' gmax e ks pol m, lattice_init args = Ok L -> independent (lt_a1 L) (lt_a2 L) -> 0 <= gmax ->
  conj_symmetric (layer_ft_at (lt_ec_area L) ly) -> conj_symmetric (layer_ft_at (lt_ec_area L) ly') -> lower pol = "te"%string \/ lower pol = "tm"%string ->
  let gs := rc_g (recip_tbt L gmax) in let n := List.length gs in
  let eps := ft_matrix (layer_ft_at (lt_ec_area L) ly) gs in let eps' := ft_matrix (layer_ft_at (lt_ec_area L) ly') gs in
  (exists B, is_inverse n eps B) -> psd n eps -> (exists B, is_inverse n eps' B) -> psd n (fun i j => eps' i j - eps i j)%C ->
  exists fs fs', pw_freqs (fst (pwe_run argsort eigh inv (pwe_init L ly gmax e) ks pol m)) = Some fs /\
    pw_freqs (fst (pwe_run argsort eigh inv (pwe_init L ly' gmax e) ks pol m)) = Some fs' /\ nowhere_above fs' fs.
Proof. exact (monotone argsort eigh inv). Qed.
Print Assumptions C135_monotone.
(** background and all shapes raised by dl *)
Theorem C135_raised argsort eigh inv : sorts argsort -> diagonalises eigh -> inverts inv ->
  forall args L z1 z2 eb dl ss gmax e ks pol m, lattice_init args = Ok L -> independent (lt_a1 L) (lt_a2 L) -> 0 <= gmax -> 0 <= dl ->
  (forall s, In s ss -> conj_symmetric (sh_ft s)) -> lower pol = "te"%string \/ lower pol = "tm"%string ->
  let gs := rc_g (recip_tbt L gmax) in let n := List.length gs in
  let ly := fold_left (append_shape (lt_ec_area L)) ss (shapes_layer z1 z2 eb) in
  let ly' := fold_left (append_shape (lt_ec_area L)) (map (fun s => mkShape (sh_eps s + dl) (sh_area s) (sh_inside s) (sh_ft s)) ss) (shapes_layer z1 z2 (eb + dl)) in
  let eps := ft_matrix (layer_ft_at (lt_ec_area L) ly) gs in
  (forall g g', In g gs -> In g' gs -> is_g0 (diff g g') -> g = g') ->
  (exists B, is_inverse n eps B) -> psd n eps ->
  exists fs fs', pw_freqs (fst (pwe_run argsort eigh inv (pwe_init L ly gmax e) ks pol m)) = Some fs /\
    pw_freqs (fst (pwe_run argsort eigh inv (pwe_init L ly' gmax e) ks pol m)) = Some fs' /\ nowhere_above fs' fs.
Proof. exact (raise_all argsort eigh inv). Qed.
Print Assumptions C135_raised.
Example C135_example L : lattice_init (LatName "square") = Ok L ->
  let gs := rc_g (recip_tbt L 1) in let n := List.length gs in
  let ly := fold_left (append_shape (lt_ec_area L)) [circle_shape bessel_J1 1 0 0 (1 / 20)] (shapes_layer 0 1 12) in
  (exists B, is_inverse n (ft_matrix (layer_ft_at (lt_ec_area L) ly) gs) B) /\ psd n (ft_matrix (layer_ft_at (lt_ec_area L) ly) gs).
Proof. intros HL. exact (proj2 (hole_hyps (0, 0) L HL)). Qed.

(** ** C136: k and k + b *)
Theorem C136_periodic_refuted : exists L, lattice_init (LatName "square") = Ok L /\
  forall argsort eigh inv, sorts argsort -> diagonalises eigh -> inverts inv ->
    exists fs fs', pw_freqs (fst (pwe_run argsort eigh inv (pwe_init L (shapes_layer 0 1 1) 0 None) [(0, 0)] "te" 1)) = Some fs /\
      pw_freqs (fst (pwe_run argsort eigh inv (pwe_init L (shapes_layer 0 1 1) 0 None) [shifted (0, 0) (lt_b1 L)] "te" 1)) = Some fs' /\
      fs = [[0]] /\ fs' = [[1]].
Proof. exact not_periodic. Qed.
Print Assumptions C136_periodic_refuted.
(** opposite points of the zone boundary, k = b/2 and k - b *)
Theorem C136_boundary_partial argsort eigh inv : sorts argsort -> diagonalises eigh -> inverts inv ->
  forall args L ly gmax e k b pol m, lattice_init args = Ok L -> independent (lt_a1 L) (lt_a2 L) -> 0 <= gmax ->
  conj_symmetric (layer_ft_at (lt_ec_area L) ly) -> lower pol = "te"%string \/ lower pol = "tm"%string -> b = shifted k k ->
  let gs := rc_g (recip_tbt L gmax) in let n := List.length gs in let eps := ft_matrix (layer_ft_at (lt_ec_area L) ly) gs in
  (exists B, is_inverse n eps B) -> psd n eps ->
  exists fs, pw_freqs (fst (pwe_run argsort eigh inv (pwe_init L ly gmax e) [k] pol m)) = Some fs /\
    pw_freqs (fst (pwe_run argsort eigh inv (pwe_init L ly gmax e) [diff k b] pol m)) = Some fs.
Proof. exact (zone_boundary argsort eigh inv). Qed.
Print Assumptions C136_boundary_partial.
