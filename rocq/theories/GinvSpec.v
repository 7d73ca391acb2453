(** Vocabulary for the invariances of the guided-mode bands. *)
From Coq Require Import List.
From Verif Require Import Py CBase LatticeModel LatticeSpec PhcModel PhcSpec RecipModel RecipSpec RunModel RunSpec InvSpec.
Open Scope R_scope.

(** numpy.linalg.eigh lists the eigenvalues in ascending order *)
Definition eigh_ascending (eigh : nat -> cmat -> list R * cmat) : Prop := forall n A,
  (forall i j, (i < n)%nat -> (j < n)%nat -> A i j = Cconj (A j i)) -> ascending (fst (eigh n A)).

(** the transform of a layer's permittivity in the cell of d *)
Definition transform (d : dev) (ly : layer) : R * R -> C := layer_ft_at (lt_ec_area (pc_lattice (dv_phc d))) ly.
(** two layers of the same thickness, background and average whose transforms are
    related by [rel] *)
Definition layers_related (rel : (R * R -> C) -> (R * R -> C) -> Prop) (d d' : dev) (ly ly' : layer) : Prop :=
  ly_d ly' = ly_d ly /\ ly_epsb ly' = ly_epsb ly /\ ly_epsavg ly' = ly_epsavg ly /\ rel (transform d ly) (transform d' ly').
(** two devices on the same plane waves, layer by layer related *)
Definition devices_related (rel : (R * R -> C) -> (R * R -> C) -> Prop) (d d' : dev) : Prop :=
  pc_lattice (dv_phc d') = pc_lattice (dv_phc d) /\ dv_tbt d' = dv_tbt d /\ dv_rc d' = dv_rc d /\ dv_custom d' = dv_custom d /\
  layers_related rel d d' (pc_clad_l (dv_phc d)) (pc_clad_l (dv_phc d')) /\
  Forall2 (layers_related rel d d') (pc_layers (dv_phc d)) (pc_layers (dv_phc d')) /\
  layers_related rel d d' (pc_clad_u (dv_phc d)) (pc_clad_u (dv_phc d')).
(** every layer, claddings included *)
Definition each_layer (P : layer -> Prop) (d : dev) : Prop :=
  P (pc_clad_l (dv_phc d)) /\ Forall P (pc_layers (dv_phc d)) /\ P (pc_clad_u (dv_phc d)).
(** the whole crystal moved by t in the plane *)
Definition crystal_moved (t : R * R) (d d' : dev) : Prop := devices_related (moved_on (difference_of (dv_gvec d)) t) d d'.
(** the transform has no imaginary part small enough to be dropped (gme.py 427-436) *)
Definition nothing_dropped (gs : list (R * R)) (F : R * R -> C) : Prop := forall g h, difference_of gs g -> difference_of gs h ->
  snd (F g) = 0 \/ 1 / 10 ^ 10 * Rabs (fst (F h)) <= Rabs (snd (F g)).
(** the plane waves of the device are those of a lattice and a cutoff *)
Definition waves_of (L : lattice) (tbt : bool) (gmax : R) (rc : recip) : Prop :=
  if tbt then rc = recip_tbt L gmax else exists fuel, recip_abs fuel L gmax = Some (Ok rc).
(** what is asked of each layer: a real permittivity, an invertible permittivity
    matrix, and for the truncation 'tbt' no imaginary part that is dropped *)
Definition layer_usable (d : dev) (ly : layer) : Prop := let gs := dv_gvec d in
  conj_symmetric (transform d ly) /\
  (exists B, is_inverse (List.length gs) (fun i j => transform d ly (diff (nth i gs (0, 0)) (nth j gs (0, 0)))) B) /\
  (dv_tbt d = true -> nothing_dropped gs (transform d ly)).
