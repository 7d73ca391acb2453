(** Vocabulary for shapes drawn in another unit cell. *)
From Coq Require Import List.
From Verif Require Import Py CBase LatticeModel LatticeSpec PhcModel RunModel InvSpec.
Open Scope R_scope.

(** s' is s moved by some vector of the lattice: the same permittivity and area, the
    points moved, the transform multiplied by the phase at the reciprocal vectors *)
Definition image_of (L : lattice) (s s' : shape) : Prop := sh_eps s' = sh_eps s /\ sh_area s' = sh_area s /\
  exists r, in_lattice (lt_a1 L) (lt_a2 L) r /\ moved_on (in_lattice (lt_b1 L) (lt_b2 L)) r (sh_ft s) (sh_ft s') /\
    forall x y, sh_inside s' (x + fst r) (y + snd r) = sh_inside s x y.
(** the same layer except that each shape is moved by a lattice vector of its own *)
Definition redrawn (L : lattice) (ly ly' : layer) : Prop :=
  ly_zmin ly' = ly_zmin ly /\ ly_zmax ly' = ly_zmax ly /\ ly_d ly' = ly_d ly /\ ly_epsb ly' = ly_epsb ly /\ ly_epsavg ly' = ly_epsavg ly /\
  Forall2 (image_of L) (ly_shapes ly) (ly_shapes ly').
Definition crystal_redrawn (P P' : phc) : Prop := pc_lattice P' = pc_lattice P /\ redrawn (pc_lattice P) (pc_clad_l P) (pc_clad_l P') /\
  redrawn (pc_lattice P) (pc_clad_u P) (pc_clad_u P') /\ Forall2 (redrawn (pc_lattice P)) (pc_layers P) (pc_layers P').
(** (permittivity, centre, radius) of a circle, moved by (m, n) lattice vectors *)
Definition cells_away (L : lattice) (c : R * (R * R) * R) (mn : Z * Z) : R * (R * R) * R :=
  moved_by (comb (fst mn) (snd mn) (lt_a1 L) (lt_a2 L)) c.
