(** What the panels of structure should show. *)
From Verif Require Import Py CBase LatticeModel PhcModel VizModel Viz3Model VizSpec.
Open Scope R_scope.
Open Scope list_scope.

(** every well of the crystal is a line across the whole picture, at its height, and
    there is no other line *)
Definition draws_wells (P : phc) (p : panel) : Prop :=
  let '(l, r, b, t) := im_extent (pn_im p) in
  (forall q, In q (pc_qws P) -> In (qw_z q, (l, r)) (pn_lines p) /\ b < qw_z q < t) /\
  (forall x, In x (pn_lines p) -> exists q, In q (pc_qws P) /\ x = (qw_z q, (l, r))).
(** no value of the picture lies outside the colour limits *)
Definition in_colours (p : panel) : Prop :=
  forall j i e, entry (im_rows (pn_im p)) j i = Some e -> fst (pn_clim p) <= e <= snd (pn_clim p).
(** a vertical section of n columns and m rows through the plane [pt] *)
Definition good_section (P : phc) (pt : R * R -> R * R * R) (n m : nat) (p : panel) : Prop :=
  (exists a, shows_plane P pt n m a (pn_im p)) /\ draws_wells P p /\ in_colours p.

(** markers at distinct points of a lattice, symmetric about a marker at the origin *)
Definition lattice_markers (b1 b2 : R * R) (ps : list (R * R)) : Prop :=
  NoDup ps /\ In (0, 0) ps /\ forall p, In p ps -> (exists m n : Z, p = (IZR m * fst b1 + IZR n * fst b2, IZR m * snd b1 + IZR n * snd b2)) /\ In (- fst p, - snd p) ps.
