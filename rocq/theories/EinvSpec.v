(** Vocabulary for the invariances of the exciton energies. *)
From Coq Require Import List.
From Verif Require Import Py CBase LatticeSpec RecipSpec PhcModel ShapesSpec InvSpec.
Open Scope R_scope.

(** the energies es' are, level by level, nowhere above es (there may be more of
    them); lists of (energy, loss) per k-point *)
Definition nowhere_above_c (es' es : list (list C)) : Prop := List.length es' = List.length es /\
  forall i, (i < List.length es)%nat -> (List.length (nth i es nil) <= List.length (nth i es' nil))%nat /\
    forall b, (b < List.length (nth i es nil))%nat -> fst (nth b (nth i es' nil) (RtoC 0)) <= fst (nth b (nth i es nil) (RtoC 0)).
(** the transform of the shape differs by at most d from the integral of
    exp(-i D.r) over the shape, for the differences D of the vectors gs *)
Definition near_integral (s : shape) (d : R) (gs : list (R * R)) : Prop := exists B, 0 <= B /\
  forall D, difference_of gs D -> exists F, is_CInt2 (fun x y => if sh_inside s x y then expi (- (fst D * x + snd D * y)) else RtoC 0) B F /\ Cmod (sh_ft s D - F)%C <= d.
