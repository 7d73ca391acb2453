(** Vocabulary for the invariances of the band structure: moved crystals, symmetry
    operations, scaled crystals. *)
From Coq Require Import List.
From Verif Require Import Py CBase LatticeSpec RecipSpec.
Open Scope R_scope.

(** F' is the transform of the function whose transform is F, moved by t, as far as
    the vectors in P are concerned *)
Definition moved_on (P : R * R -> Prop) (t : R * R) (F F' : R * R -> C) : Prop :=
  forall g, P g -> F' g = (expi (- inner g t) * F g)%C.
(** g is a difference of two members of gs *)
Definition difference_of (gs : list (R * R)) (g : R * R) : Prop := exists u v, In u gs /\ In v gs /\ g = diff u v.

(** M maps the plane to itself without changing lengths and angles *)
Definition linear_isometry (M : R * R -> R * R) : Prop :=
  (forall u v, M (fst u + fst v, snd u + snd v) = (fst (M u) + fst (M v), snd (M u) + snd (M v))) /\
  (forall u v, inner (M u) (M v) = inner u v).
(** the structure with transform F is unchanged by M, as far as the vectors in P
    are concerned *)
Definition invariant_on (P : R * R -> Prop) (M : R * R -> R * R) (F : R * R -> C) : Prop := forall g, P g -> F (M g) = F g.
(** the set gs of plane waves is unchanged by M *)
Definition closed_under (M : R * R -> R * R) (gs : list (R * R)) : Prop := forall g, In g gs -> In (M g) gs.

Definition scale_by (s : R) (u : R * R) : R * R := (s * fst u, s * snd u).
Definition rotate (t : R) (u : R * R) : R * R := (cos t * fst u - sin t * snd u, sin t * fst u + cos t * snd u).
(** two lists of band lists of the same shape, the first nowhere above the second *)
Definition nowhere_above (fs' fs : list (list R)) : Prop := List.length fs' = List.length fs /\
  forall i, (i < List.length fs)%nat -> List.length (nth i fs' nil) = List.length (nth i fs nil) /\
    forall b, (b < List.length (nth i fs nil))%nat -> nth b (nth i fs' nil) 0 <= nth b (nth i fs nil) 0.
(** (permittivity, centre, radius) of a circle, moved by t *)
Definition moved_by (t : R * R) (c : R * (R * R) * R) : R * (R * R) * R := (fst (fst c), (fst (snd (fst c)) + fst t, snd (snd (fst c)) + snd t), snd c).
