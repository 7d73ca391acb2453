(** The mean of a complex function over a unit cell, as an iterated integral over
    the cell's coordinates; independent of the code. *)
From Verif Require Import Py CBase LatticeSpec ShapesSpec.
Open Scope R_scope.

(** (x, y) = s a1 + t a2 with s, t from 0 to 1 *)
Definition cell_mean (a1 a2 : R * R) (f : R -> R -> C) (v : C) : Prop :=
  exists inner_int : R -> C,
    (forall t, is_CInt (fun s => f (s * fst a1 + t * fst a2) (s * snd a1 + t * snd a2)) 0 1 (inner_int t)) /\
    is_CInt inner_int 0 1 v.

(** sum over j < n of v_j e^{i g_j . r} *)
Definition wave (gs : list (R * R)) (v : nat -> C) (x y : R) : C :=
  csum (List.length gs) (fun j => (v j * expi (fst (nth j gs (0, 0)) * x + snd (nth j gs (0, 0)) * y))%C).

(** f takes the same value at points that differ by a lattice vector *)
Definition lattice_periodic (a1 a2 : R * R) (f : R -> R -> C) : Prop :=
  forall r x y, in_lattice a1 a2 r -> f (x + fst r) (y + snd r) = f x y.

(** u* . v for three components *)
Definition dot3 (u v : C * C * C) : C :=
  (Cconj (fst (fst u)) * fst (fst v) + Cconj (snd (fst u)) * snd (fst v) + Cconj (snd u) * snd v)%C.
