(** Vocabulary: the Fourier coefficients of a layer as integrals of its permittivity. *)
From Coq Require Import List.
From Verif Require Import Py CBase LatticeModel LatticeSpec PhcModel ShapesSpec.
Open Scope R_scope.
Open Scope list_scope.

(** v is the integral of f over the rectangle [-h, h] x [-k, k], first over x, then over y *)
Definition is_cell_integral (f : R -> R -> C) (h k : R) (v : C) : Prop :=
  exists inner : R -> C, (forall y, - k < y < k -> is_CInt (fun x => f x y) (- h) h (inner y)) /\ is_CInt inner (- k) k v.
(** the rectangle of sides a and b is a unit cell: the lattice also has the vectors (a, 0)
    and (c, b), so that rows of such rectangles fill the plane *)
Definition bricks (L : lattice) (a b : R) : Prop := lt_ec_area L = a * b /\
  exists c, forall r, in_lattice (lt_a1 L) (lt_a2 L) r <-> in_lattice (a, 0) (c, b) r.
(** no point belongs to two of the shapes *)
Definition apart (l : list shape) : Prop := forall pre s mid t post, l = pre ++ s :: mid ++ t :: post ->
  forall x y, sh_inside s x y = true -> sh_inside t x y = true -> False.
Definition inside_cell (h k : R) (s : shape) : Prop := forall x y, sh_inside s x y = true -> Rabs x < h /\ Rabs y < k.
(** the transform of s at g is, up to d, the integral of exp(- i g r) over s *)
Definition transform_within (M d : R) (g : R * R) (s : shape) : Prop :=
  exists F, is_CInt2 (fun x y => if sh_inside s x y then expi (- (fst g * x + snd g * y)) else RtoC 0) M F /\ Cmod (Cminus (sh_ft s g) F) <= d.
(** sum of |eps_s - e| d over the pairs (s, d) *)
Definition weighted (e : R) (l : list (shape * R)) : R := fold_right (fun p acc => Rabs (sh_eps (fst p) - e) * snd p + acc) 0 l.
