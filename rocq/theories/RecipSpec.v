(** Vocabulary for plane-wave sets and permittivity matrices. *)
From Verif Require Import Py LatticeSpec CBase.
Open Scope R_scope.

Definition len (g : R * R) : R := sqrt (inner g g).
Definition opp (g : R * R) : R * R := (- fst g, - snd g).
Definition diff (u v : R * R) : R * R := (fst u - fst v, snd u - snd v).

(** n is the integer part of x >= 0 *)
Definition integer_part (x : R) (n : nat) : Prop := INR n <= x < INR n + 1.

(** f maps reciprocal vectors to reciprocal vectors of the same length *)
Definition lattice_isometry (b1 b2 : R * R) (f : R * R -> R * R) : Prop :=
  forall g, in_lattice b1 b2 g -> in_lattice b1 b2 (f g) /\ len (f g) = len g.

(** the transform of a real function *)
Definition conj_symmetric (ft : R * R -> C) : Prop := forall g, ft (opp g) = Cconj (ft g).

(** B is the inverse of the n x n matrix A *)
Definition is_inverse (n : nat) (A B : cmat) : Prop :=
  meq n n (mmul n A B) mid /\ meq n n (mmul n B A) mid.

(** inv returns the inverse of every invertible matrix *)
Definition inverts (inv : nat -> cmat -> cmat) : Prop :=
  forall n A, (exists B, is_inverse n A B) -> is_inverse n A (inv n A).
