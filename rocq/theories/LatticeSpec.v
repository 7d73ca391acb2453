(** Vocabulary for stating lattice properties, independent of the code. *)
From Verif Require Import Py.
Open Scope R_scope.

Notation pt := (R * R)%type (only parsing).
Definition inner (u v : pt) : R := fst u * fst v + snd u * snd v.
Definition det (u v : pt) : R := fst u * snd v - snd u * fst v.
Definition independent (u v : pt) : Prop := det u v <> 0.

(** integer combination m*u + n*v *)
Definition comb (m n : Z) (u v : pt) : pt :=
  (IZR m * fst u + IZR n * fst v, IZR m * snd u + IZR n * snd v).
Definition in_lattice (u v g : pt) : Prop := exists m n, g = comb m n u v.

(** G is a reciprocal vector of the lattice spanned by a1, a2:
    exp(i G.R) = 1 for every lattice vector R. *)
Definition reciprocal_to (a1 a2 g : pt) : Prop :=
  forall r, in_lattice a1 a2 r -> exists k : Z, inner g r = 2 * PI * IZR k.

Definition dist2 (p q : pt) : R := Rsqr (fst p - fst q) + Rsqr (snd p - snd q).
Definition dist (p q : pt) : R := sqrt (dist2 p q).

(** p is at least as close to the origin as to any other reciprocal vector. *)
Definition in_first_zone (b1 b2 p : pt) : Prop :=
  forall g, in_lattice b1 b2 g -> dist2 p (0, 0) <= dist2 p g.
(** ... equally close to g: p lies on the zone face belonging to g. *)
Definition on_face (p g : pt) : Prop := dist2 p (0, 0) = dist2 p g.

(** Sample counts per segment after broadcasting a one-element list. *)
Definition counts_for (npts : nat) (l : list nat) : list nat :=
  match l with
  | [n] => repeat n (npts - 1)
  | _ => l
  end.

Fixpoint sum_nat (l : list nat) : nat :=
  match l with [] => 0 | n :: t => n + sum_nat t end.

(** Length of the polyline through the points, up to point number i. *)
Fixpoint polyline_length (ps : list pt) (i : nat) : R :=
  match i, ps with
  | S j, p :: ((q :: _) as rest) => dist p q + polyline_length rest j
  | _, _ => 0
  end.
Definition total_length (ps : list pt) : R := polyline_length ps (List.length ps - 1).

(** A grid of n >= 2 evenly spaced points centred on 0 and of total width w. *)
Definition centred_grid (g : list R) (n : nat) (w : R) : Prop :=
  List.length g = n /\
  forall i, (i < n)%nat -> nth_error g i = Some (- w / 2 + w * (INR i / INR (n - 1))).
