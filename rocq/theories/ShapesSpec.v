(** Vocabulary for the properties of shapes: plane geometry and integrals,
    written without the model's helpers. *)
From Verif Require Import Py LatticeSpec CBase.
From Coquelicot Require Import Hierarchy RInt Series.
Open Scope R_scope.

(** vertex number i (cyclically) of a polygon given by its vertex list *)
Definition vert (vs : list (R * R)) (i : nat) : R * R :=
  nth (i mod List.length vs) vs (0, 0).

Definition signed_area (vs : list (R * R)) : R :=
  / 2 * rsuml (map (fun i => det (vert vs i) (vert vs (S i))) (seq 0 (List.length vs))).

Definition shift (t p : R * R) : R * R := (fst p + fst t, snd p + snd t).
Definition rotate_about (c : R * R) (t : R) (p : R * R) : R * R :=
  (fst c + (cos t * (fst p - fst c) - sin t * (snd p - snd c)),
   snd c + (sin t * (fst p - fst c) + cos t * (snd p - snd c))).

(** centroid of a polygon of non-zero area *)
Definition centroid (vs : list (R * R)) : R * R :=
  let m i := det (vert vs i) (vert vs (S i)) in
  let n := List.length vs in
  (rsuml (map (fun i => (fst (vert vs i) + fst (vert vs (S i))) * m i) (seq 0 n)) / (6 * signed_area vs),
   rsuml (map (fun i => (snd (vert vs i) + snd (vert vs (S i))) * m i) (seq 0 n)) / (6 * signed_area vs)).

(** no edge on which the code's regularised slope or its reciprocal divides by
    zero *)
Definition regular_edges (vs : list (R * R)) : Prop :=
  forall i, (i < List.length vs)%nat ->
    fst (vert vs (S i)) - fst (vert vs i) <> - (1 / 10 ^ 10) /\
    snd (vert vs (S i)) - snd (vert vs i) <> - (1 / 10 ^ 20).

(** Winding number of the polygon around (x, y): edges crossing the ray from
    (x, y) in the +x direction, upward ones counted +1, downward ones -1. *)
Definition edge_x (p q : R * R) (y : R) : R := fst p + (y - snd p) * ((fst q - fst p) / (snd q - snd p)).
Definition crossing (p q : R * R) (x y : R) : R :=
  if Rltb x (edge_x p q y) then
    if andb (Rleb (snd p) y) (Rltb y (snd q)) then 1
    else if andb (Rleb (snd q) y) (Rltb y (snd p)) then -1 else 0
  else 0.
Definition winding (vs : list (R * R)) (x y : R) : R :=
  rsuml (map (fun i => crossing (vert vs i) (vert vs (S i)) x y) (seq 0 (List.length vs))).

(** integrals of complex functions of one real variable, and the iterated
    integral over a square big enough to hold the polygon *)
Definition is_CInt (f : R -> C) (a b : R) (v : C) : Prop :=
  is_RInt (fun t => fst (f t)) a b (fst v) /\ is_RInt (fun t => snd (f t)) a b (snd v).
Definition is_CInt2 (f : R -> R -> C) (M : R) (v : C) : Prop :=
  exists inner : R -> C,
    (forall y, is_CInt (fun x => f x y) (- M) M (inner y)) /\ is_CInt inner (- M) M v.
Definition inside_box (vs : list (R * R)) (M : R) : Prop :=
  forall p, In p vs -> Rabs (fst p) < M /\ Rabs (snd p) < M.

(** the Bessel function J_1, by its power series *)
Definition bessel_J1 (x : R) : R :=
  Series (fun k => (-1) ^ k / (INR (fact k) * INR (fact (S k))) * (x / 2) ^ (2 * k + 1)).

(** R(phi) = a0/2 + sum_k a_k cos(k phi) + sum_k b_k sin(k phi), the
    documented radius of a FourierShape *)
Definition fourier_radius (f_as f_bs : list R) (phi : R) : R :=
  nth 0 f_as 0 / 2
  + rsuml (map (fun k => nth k f_as 0 * cos (INR k * phi)) (seq 1 (List.length f_as - 1)))
  + rsuml (map (fun k => nth (k - 1) f_bs 0 * sin (INR k * phi)) (seq 1 (List.length f_bs))).

(** The error terms of the regularised polygon transform, one per edge from [p]
    to [q]: the slope uses dx + 1e-10 and dy + 1e-20, and the denominator d is
    inverted as d / (d^2 + 1e-50). *)
Definition edge_error (p q : R * R) (gx gy : R) : R :=
  let ddx := fst q - fst p in
  let ddy := snd q - snd p in
  let s := (ddx + 1 / 10 ^ 10) / (ddy + 1 / 10 ^ 20) in
  let d := gx * (gy + gx * s) in
  Rabs ddy / Rabs gx * (2 * Rabs gx * Rabs (ddy * s - ddx) + 1 / 10 ^ 50 / (d ^ 2 + 1 / 10 ^ 50)).
Definition edge_error_gx0 (p q : R * R) (gx gy : R) : R :=
  let ddx := fst q - fst p in
  let ddy := snd q - snd p in
  let s := (ddy + 1 / 10 ^ 20) / (ddx + 1 / 10 ^ 10) in
  let d := gy * (gx + gy * s) in
  Rabs ddx / Rabs gy * (2 * Rabs gy * Rabs (ddx * s - ddy) + 1 / 10 ^ 50 / (d ^ 2 + 1 / 10 ^ 50)).
