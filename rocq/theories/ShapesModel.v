(** Model of legume/phc/shapes.py.

    Simplifications: reals for floats; [x / 0 = 0] in R where numpy gives an
    inf/nan, so the model of [Poly.compute_ft] is only meaningful when no edge
    has [dy = -1e-20] or [dx = -1e-10] (the theorems about it say so).
    [compute_ft] works elementwise on an array of G's; it is modelled for one G
    (each of the masks of lines 233-270 acts element by element).  The Bessel
    function J1 is an argument.  matplotlib's point-in-polygon test
    (Poly.is_inside, lines 274-279) is not modelled. *)
From Verif Require Import Py CBase PhcModel.
Open Scope R_scope.
Open Scope list_scope.

(** bd.roll(x, -1) (phc/shapes.py 204-272)  *)
Definition roll1 {A} (l : list A) : list A := match l with [] => [] | x :: t => t ++ [x] end.
(** vertex j together with vertex j+1 (cyclically): the pairs the vectorised
    expressions of shapes.py:231-270 combine *)
Definition edges {A} (l : list A) : list (A * A) := combine l (roll1 l).

(** bd.sum(..., axis=1), shapes.py:255, 267 *)
Definition csuml (l : list C) : C := fold_right Cplus (RtoC 0) l.

(** shapes.py:91-100  Circle.compute_ft.  [j1] is bd.bessel1. *)
Definition circle_ft (j1 : R -> R) (xc yc r : R) (g : R * R) : C :=
  let gabs := sqrt (Rabs (fst g ^ 2) + Rabs (snd g ^ 2)) + 1 / 10 ^ 10 in
  Cmult (expi (- fst g * xc - snd g * yc)) (RtoC (r * 2 * PI / gabs * j1 (gabs * r))).
(** shapes.py:102-104 *)
Definition circle_inside (xc yc r x y : R) : bool := Rleb ((x - xc) ^ 2 + (y - yc) ^ 2) (r ^ 2).
(** shapes.py:11-15 with 70-86: Circle.__init__ stores the real part of the
    transform at zero as the area. *)
Definition circle_shape (j1 : R -> R) (eps xc yc r : R) : shape :=
  mkShape eps (fst (circle_ft j1 xc yc r (0, 0))) (fun x y => circle_inside xc yc r x y)
    (circle_ft j1 xc yc r).

(** shapes.py:146-160  Ellipse.compute_ft *)
Definition ellipse_ft (j1 : R -> R) (xc yc rx ry phi : R) (g : R * R) : C :=
  let g1x := fst g * cos phi + snd g * sin phi in
  let g1y := - fst g * sin phi + snd g * cos phi in
  let gabs := sqrt (Rabs ((g1x * rx) ^ 2) + Rabs ((g1y * ry) ^ 2)) + 1 / 10 ^ 10 in
  Cmult (expi (- g1x * xc - g1y * yc)) (RtoC (rx * ry * 2 * PI / gabs * j1 gabs)).
(** shapes.py:162-166  Ellipse.is_inside *)
Definition ellipse_inside (xc yc rx ry phi x y : R) : bool :=
  let x1 := x * cos phi + y * sin phi in
  let y1 := - x * sin phi + y * cos phi in
  Rleb (((x1 - xc) / rx) ^ 2 + ((y1 - yc) / ry) ^ 2) 1.
(** shapes.py:11-15 with 112-141 *)
Definition ellipse_shape (j1 : R -> R) (eps xc yc rx ry phi : R) : shape :=
  mkShape eps (fst (ellipse_ft j1 xc yc rx ry phi (0, 0)))
    (fun x y => ellipse_inside xc yc rx ry phi x y) (ellipse_ft j1 xc yc rx ry phi).

(** The three literal regularisers of shapes.py:231-232, 257, 269 (1e-10, 1e-20
    and 1e-50), as parameters so that "up to the regularisers" can be said. *)
Record regs := mkRegs { rg_x : R; rg_y : R; rg_d : R }.
(** 1e-10, 1e-20 and 1e-50, shapes.py:231-232, 257, 269 *)
Definition code_regs : regs := mkRegs (1 / 10 ^ 10) (1 / 10 ^ 20) (1 / 10 ^ 50).

(** shapes.py:231-233 *)
Definition slope (rg : regs) (e : (R * R) * (R * R)) : R :=
  (fst (snd e) - fst (fst e) + rg_x rg) / (snd (snd e) - snd (fst e) + rg_y rg).

(** shapes.py:242-243: sum of x_j y_{j+1} - y_j x_{j+1} *)
Definition shoelace (pts : list (R * R)) : R :=
  rsuml (map (fun e => fst (fst e) * snd (snd e) - snd (fst e) * fst (snd e)) (edges pts)).

(** shapes.py:247-258, the term of one edge when gx is (nearly) zero *)
Definition term_gx0 (rg : regs) (gx gy : R) (e : (R * R) * (R * R)) : C :=
  let aj := slope rg e in
  let a2j := 1 / aj in
  let b2j := snd (fst e) - a2j * fst (fst e) in
  let bgtemp := gy * b2j in
  let agtemp1 := gx * fst (fst e) + gy * (a2j * fst (fst e)) in
  let agtemp2 := gx * fst (snd e) + gy * (a2j * fst (snd e)) in
  let denom := gy * (gx + gy * a2j) in
  Cmult (Cmult (expi bgtemp) (Cminus (expi agtemp2) (expi agtemp1)))
        (RtoC (denom / (denom ^ 2 + rg_d rg))).
(** shapes.py:260-270, the term of one edge otherwise *)
Definition term_gx (rg : regs) (gx gy : R) (e : (R * R) * (R * R)) : C :=
  let aj := slope rg e in
  let bj := fst (fst e) - aj * snd (fst e) in
  let bgtemp := gx * bj in
  let agtemp1 := gy * snd (fst e) + gx * (aj * snd (fst e)) in
  let agtemp2 := gy * snd (snd e) + gx * (aj * snd (snd e)) in
  let denom := gx * (gy + gx * aj) in
  Cmult (Cmult (expi bgtemp) (Cminus (expi agtemp2) (expi agtemp1)))
        (RtoC (denom / (denom ^ 2 + rg_d rg))).

(** shapes.py:204-272  Poly.compute_ft, [pts] the closed vertex list
    (self.x_edges, self.y_edges).  Lines 222-225 flip the sign of G. *)
Definition poly_ft (rg : regs) (pts : list (R * R)) (g : R * R) : C :=
  let gx := - fst g in
  let gy := - snd g in
  if Rltb (Rabs gx) (1 / 10 ^ 10) then
    if Rltb (Rabs gy) (1 / 10 ^ 10) then RtoC (shoelace pts / 2)
    else csuml (map (term_gx0 rg gx gy) (edges pts))
  else Copp (csuml (map (term_gx rg gx gy) (edges pts))).

(** the attributes of a Poly (shapes.py:173-198 and 11-15) *)
Record poly := mkPoly { po_eps : R; po_pts : list (R * R); po_area : R }.

(** shapes.py:173-198  Poly.__init__ (with Shape.__init__, 11-15).  Empty lists
    fail on [x_edges[0]]; lists of different lengths do not broadcast (both
    have at least two entries once closed).  Line 196 compares a complex array
    with 0, which numpy does lexicographically ([c_lt0]). *)
Definition poly_init (eps : R) (xs ys : list R) : result poly :=
  match xs, ys with
  | x0 :: _, y0 :: _ =>
      if Nat.eqb (List.length xs) (List.length ys) then
        let pts := combine (xs ++ [x0]) (ys ++ [y0]) in
        let z := poly_ft code_regs pts (0, 0) in
        if c_lt0 z then Raise ValueError else Ok (mkPoly eps pts (fst z))
      else Raise ValueError
  | _, _ => Raise IndexError
  end.

(** shapes.py:281-297  Poly.rotate: the new vertices; eps and the cached area
    are left alone. *)
Definition com (pts : list (R * R)) (area : R) : R * R :=
  let w e := fst (fst e) * snd (snd e) - fst (snd e) * snd (fst e) in
  (rsuml (map (fun e => (fst (fst e) + fst (snd e)) * w e) (edges pts)) / 6 / area,
   rsuml (map (fun e => (snd (fst e) + snd (snd e)) * w e) (edges pts)) / 6 / area).
(** one vertex, shapes.py:281-297 *)
Definition rot_about (c : R * R) (t : R) (p : R * R) : R * R :=
  (cos t * (fst p - fst c) + - sin t * (snd p - snd c) + fst c,
   sin t * (fst p - fst c) + cos t * (snd p - snd c) + snd c).
(** shapes.py:281-297 *)
Definition poly_rotate (P : poly) (angle : R) : poly :=
  let c := com (po_pts P) (po_area P) in
  mkPoly (po_eps P) (map (rot_about c angle) (po_pts P)) (po_area P).

(** shapes.py:321-323  Square.__init__ *)
Definition square_init (eps xc yc a : R) : result poly :=
  poly_init eps (map (fun d => xc + d) [- a / 2; a / 2; a / 2; - a / 2])
                (map (fun d => yc + d) [- a / 2; - a / 2; a / 2; a / 2]).
(** shapes.py:351-354  Hexagon.__init__ (seven vertices: the first one is
    repeated by hand and then once more by Poly) *)
Definition hexagon_init (eps xc yc a : R) : result poly :=
  let h := sqrt 3 / 2 * a in
  poly_init eps (map (fun d => xc + d) [a; a / 2; - a / 2; - a; - a / 2; a / 2; a])
                (map (fun d => yc + d) [0; h; h; 0; - h; - h; 0]).

(** shapes.py:409 linspace(0, 2 pi, npts + 1) *)
Definition phis (npts : nat) : list R := map (fun i => INR i * (2 * PI / INR npts)) (seq 0 (S npts)).
(** shapes.py:411-416: loops over the coefficient lists, [n] the loop index *)
Fixpoint add_cos (n : nat) (f : list R) (phi acc : R) : R :=
  match f with [] => acc | a :: t => add_cos (S n) t phi (acc + a * cos (INR (n + 1) * phi)) end.
(** shapes.py:415-416 *)
Fixpoint add_sin (n : nat) (f : list R) (phi acc : R) : R :=
  match f with [] => acc | a :: t => add_sin (S n) t phi (acc + a * sin (INR (n + 1) * phi)) end.
(** R_phi at one angle, shapes.py:411-416 *)
Definition r_phi (a0 : R) (fas fbs : list R) (phi : R) : R :=
  add_sin 0 fbs phi (add_cos 0 fas phi (a0 / 2)).
(** shapes.py:405-425  FourierShape.__init__ ([npts] a natural number; an empty
    f_as fails on [f_as[0]]) *)
Definition fourier_init (eps xc yc : R) (f_as f_bs : list R) (npts : nat) : result poly :=
  match f_as with
  | [] => Raise IndexError
  | a0 :: fas =>
      let rs := map (r_phi a0 fas f_bs) (phis npts) in
      if existsb (fun r => Rltb r 0) rs then Raise ValueError
      else poly_init eps (map (fun p => r_phi a0 fas f_bs p * cos p + xc) (phis npts))
                         (map (fun p => r_phi a0 fas f_bs p * sin p + yc) (phis npts))
  end.

(** A polygon as a layer's shape (what ShapesLayer uses), with matplotlib's
    point test as the argument [inside]. (phc/shapes.py 169-280) *)
Definition poly_shape (inside : list (R * R) -> R -> R -> bool) (P : poly) : shape :=
  mkShape (po_eps P) (po_area P) (inside (po_pts P)) (poly_ft code_regs (po_pts P)).
