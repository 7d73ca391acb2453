(** Specification vocabulary for the reflection symmetry, independent of the
    model. *)
From Verif Require Import Py CBase LatticeModel.
Open Scope R_scope.

(** reflection in the line through the origin at angle t (radians) *)
Definition reflect (t : R) (g : R * R) : R * R :=
  let u := (cos t, sin t) in
  let a := fst u * fst g + snd u * snd g in
  (2 * a * fst u - fst g, 2 * a * snd u - snd g).
(** degrees to radians *)
Definition rad (deg : R) : R := deg * PI / 180.

(** both components agree within 1e-7 *)
Definition near (g h : R * R) : Prop := Rabs (fst h - fst g) < 1 / 10 ^ 7 /\ Rabs (snd h - snd g) < 1 / 10 ^ 7.

(** mate pairs up the entries of gs under the map f: mate j is the only entry
    near the image of entry j, and pairing twice leads back *)
Definition mates (f : R * R -> R * R) (gs : list (R * R)) (mate : nat -> nat) : Prop :=
  forall j, (j < List.length gs)%nat -> (mate j < List.length gs)%nat /\ mate (mate j) = j /\
    forall q, (q < List.length gs)%nat -> (near (f (nth j gs (0, 0))) (nth q gs (0, 0)) <-> q = mate j).

(** The reflection acting on coefficient vectors: basis function i goes to basis
    function mt i, with sign s i. *)
Definition refl_op (mt : nat -> nat) (s : nat -> R) (v : cvec) : cvec := fun i => (RtoC (s i) * v (mt i))%C.

(** a non-zero vector with A v = l v *)
Definition eigvec (n : nat) (A : cmat) (l : C) (v : cvec) : Prop :=
  (exists i, (i < n)%nat /\ v i <> RtoC 0) /\ forall i, (i < n)%nat -> mvec n A v i = (l * v i)%C.
Definition eigval (n : nat) (A : cmat) (l : C) : Prop := exists v, eigvec n A l v.

(** the columns of the n x n matrix V are an orthonormal basis whose first e
    members are unchanged by the operator T and whose others change sign *)
Definition parity_basis (n e : nat) (T : cvec -> cvec) (V : cmat) : Prop :=
  meq n n (mmul n (madj V) V) mid /\ meq n n (mmul n V (madj V)) mid /\
  (forall i c, (i < n)%nat -> (c < e)%nat -> T (fun i => V i c) i = V i c) /\
  (forall i c, (i < n)%nat -> (e <= c < n)%nat -> T (fun i => V i c) i = (- V i c)%C).

(** the map f permutes the entries of gs, in pairs given by mate *)
Definition permuted_by (f : R * R -> R * R) (gs : list (R * R)) (mate : nat -> nat) : Prop :=
  forall j, (j < List.length gs)%nat -> (mate j < List.length gs)%nat /\ mate (mate j) = j /\
    nth (mate j) gs (0, 0) = f (nth j gs (0, 0)).
(** different entries are further apart than the tolerance *)
Definition separated (gs : list (R * R)) : Prop :=
  forall i j, (i < List.length gs)%nat -> (j < List.length gs)%nat -> near (nth i gs (0, 0)) (nth j gs (0, 0)) -> i = j.

(** v is a combination of the first m columns of B *)
Definition in_span (n : nat) (B : cmat) (m : nat) (v : cvec) : Prop :=
  exists a : cvec, forall i, (i < n)%nat -> v i = csum m (fun c => (B i c * a c)%C).

(** G + k *)
Definition kplus (k g : R * R) : R * R := (fst g + fst k, snd g + snd k).
(** one primitive vector along x and the other along y *)
Definition axis_aligned (a1 a2 : R * R) : Prop := (snd a1 = 0 /\ fst a2 = 0) \/ (fst a1 = 0 /\ snd a2 = 0).

(** H, written in the basis V, splits into the e x e matrix E and the o x o matrix
    O: no coupling between them, the eigenvalues of H are those of E and of O,
    and an eigenvector of E (of O), padded with zeros and transformed back, is an
    eigenvector of H unchanged (negated) by T *)
Definition splits (n : nat) (T : cvec -> cvec) (H V : cmat) (e o : nat) (E O : cmat) : Prop :=
  (e + o)%nat = n /\
  (forall c d, (c < e)%nat -> (e <= d < n)%nat ->
     cdot n (fun i => V i c) (mvec n H (fun i => V i d)) = RtoC 0 /\ cdot n (fun i => V i d) (mvec n H (fun i => V i c)) = RtoC 0) /\
  (forall l, eigval n H l <-> eigval (e) E l \/ eigval (o) O l) /\
  (forall l u, eigvec (e) E l u ->
     let v := mvec n V (fun d => if Nat.ltb d (e) then u d else RtoC 0) in
     eigvec n H l v /\ forall i, (i < n)%nat -> T v i = v i) /\
  (forall l u, eigvec (o) O l u ->
     let v := mvec n V (fun d => if Nat.ltb d (e) then RtoC 0 else u (d - e)%nat) in
     eigvec n H l v /\ forall i, (i < n)%nat -> T v i = (- v i)%C).


(** degrees between neighbouring mirror lines of a lattice type *)
Definition angle_step (ty : lat_type) : option Z :=
  match ty with LSquare => Some 45%Z | LHexagonal => Some 30%Z | LRectangular => Some 90%Z | LCustom => None end.
