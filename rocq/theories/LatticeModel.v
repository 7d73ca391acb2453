(** Model of legume/phc/lattice.py.
    Simplifications: floats are reals; a point or vector argument given as an
    array/list has exactly two entries; sample counts are natural numbers. *)
From Verif Require Import Py.
Open Scope R_scope.

Notation vec2 := (R * R)%type (only parsing).
Notation vec3 := (R * R * R)%type (only parsing).

(** numpy.cross / numpy.dot / numpy.linalg.norm on 3-vectors
    (used at lattice.py:30-37). *)
Definition cross3 (u v : vec3) : vec3 :=
  let '(u1, u2, u3) := u in let '(v1, v2, v3) := v in
  (u2 * v3 - u3 * v2, u3 * v1 - u1 * v3, u1 * v2 - u2 * v1).
(** numpy.dot, lattice.py:34-35 *)
Definition dot3 (u v : vec3) : R :=
  let '(u1, u2, u3) := u in let '(v1, v2, v3) := v in
  u1 * v1 + u2 * v2 + u3 * v3.
(** numpy.linalg.norm, lattice.py:30, 37 *)
Definition norm3 (u : vec3) : R := sqrt (dot3 u u).
(** 2 * np.pi * (...) / (...), lattice.py:34-35 *)
Definition scal_div3 (c d : R) (u : vec3) : vec3 :=   (* c * u / d *)
  let '(u1, u2, u3) := u in (c * u1 / d, c * u2 / d, c * u3 / d).
(** the slice [0:2], lattice.py:27-28, 39-40 *)
Definition xy (u : vec3) : vec2 := let '(u1, u2, _) := u in (u1, u2).

(** The strings stored in [Lattice.type] (lattice.py:52,56,67,69). *)
Inductive lat_type := LSquare | LHexagonal | LRectangular | LCustom.

(** Positional arguments of the constructor: one string, two 2-vectors, or a
    wrong number of arguments. (phc/lattice.py 11-43) *)
Inductive lat_args :=
| LatName (s : string)
| LatVecs (a1 a2 : vec2)
| LatOtherArity.

(** The attributes set by Lattice.__init__, lattice.py:27-43 *)
Record lattice := mkLattice {
  lt_type : lat_type;
  lt_a1 : vec2; lt_a2 : vec2;
  lt_b1 : vec2; lt_b2 : vec2;
  lt_ec_area : R; lt_bz_area : R
}.

(** lattice.py:49-71, [Lattice._parse_input].  With an arity other than 1 or 2
    the return statement reads unbound locals. *)
Definition parse_input (args : lat_args) : result (lat_type * vec3 * vec3) :=
  match args with
  | LatName s =>
      if String.eqb s "square" then Ok (LSquare, (1, 0, 0), (0, 1, 0))
      else if String.eqb s "hexagonal" then
        Ok (LHexagonal, (1/2, sqrt 3 / 2, 0), (1/2, - sqrt 3 / 2, 0))
      else Raise ValueError
  | LatVecs (x1, y1) (x2, y2) =>
      let a1 := (x1, y1, 0) in let a2 := (x2, y2, 0) in
      if Reqb (dot3 a1 a2) 0 then Ok (LRectangular, a1, a2)
      else Ok (LCustom, a1, a2)
  | LatOtherArity => Raise UnboundLocalError
  end.

(** lattice.py:11-43, [Lattice.__init__].  When the two vectors are collinear
    numpy divides by zero and stores inf/nan without raising; in this model the
    reciprocal vectors are then meaningless (0), so every theorem about them
    assumes independence. *)
Definition lattice_init (args : lat_args) : result lattice :=
  let* (ty, a1, a2) := parse_input args in
  let ec_area := norm3 (cross3 a1 a2) in
  let a3 := (0, 0, 1) in
  let b1 := scal_div3 (2 * PI) (dot3 a1 (cross3 a2 a3)) (cross3 a2 a3) in
  let b2 := scal_div3 (2 * PI) (dot3 a2 (cross3 a3 a1)) (cross3 a3 a1) in
  let bz_area := norm3 (cross3 b1 b2) in
  Ok (mkLattice ty (xy a1) (xy a2) (xy b1) (xy b2) ec_area bz_area).

(** numpy.linspace(lo, hi, n): n evenly spaced points including both ends
    (n = 1 gives [lo]). (phc/lattice.py 107) *)
Definition linspace (lo hi : R) (n : nat) : list R :=
  map (fun i => lo + (hi - lo) * (INR i / INR (n - 1))) (seq 0 n).

(** The [periods] argument of xy_grid. (phc/lattice.py 93-99) *)
Inductive periods_arg := PerNone | PerNum (p : R) | PerList (px py : R).

(** lattice.py:73-107, [Lattice.xy_grid].  [np.array(periods).shape == 1]
    compares a tuple with an int and is always False, so a plain number reaches
    [periods[1]], which raises TypeError. *)
Definition xy_grid (L : lattice) (Nx Ny : nat) (periods : periods_arg)
  : result (list R * list R) :=
  let* (px, py) :=
    match periods with
    | PerNone => match lt_type L with
                 | LSquare | LRectangular => Ok (1, 1)
                 | _ => Ok (2, 2)
                 end
    | PerNum _ => Raise TypeError
    | PerList px py => Ok (px, py)
    end in
  let ymax := Rabs (Rmax (snd (lt_a1 L)) (snd (lt_a2 L))) * py / 2 in
  let xmax := Rabs (Rmax (fst (lt_a1 L)) (fst (lt_a2 L))) * px / 2 in
  Ok (linspace (- xmax) xmax Nx, linspace (- ymax) ymax Ny).

(** Arguments that denote a BZ point: an ndarray, a list, a string, anything
    else (e.g. a tuple). (phc/lattice.py 195-230) *)
Inductive pt_arg :=
| PtArr (p : vec2)
| PtList (p : vec2)
| PtStr (s : string)
| PtOther.

(** lattice.py:195-230, [Lattice._parse_point]. *)
Definition parse_point (L : lattice) (pt : pt_arg) : result vec2 :=
  match pt with
  | PtArr p => Ok p
  | PtList p => Ok p
  | PtStr s =>
      let s' := lower s in
      if String.eqb s' "g" || String.eqb s' "gamma" then Ok (0, 0)
      else if String.eqb s' "x" then
        match lt_type L with LSquare => Ok (PI, 0) | _ => Raise ValueError end
      else if String.eqb s' "m" then
        match lt_type L with
        | LSquare => Ok (PI, PI)
        | LHexagonal => Ok (PI, PI / sqrt 3)
        | _ => Raise ValueError
        end
      else if String.eqb s' "k" then
        match lt_type L with
        | LHexagonal => Ok (4 / 3 * PI, 0)
        | _ => Raise ValueError
        end
      else Raise ValueError
  | PtOther => Raise ValueError
  end.

(** The [ns] argument: an integer or a list of integers. (phc/lattice.py 109-145) *)
Inductive ns_arg := NsInt (n : nat) | NsList (l : list nat).

(** lattice.py:135-145: [list(ns)] of an int raises TypeError; a list of length
    1 is broadcast to all segments. *)
Definition parse_ns (npts : nat) (ns : ns_arg) : result (list nat) :=
  match ns with
  | NsInt _ => Raise TypeError
  | NsList l =>
      if (npts <? 2)%nat then Raise ValueError
      else if (List.length l =? 1)%nat then Ok (repeat (nth 0 l 0%nat) (npts - 1))
      else if (List.length l =? npts - 1)%nat then Ok l
      else Raise ValueError
  end.

(** addition of 2-vectors, lattice.py:154 *)
Definition vadd (p q : vec2) : vec2 := (fst p + fst q, snd p + snd q).
(** their difference, lattice.py:155, 172 *)
Definition vsub (p q : vec2) : vec2 := (fst p - fst q, snd p - snd q).
(** a multiple of a 2-vector (np.outer), lattice.py:154-155 *)
Definition vscale (c : R) (p : vec2) : vec2 := (c * fst p, c * snd p).
(** Euclidean length, lattice.py:173-174 *)
Definition vnorm (p : vec2) : R := sqrt (Rsqr (fst p) + Rsqr (snd p)).

(** lattice.py:154-155: the [n] samples written for the segment p1 -> p2;
    linspace(0, 1, n, endpoint=False) is i/n. *)
Definition segment (p1 p2 : vec2) (n : nat) : list vec2 :=
  map (fun i => vadd p1 (vscale (INR i / INR n) (vsub p2 p1))) (seq 0 n).

(** lattice.py:147-158: the columns of [kpoints].  The slices
    [count:count+ns[ip]] tile the first sum(ns) columns in order, and the last
    column is the last point. *)
Fixpoint path_points (pts : list vec2) (ns : list nat) : list vec2 :=
  match pts, ns with
  | p1 :: ((p2 :: _) as rest), n :: ns' => segment p1 p2 n ++ path_points rest ns'
  | p :: nil, _ => [p]
  | _, _ => []
  end.

(** lattice.py:148-157: [inds]. *)
Fixpoint path_inds (count : nat) (ns : list nat) : list nat :=
  match ns with
  | [] => [count]
  | n :: ns' => count :: path_inds (count + n) ns'
  end.

(** numpy.diff along the path and the Euclidean lengths, lattice.py:172-174. *)
Fixpoint step_lengths (ks : list vec2) : list R :=
  match ks with
  | p :: ((q :: _) as rest) => vnorm (vsub q p) :: step_lengths rest
  | _ => []
  end.

(** numpy.cumsum. (phc/lattice.py 177) *)
Fixpoint cumsum_from (acc : R) (l : list R) : list R :=
  match l with
  | [] => []
  | x :: t => (acc + x) :: cumsum_from (acc + x) t
  end.

(** lattice.py:175-177: [ks], normalised cumulative length.  If the total is 0
    numpy yields nan; theorems assume a non-zero total. *)
Definition abscissa (kpoints : list vec2) : list R :=
  let st := step_lengths kpoints in
  0 :: cumsum_from 0 (map (fun x => x / rsuml st) st).

(** The dictionary returned by bz_path, lattice.py:185-191 *)
Record bz_path_out := mkPath {
  bp_kpoints : list vec2;
  bp_indexes : list nat;
  bp_k_indexes : list R;
  bp_angles : list R
}.

(** lattice.py:109-193, [Lattice.bz_path].  [np_angle x y] stands for
    numpy.angle(x + 1j*y, deg=True).  [np.where] returns a 1-tuple, so the
    "gamma present" test is always true and [symm_g] is always parsed.
    The label strings are not modelled. *)
Definition bz_path (np_angle : R -> R -> R) (L : lattice)
    (pts : list pt_arg) (ns : ns_arg) (symm_g : pt_arg) : result bz_path_out :=
  let* nl := parse_ns (List.length pts) ns in
  let* ps := mapM (parse_point L) pts in
  let kpoints := path_points ps nl in
  let inds := path_inds 0 nl in
  let* g := parse_point L symm_g in
  let angs := map (fun k => if Reqb (fst k) 0 && Reqb (snd k) 0
                            then np_angle (fst g) (snd g)
                            else np_angle (fst k) (snd k)) kpoints in
  let ks := abscissa kpoints in
  Ok (mkPath kpoints inds (map (fun i => nth i ks 0) inds) angs).
