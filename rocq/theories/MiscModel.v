(** Model of the small parts of legume: backend.py, print_backend.py,
    print_utils.py, gds.py, the numerical helpers of utils.py, the abscissa,
    light line and quality factor of viz.py, and the result getters of the four
    solvers.  Paths are relative to /repo/legume. *)
From Verif Require Import Py CBase LatticeModel PhcModel ShapesModel RecipModel.
Open Scope R_scope.
Open Scope list_scope.

(** ** Switching backends *)

(** the two classes of backend.py, NumpyBackend and AutoGradBackend *)
Inductive backend := BNumpy | BAutograd.
(** the two classes of print_backend.py *)
Inductive print_backend := PRich | PBase.
(** set_backend, backend.py 198-220; [ag] is AG_AVAILABLE.  The class of the
    global object is the state; only names that are strings are modelled *)
Definition set_backend (ag : bool) (cur : backend) (name : string) : backend * result unit :=
  if String.eqb name "autograd" && negb ag then (cur, Raise ValueError)
  else if String.eqb name "numpy" then (BNumpy, Ok tt)
  else if String.eqb name "autograd" then (BAutograd, Ok tt)
  else (cur, Raise ValueError).
(** backend.py 195 *)
Definition initial_backend : backend := BNumpy.
(** set_print_backend, print_backend.py 64-86; [rich] is RICH_AVAILABLE *)
Definition set_print_backend (rich : bool) (cur : print_backend) (name : string) : print_backend * result unit :=
  if String.eqb name "rich" && negb rich then (cur, Raise ValueError)
  else if String.eqb name "rich" then (PRich, Ok tt)
  else if String.eqb name "base" then (PBase, Ok tt)
  else (cur, Raise ValueError).
(** print_backend.py 58-61 *)
Definition initial_print (rich : bool) : print_backend := if rich then PRich else PBase.
(** a program calling the switch with these names, catching the errors (backend.py 198-220) *)
Definition calls {B} (f : B -> string -> B * result unit) (b : B) (l : list string) : B := fold_left (fun b n => fst (f b n)) l b.

(** ** Progress bar *)

(** load_bar, print_utils.py 19-37.  Characters are their code points.  [rnd] is
    the rounding of a floating-point operation (the identity in exact
    arithmetic); int() truncates; a negative repetition count gives nothing. *)
Definition rep (c : Z) (n : Z) : list Z := List.repeat c (Z.to_nat n).
(** print_utils.py 19-37 *)
Definition load_bar (rnd : R -> R) (perc : R) (precision : Z) : list Z :=
  let filled := np_int (rnd (rnd (perc / 100) * IZR precision)) in
  [9474%Z] ++ (rep 9608 filled ++ rep 45 (precision - filled)) ++ [9474%Z].
(** the bar of update_prog, print_utils.py 51-55 *)
Definition prog_bar (rnd : R -> R) (ik num_k : nat) : list Z :=
  load_bar rnd (rnd (rnd (INR (ik + 1) / INR num_k) * 100)) 30.

(** ** Scattering matrices *)

(** RedhefferStar, utils.py 202-226.  Arguments that are not exactly numpy
    arrays fail the assertions; the entries are numpy numbers, whose division by
    zero gives inf or nan (theorems exclude it; here it is Coq's total
    division). *)
Inductive sarg := SArray (m : nat -> nat -> C) | SOther.
(** the four entries, utils.py 202-226 *)
Definition star (A B : nat -> nat -> C) : nat -> nat -> C :=
  let D := Cdiv (RtoC 1) (Cminus (RtoC 1) (Cmult (B 0 0)%nat (A 1 1)%nat)) in
  let F := Cdiv (RtoC 1) (Cminus (RtoC 1) (Cmult (A 1 1)%nat (B 0 0)%nat)) in
  fun i j => match i, j with
  | 0, 0 => Cplus (A 0 0) (Cmult (Cmult (Cmult (A 0 1) D) (B 0 0)) (A 1 0))
  | 0, S _ => Cmult (Cmult (A 0 1) D) (B 0 1)
  | S _, 0 => Cmult (Cmult (B 1 0) F) (A 1 0)
  | S _, S _ => Cplus (B 1 1) (Cmult (Cmult (Cmult (B 1 0) F) (A 1 1)) (B 0 1))
  end%nat.
(** with the assertions at its head, utils.py 202-226 *)
Definition redheffer (a b : sarg) : result (nat -> nat -> C) :=
  match a, b with
  | SArray A, SArray B => Ok (star A B)
  | _, _ => Raise AssertionError
  end.

(** ** Numerical differentiation *)

(** A numpy array: shape, whether its dtype is an integer one, data in C order.
    [store] writes a float into it: integer arrays truncate. (utils.py 81-139) *)
Record nd := Nd { nd_shape : list nat; nd_int : bool; nd_data : list R }.
(** assignment to an entry, utils.py 98 and 124 *)
Definition store (int : bool) (x : R) : R := if int then IZR (np_int x) else x.
(** [a = arg.flatten(); a[i] += h; a.reshape(shape)]: a new array (utils.py 92-101) *)
Fixpoint bump (int : bool) (i : nat) (h : R) (l : list R) : list R :=
  match l, i with
  | [], _ => []
  | x :: t, 0%nat => store int (x + h) :: t
  | x :: t, S i => x :: bump int i h t
  end.
(** utils.py 97-99 and 123-125 *)
Definition moved (a : nd) (i : nat) (h : R) : nd := Nd (nd_shape a) (nd_int a) (bump (nd_int a) i h (nd_data a)).
(** [step_size]: a Python float, a Python int (no [ravel]), a numpy scalar
    ([ravel] gives one entry) or an array (utils.py 91-94) *)
Inductive step_arg := StFloat (h : R) | StInt (z : Z) | StNumpy (h : R) | StArray (l : list R).
(** utils.py 91-94 *)
Definition steps (n : nat) (s : step_arg) : result (list R) :=
  match s with
  | StFloat h => Ok (List.repeat h n)
  | StInt _ => Raise AttributeError
  | StNumpy h => Ok [h]
  | StArray l => Ok l
  end.
(** step[i], utils.py 98 *)
Definition nth_or {A} (l : list A) (i : nat) : result A := match nth_error l i with Some x => Ok x | None => Raise IndexError end.
(** Arrays live in a heap and variables are references to them. *)
Notation heap := (list nd) (only parsing).
(** the array a variable refers to (utils.py 97-99) *)
Definition hread (h : heap) (r : nat) : nd := nth r h (Nd [] false []).
(** an assignment in place (utils.py 98) *)
Fixpoint hwrite (h : heap) (r : nat) (a : nd) : heap :=
  match h, r with [], _ => [] | _ :: t, 0%nat => a :: t | x :: t, S r => x :: hwrite t r a end.
(** flatten() copies, so [arg_new] is a new reference; reshape gives a view of it (utils.py 118-129) *)
Definition flatten (a : nd) : nd := Nd [List.length (nd_data a)] (nd_int a) (nd_data a).
(** .reshape(shape), utils.py 99 *)
Definition reshape (a : nd) (shape : list nat) : nd := Nd shape (nd_int a) (nd_data a).
(** the loop, utils.py 96-100 *)
Fixpoint grad_loop (fn : nd -> R) (arg : nat) (shape : list nat) (f_old : R) (st : list R) (is : list nat) (h : heap) : heap * result (list R) :=
  match is with
  | [] => (h, Ok [])
  | i :: t =>
      let arg_new := List.length h in
      let h := h ++ [flatten (hread h arg)] in
      match nth_or st i with
      | Raise e => (h, Raise e)
      | Ok d =>
          let a := hread h arg_new in
          let h := hwrite h arg_new (moved a i d) in
          let f_new := fn (reshape (hread h arg_new) shape) in
          let (h, r) := grad_loop fn arg shape f_old st t h in
          (h, let* g := r in Ok ((f_new - f_old) / d :: g))
      end
  end.
(** grad_num, utils.py 81-102; [fn] is a function of the content of the array it
    is given (and does not write into it) *)
Definition grad_num (fn : nd -> R) (arg : nat) (s : step_arg) (h : heap) : heap * result nd :=
  let a := hread h arg in
  let n := List.length (nd_data a) in
  match steps n s with
  | Raise e => (h, Raise e)
  | Ok st =>
      let (h, r) := grad_loop fn arg (nd_shape a) (fn a) st (seq 0 n) h in
      (h, let* g := r in Ok (Nd (nd_shape a) false g))
  end.
(** The vjp of vjp_maker_num for one argument, utils.py 105-139: [fn_out] is the
    value at [args], [v] the cotangent.  Broadcasting of unequal shapes is not
    modelled, it is a ValueError here.  The result is not reshaped. *)
Fixpoint set_nth {A} (l : list A) (i : nat) (x : A) : list A :=
  match l, i with [], _ => [] | _ :: t, 0%nat => x :: t | y :: t, S i => y :: set_nth t i x end.
(** np.sum(v * dfn_darg), utils.py 127 *)
Definition vdot (v w : list R) : result R :=
  if Nat.eqb (List.length v) (List.length w) then Ok (rsuml (map (fun p => fst p * snd p) (combine v w))) else Raise ValueError.
(** the function vjp of utils.py 118-129 *)
Definition vjp_num (fn : list nd -> list R) (fn_out : list R) (args : list nd) (arg_ind : nat) (step : R) (v : list R) : result nd :=
  let* a := nth_or args arg_ind in
  let n := List.length (nd_data a) in
  let* g := mapM (fun ip =>
      let out := fn (set_nth args arg_ind (moved a ip step)) in
      if Nat.eqb (List.length out) (List.length fn_out)
      then vdot v (map (fun p => (fst p - snd p) / step) (combine out fn_out)) else Raise ValueError) (seq 0 n) in
  Ok (Nd [n] false g).

(** ** ft2square, utils.py 54-78: what can be observed.  For the two admitted
    lattice types the spacings are positive and the lines up to the loop raise
    only for an empty [gvec] ([np.max]); the first pass of the loop evaluates
    [ft_coeff[0]] and then the name nG1, which is bound nowhere. *)
Definition ft2square (L : lattice) (ft_coeff : list C) (gvec : list (R * R)) : result (list (list C)) :=
  match lt_type L with
  | LHexagonal | LSquare =>
      match gvec with
      | [] => Raise ValueError
      | _ :: _ => match ft_coeff with [] => Raise IndexError | _ :: _ => Raise NameError end
      end
  | _ => Raise NotImplementedError
  end.

(** ** GDS export *)

(** The classes of shapes.py.  [KOther]: a class of the user derived from Poly *)
Inductive poly_class := KPoly | KSquare | KHexagon | KFourier | KOther.
(** a shape of a layer as gds.py 47-66 distinguishes it *)
Inductive gshape :=
| GPoly (k : poly_class) (P : poly)
| GCircle (eps x_cent y_cent r : R)
| GEllipse (eps x_cent y_cent rx ry : R).
(** gdspy.Polygon and gdspy.Round, gds.py 53 and 56-60 *)
Inductive element :=
| ElPolygon (points : list (R * R)) (lay dt : nat)
| ElRound (center : R * R) (r : R) (lay dt : nat) (tol : R).
(** what gdspy.write_gds writes, gds.py 67 *)
Record gds_file := GdsFile { gf_unit : R; gf_cell : list element }.
Notation files := (string -> option gds_file) (only parsing).
(** gdspy.write_gds(filename, unit=unit), gds.py 67 and 130 *)
Definition write_gds (fs : files) (name : string) (f : gds_file) : files := fun n => if String.eqb n name then Some f else fs n.
(** the body of the loops, gds.py 47-66: [type(shape) in [Poly, Square,
    Hexagon]] is about the exact class *)
Definition element_of (tol : R) (i : nat) (s : gshape) : result element :=
  match s with
  | GPoly (KPoly | KSquare | KHexagon) P => Ok (ElPolygon (removelast (po_pts P)) i 1)
  | GCircle _ x y r => Ok (ElRound (x, y) r i 1 tol)
  | _ => Raise RuntimeError
  end.
(** enumerate(phc.layers) from layer number [i] (gds.py 46) *)
Fixpoint cell_of (tol : R) (i : nat) (layers : list (list gshape)) : result (list element) :=
  match layers with
  | [] => Ok []
  | ly :: t => let* es := mapM (element_of tol i) ly in let* r := cell_of tol (S i) t in Ok (es ++ r)
  end.
(** generate_gds, gds.py 21-67; [gdspy]: the import succeeded.  [layers] are the
    shape lists of phc.layers *)
Definition generate_gds (gdspy : bool) (fs : files) (layers : list (list gshape)) (filename : string) (unit tol : R) : files * result Datatypes.unit :=
  if gdspy then
    match cell_of tol 0 layers with
    | Ok es => (write_gds fs filename (GdsFile unit es), Ok tt)
    | Raise e => (fs, Raise e)
    end
  else (fs, Raise NameError).
(** generate_gds_raster, gds.py 70-130, with both packages installed; [contours]
    is what skimage found, [n1], [n2] the shape of the raster.  Without
    cell_bound the name [boundary] is unbound at line 128. *)
Definition cell_point (L : lattice) (u v : R) : R * R :=
  (fst (lt_a1 L) * u + fst (lt_a2 L) * v, snd (lt_a1 L) * u + snd (lt_a2 L) * v).
(** gds.py 70-130 *)
Definition generate_gds_raster (fs : files) (L : lattice) (n1 n2 : nat) (contours : list (list (R * R))) (filename : string) (unit : R) (cell_bound : bool) : files * result Datatypes.unit :=
  let polys := map (fun c => ElPolygon (map (fun p => cell_point L (fst p / (INR n1 - 1) - 1 / 2) (snd p / (INR n2 - 1) - 1 / 2)) c) 0 0) contours in
  if cell_bound then
    let bnd := ElPolygon (map (fun q => cell_point L (fst q) (snd q)) [(- (1 / 2), - (1 / 2)); (- (1 / 2), 1 / 2); (1 / 2, 1 / 2); (1 / 2, - (1 / 2))]) 0 1 in
    (write_gds fs filename (GdsFile unit (polys ++ [bnd])), Ok tt)
  else (fs, Raise UnboundLocalError).

(** ** viz.py *)

(** calculate_x, viz.py 1435-1453: X0 and the rows of X.  When all k-points
    coincide numpy divides 0 by 0 (theorems exclude it). *)
Fixpoint diffs (ks : list (R * R)) : list (R * R) :=
  match ks with
  | a :: ((b :: _) as t) => (fst b - fst a, snd b - snd a) :: diffs t
  | _ => []
  end.
(** np.cumsum, viz.py 1435-1453 *)
Fixpoint cumsum (acc : R) (l : list R) : list R :=
  match l with [] => [] | x :: t => (acc + x) :: cumsum (acc + x) t end.
(** viz.py 1435-1453 *)
Definition calculate_x (kpoints : list (R * R)) (num_eig : nat) (k_units : bool) : list R * list (list R) :=
  let mod_delta_k := map (fun d => sqrt (fst d * fst d + snd d * snd d)) (diffs kpoints) in
  let delta_k_norm := map (fun x => x / rsuml mod_delta_k) mod_delta_k in
  let X0 := if k_units then 0 :: cumsum 0 delta_k_norm else map INR (seq 0 (List.length kpoints)) in
  (X0, map (fun x => List.repeat x num_eig) X0).
(** _calculate_LL, viz.py 1490-1495 *)
Definition calculate_LL (kpoints : list (R * R)) (P : phc) (conv : R) : list R :=
  map (fun k => conv * sqrt (fst k * fst k + snd k * snd k) / 2 / PI / sqrt (Rmax (ly_epsavg (pc_clad_l P)) (ly_epsavg (pc_clad_u P)))) kpoints.
(** _calculate_Q, viz.py 1456-1466, one entry *)
Definition calculate_Q (re_w im_w : R) : R := re_w / 2 / (im_w + 1 / 10 ^ 16).

(** ** Result getters *)

(** the values the private attributes take (gme.py 57-65) *)
Inductive pyval := VNone | VEmptyList | VEmptyDict | VComputed.
Notation object := (string -> option pyval) (only parsing).
(** self.name = value, as in gme.py 57-65 *)
Definition setattr (o : object) (a : string) (v : pyval) : object := fun n => if String.eqb n a then Some v else o n.
(** several assignments in order (gme/gme.py 826-960) *)
Definition setattrs (o : object) (l : list (string * pyval)) : object := fold_left (fun o p => setattr o (fst p) (snd p)) l o.
(** the four classes: gme.py, pwe.py, exc.py, pol.py *)
Inductive solver := Gme | Pwe | Exc | Pol.
(** the @property methods: name, private attribute.  gme.py 101-180; pwe.py
    54-82; exc.py 113-141; pol.py 83-133 *)
Definition getters (s : solver) : list (string * string) :=
  match s with
  | Gme => [("kz_symms", "_kz_symms"); ("freqs", "_freqs"); ("freqs_im", "_freqs_im"); ("unbalance_sp", "_unbalance_sp");
            ("eigvecs", "_eigvecs"); ("rad_coup", "_rad_coup"); ("rad_gvec", "_rad_gvec"); ("kpoints", "_kpoints"); ("gvec", "_gvec")]
  | Pwe => [("freqs", "_freqs"); ("eigvecs", "_eigvecs"); ("kpoints", "_kpoints"); ("gvec", "_gvec")]
  | Exc => [("eners", "_eners"); ("eigvecs", "_eigvecs"); ("kpoints", "_kpoints"); ("gvec", "_gvec")]
  | Pol => [("eners", "_eners"); ("eners_im", "_eners_im"); ("eigvecs", "_eigvecs"); ("fractions_ex", "_fractions_ex");
            ("fractions_ph", "_fractions_ph"); ("kpoints", "_kpoints"); ("gvec", "_gvec")]
  end%string.
(** [if self._x is None: self._x = []] occurs in all but those of gme.py *)
Definition guarded (s : solver) : bool := match s with Gme => false | _ => true end.
(** the private attributes set by __init__: gme.py 57-65 and 204 or 251; pwe.py
    105; exc.py 164 or 211; pol.py sets none *)
Definition init_attrs (s : solver) : list (string * pyval) :=
  match s with
  | Gme => [("_symm", VEmptyList); ("_freqs", VEmptyList); ("_freqs_im", VEmptyList); ("_unbalance_sp", VEmptyList); ("_eigvecs", VEmptyList);
            ("_rad_coup", VEmptyDict); ("_rad_gvec", VEmptyDict); ("_kpoints", VEmptyList); ("_gvec", VEmptyList); ("_gvec", VComputed)]
  | Pwe | Exc => [("_gvec", VComputed)]
  | Pol => []
  end%string.
(** and those set by a run that succeeds: gme.py 875, 989, 1163-1164 and, with
    compute_im, 1223-1226; pwe.py 159-198; exc.py 330-384; pol.py 283-345 *)
Definition run_attrs (s : solver) (compute_im : bool) : list (string * pyval) :=
  match s with
  | Gme => List.app [("_kpoints", VComputed); ("_eigvecs", VComputed); ("_freqs", VComputed); ("_kz_symms", VComputed)]
           (if compute_im then [("_unbalance_sp", VComputed); ("_freqs_im", VComputed); ("_rad_coup", VComputed); ("_rad_gvec", VComputed)] else [])
  | Pwe => [("_kpoints", VComputed); ("_eigvecs", VComputed); ("_freqs", VComputed)]
  | Exc => [("_kpoints", VComputed); ("_eigvecs", VComputed); ("_eners", VComputed)]
  | Pol => [("_kpoints", VComputed); ("_eigvecs", VComputed); ("_fractions_ex", VComputed); ("_fractions_ph", VComputed); ("_gvec", VComputed);
            ("_eners", VComputed); ("_eners_im", VComputed)]
  end%string.
(** an object after __init__ (gme.py 57-65, 204; pwe.py 105; exc.py 164) *)
Definition new_solver (s : solver) : object := setattrs (fun _ => None) (init_attrs s).
(** reading obj.name: gme.py 101-180, pwe.py 54-82, exc.py 113-141, pol.py 83-133 *)
Definition getattr (s : solver) (o : object) (name : string) : object * result pyval :=
  match find (fun p => String.eqb (fst p) name) (getters s) with
  | None => (o, Raise AttributeError)
  | Some (_, a) =>
      match o a with
      | None => (o, Raise AttributeError)
      | Some v => match v, guarded s with
                  | VNone, true => (setattr o a VEmptyList, Ok VEmptyList)
                  | _, _ => (o, Ok v)
                  end
      end
  end.
(** a user reads an attribute or calls run (gme.py 826, pwe.py 142, exc.py 311, pol.py
    243) *)
Inductive use := Read (name : string) | Run (compute_im : bool).
(** one such use; a run that succeeds sets the attributes listed above (gme/gme.py 826-1179) *)
Definition use_step (s : solver) (o : object) (u : use) : object :=
  match u with Read n => fst (getattr s o n) | Run im => setattrs o (run_attrs s im) end.
(** a history of uses after __init__ (gme/gme.py 826-1179) *)
Definition uses (s : solver) (l : list use) : object := fold_left (use_step s) l (new_solver s).
