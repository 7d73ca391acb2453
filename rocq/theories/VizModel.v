(** Model of what legume/viz.py draws and of the __repr__ methods of the
    structure classes.  A drawing call of matplotlib is recorded as the data it
    is given; figures, colours, axis labels and colour bars are left out, and so
    is what has been drawn before an exception. *)
From Coq Require Import Ascii.
From Verif Require Import Py LatticeModel CBase PhcModel PolModel MiscModel.
Open Scope R_scope.

(** ** Shapes with the attributes that __repr__ and viz.shapes read *)

(** shapes.py: Circle 67-86, Ellipse 111-141, Poly 172-198, Square 308-323,
    Hexagon 334-354, FourierShape 365-425.  [pts] are x_edges and y_edges. *)
Inductive vshape :=
| VCircle (eps x y r : R)
| VEllipse (eps x y rx ry phi : R)
| VPoly (eps : R) (pts : list (R * R))
| VSquare (eps x y a : R) (pts : list (R * R))
| VHexagon (eps x y a : R) (pts : list (R * R))
| VFourier (eps x y : R) (npts : nat) (pts : list (R * R)).

(** ** repr (phc/phc.py 39-47) *)

Definition nl : string := String (ascii_of_nat 10) EmptyString.
Section Repr.
(** Python's number formatting: "%.nf", "%.ne", str of an array, "%d", str of a
    number *)
Variable fixed sci : nat -> R -> string.
Variable arr : list R -> string.
Variable dec : nat -> string.
Variable str : R -> string.
Open Scope string_scope.

(** shapes.py 87-89, 143-144, 200-202, 325-327, 356-358, 427-430.  The f-string
    of Ellipse reads eps, x, y, ... as global names, which do not exist. *)
Definition repr_shape (s : vshape) : result string :=
  match s with
  | VCircle eps x y r =>
      Ok ("Circle(eps = " ++ fixed 2 eps ++ ", x = " ++ fixed 4 x ++ ", y = " ++ fixed 4 y ++ ", r = " ++ fixed 4 r ++ ")")
  | VEllipse _ _ _ _ _ _ => Raise NameError
  | VPoly eps pts =>
      Ok ("Poly(eps = " ++ fixed 2 eps ++ ", x_edges = " ++ arr (map fst pts) ++ ", y_edges = " ++ arr (map snd pts) ++ ")")
  | VSquare eps x y a _ =>
      Ok ("Square(eps = " ++ fixed 2 eps ++ ", x_cent = " ++ fixed 4 x ++ ", y_cent = " ++ fixed 4 y ++ ", a = " ++ fixed 4 a ++ ")")
  | VHexagon eps x y a _ =>
      Ok ("Hexagon(eps = " ++ fixed 2 eps ++ ", x_cent = " ++ fixed 4 x ++ ", y_cent = " ++ fixed 4 y ++ ", a = " ++ fixed 4 a ++ ")")
  | VFourier eps x y npts _ =>
      Ok ("FourierShape(eps = " ++ fixed 2 eps ++ ", x_cent = " ++ fixed 4 x ++ ", y_cent = " ++ fixed 4 y ++ ", npts = " ++ dec npts ++ ")")
  end.

(** layer.py 112-118, ShapesLayer.__repr__ *)
Record vlayer := VLayer { vl_epsb : R; vl_d : R; vl_shapes : list vshape }.
(** the loop of layer.py 115-116 *)
Fixpoint repr_shapes (rep : string) (l : list vshape) : result string :=
  match l with
  | [] => Ok rep
  | s :: t => let* r := repr_shape s in repr_shapes (rep ++ nl ++ r) t
  end.
(** layer.py 112-118 *)
Definition repr_layer (ly : vlayer) : result string :=
  let rep := "ShapesLayer(eps_b = " ++ fixed 2 (vl_epsb ly) ++ ", d = " ++ fixed 2 (vl_d ly) in
  let some := match vl_shapes ly with [] => false | _ => true end in
  let rep := rep ++ (if some then "," else "") in
  let* rep := repr_shapes rep (vl_shapes ly) in
  Ok (rep ++ (if some then nl ++ ")" else ")")).

(** lattice.py 45-47 *)
Definition repr_lattice (L : lattice) : string :=
  "Lattice(a1 = [" ++ fixed 4 (fst (lt_a1 L)) ++ ", " ++ fixed 4 (snd (lt_a1 L)) ++ "], a2 = [" ++ fixed 4 (fst (lt_a2 L)) ++ ", " ++ fixed 4 (snd (lt_a2 L)) ++ "])".

(** layer.py 265-269, QuantumWellLayer.__repr__; the continuation line keeps its
    nine blanks *)
Definition repr_qw (q : qw) : string :=
  "QuantumWellLayer(z = " ++ fixed 4 (qw_z q) ++ ", V_shapes = " ++ str (qw_V q) ++ " eV, a = " ++ fixed 1 (qw_a q * 10 ^ 9) ++ " nm, " ++ nl ++
  "          M = " ++ sci 2 (qw_M q) ++ " kg, E0 = " ++ fixed 4 (qw_E0 q) ++ " eV, loss = " ++ sci 1 (qw_loss q) ++ " eV )".

(** phc.py 39-47, PhotCryst.__repr__; the claddings are not printed *)
Fixpoint repr_layers (rep : string) (i : nat) (l : list vlayer) : result string :=
  match l with
  | [] => Ok rep
  | ly :: t => let* r := repr_layer ly in repr_layers (rep ++ nl ++ dec i ++ ": " ++ r) (S i) t
  end.
(** the loop of phc.py 44-45 *)
Fixpoint repr_qws (rep : string) (i : nat) (l : list qw) : string :=
  match l with
  | [] => rep
  | q :: t => repr_qws (rep ++ nl ++ dec i ++ ": " ++ repr_qw q) (S i) t
  end.
(** phc.py 39-47 *)
Definition repr_phc (L : lattice) (layers : list vlayer) (qws : list qw) : result string :=
  let rep := "PhotonicCrystal(" in
  let rep := rep ++ nl ++ repr_lattice L in
  let* rep := repr_layers rep 0 layers in
  let rep := repr_qws rep 0 qws in
  Ok (rep ++ (if ((0 <? List.length layers) || (0 <? List.length qws))%nat then nl ++ ")" else ")")).
End Repr.

(** exc.py 98-111, ExcitonSchroedEq.__repr__: the numbers it prints (before
    formatting) with the label before and the unit behind each *)
Definition exc_fields (gmax a M E0 loss z V : R) : list (string * R * string) :=
  [("gmax", gmax, ""); ("a", a, "m"); ("M", M, "kg"); ("E0", E0, "eV"); ("loss", loss * 10 ^ 3, "ueV"); ("z", z, ""); ("V_shapes", V, "eV")]%string.
(** the same for QuantumWellLayer.__repr__ (phc/layer.py 265-269) *)
Definition qw_fields (q : qw) : list (string * R * string) :=
  [("z", qw_z q, ""); ("V_shapes", qw_V q, "eV"); ("a", qw_a q * 10 ^ 9, "nm"); ("M", qw_M q, "kg"); ("E0", qw_E0 q, "eV"); ("loss", qw_loss q, "eV")]%string.

(** ** Outlines: viz.shapes *)

(** _plot_circle, viz.py 382-392 *)
Definition plot_circle (x y r : R) (npts : nat) : list (R * R) :=
  map (fun phi => (x + r * cos phi, y + r * sin phi)) (linspace 0 (2 * PI) npts).
(** shape.x_edges + x_p, shape.y_edges + y_p, viz.py 663-664 *)
Definition shift (p : R * R) (l : list (R * R)) : list (R * R) := map (fun q => (fst q + fst p, snd q + snd p)) l.
(** the attribute look-up shape.x_edges (viz.py 660-664) *)
Definition edges_of (s : vshape) : result (list (R * R)) :=
  match s with
  | VPoly _ p | VSquare _ _ _ _ p | VHexagon _ _ _ _ p | VFourier _ _ _ _ p => Ok p
  | VCircle _ _ _ _ | VEllipse _ _ _ _ _ _ => Raise AttributeError
  end.
(** viz.py 641-665, the curves drawn for one shape *)
Definition pads (L : lattice) : list (R * R) :=
  [lt_a1 L; (- fst (lt_a1 L), - snd (lt_a1 L)); lt_a2 L; (- fst (lt_a2 L), - snd (lt_a2 L))].
(** viz.py 643-666 for one shape *)
Definition outline (L : lattice) (npts : nat) (pad : bool) (s : vshape) : result (list (list (R * R))) :=
  match s with
  | VCircle _ x y r =>
      Ok (plot_circle x y r npts ::
          if pad then map (fun p => plot_circle (x + fst p) (y + snd p) r npts) (pads L) else [])
  | _ =>
      let* e := edges_of s in
      Ok (e :: if pad then map (fun p => shift p e) (pads L) else [])
  end.
(** viz.py 630-669: the curves, and the axis limits *)
Definition viz_shapes (L : lattice) (shapes : list vshape) (npts : nat) (pad : bool) : result (list (list (R * R)) * (list R * list R)) :=
  let* ext := xy_grid L 2 2 PerNone in
  let* cs := mapM (outline L npts pad) shapes in
  Ok (List.concat cs, ext).

(** ** Cross sections: eps_xy, eps_xz, eps_yz *)

(** np.meshgrid(g1, g2) of two 1D arrays, flattened row by row (viz.py 420, 478, 545, 612) *)
Definition meshgrid (g1 g2 : list R) : list (R * R) := List.concat (map (fun v => map (fun u => (u, v)) g1) g2).
(** an array of rows of length n; the inverse of flattening (viz.py 420-625) *)
Fixpoint rows {A} (n m : nat) (l : list A) : list (list A) :=
  match m with
  | O => []
  | S m' => firstn n l :: rows n m' (skipn n l)
  end.
(** what imshow is given: the rows, bottom row first (origin = 'lower'), and the
    extent [left, right, bottom, top] (viz.py 355-380, 1289-1293) *)
Record image := Image { im_rows : list (list R); im_extent : R * R * R * R }.
(** g[0] and g[-1], the extents of viz.py 482, 549, 616 *)
Definition ends (g : list R) : result (R * R) :=
  match g with [] => Raise IndexError | x :: _ => Ok (x, last g x) end.
(** get_eps on the mesh, the extent and the image; [pt] puts the two coordinates of
    the plane together with the fixed one (viz.py 470-494, 537-561, 604-628) *)
Definition section_image (P : phc) (pt : R * R -> R * R * R) (g1 g2 : list R) : result (list (list R) * image) :=
  let* e := phc_get_eps P (map pt (meshgrid g1 g2)) in
  let* (l, r) := ends g1 in
  let* (b, t) := ends g2 in
  let m := rows (List.length g1) (List.length g2) e in
  Ok (m, Image m (l, r, b, t)).
(** eps_xy, viz.py 544-560; eps_xz, 476-493; eps_yz, 610-627: the returned array and
    the image that is shown with plot = True *)
Definition eps_xy (P : phc) (z : R) (Nx Ny : nat) : result (list (list R) * image) :=
  let* (xg, yg) := xy_grid (pc_lattice P) Nx Ny PerNone in
  section_image P (fun p => (fst p, snd p, z)) xg yg.
(** viz.py 476-493 *)
Definition eps_xz (P : phc) (y : R) (Nx Nz : nat) : result (list (list R) * image) :=
  let* (xg, _) := xy_grid (pc_lattice P) Nx 100 PerNone in
  let* zg := z_grid P Nz 1 in
  section_image P (fun p => (fst p, y, snd p)) xg zg.
(** viz.py 611-627 *)
Definition eps_yz (P : phc) (x : R) (Ny Nz : nat) : result (list (list R) * image) :=
  let* (_, yg) := xy_grid (pc_lattice P) 100 Ny PerNone in
  let* zg := z_grid P Nz 1 in
  section_image P (fun p => (x, fst p, snd p)) yg zg.

(** ** Panels: structure and eps_ft *)

(** the three texts of viz.py 846-853 *)
Inductive title := TLayer (i : nat) | TLower | TUpper.
(** ax[i].set_title(...), viz.py 846-853 *)
Definition set_title {A} (ts : list (option title * A)) (i : nat) (t : title) : list (option title * A) :=
  match nth_error ts i with Some (_, x) => PhcModel.set_nth i (Some t, x) ts | None => ts end.
(** viz.py 844-853 and 978-985: the titles after panel [indl] of [n] was added *)
Definition put_title {A} (cladding : bool) (n indl : nat) (ts : list (option title * A)) : list (option title * A) :=
  if cladding then
    if (0 <? indl)%nat && (indl <? n - 1)%nat then set_title ts indl (TLayer indl)
    else if (indl =? n - 1)%nat then set_title (set_title ts 0 TLower) (List.length ts - 1) TUpper
    else ts
  else set_title ts indl (TLayer indl).
(** the loop over the layers, viz.py 828-853; [draw] makes the picture of one layer *)
Fixpoint panels {A B} (draw : B -> result A) (cladding : bool) (n indl : nat) (ls : list B) (ts : list (option title * A)) : result (list (option title * A)) :=
  match ls with
  | [] => Ok ts
  | ly :: t => let* im := draw ly in panels draw cladding n (S indl) t (put_title cladding n indl (ts ++ [(None, im)]))
  end.
(** viz.py 743-746 *)
Definition shown_layers (P : phc) (cladding : bool) : list layer :=
  if cladding then pc_clad_l P :: pc_layers P ++ [pc_clad_u P] else pc_layers P.
(** structure(struct, xy=True) for a PhotCryst, viz.py 728-853; all_layers[0] of an
    empty list and z_grid of a crystal without layers raise IndexError *)
Definition structure_xy (P : phc) (Nx Ny : nat) (cladding : bool) : result (list (option title * image)) :=
  let ls := shown_layers P cladding in
  match ls with
  | [] => Raise IndexError
  | _ =>
      let* _ := z_grid P 2 1 in
      panels (fun ly => let* r := eps_xy P ((ly_zmax ly + ly_zmin ly) / 2) Nx Ny in Ok (snd r)) cladding (List.length ls) 0 ls []
  end.
(** eps_ft, viz.py 902-989.  [gs], [fg]: gridspec and fig are given; with both,
    the undefined name [ars] is read (948, 950).  [mid] is the z_mid of each layer,
    [get] the image of get_eps_xy at a height *)
Definition eps_ft {A} (is_pwe : bool) (get : R -> result A) (layers : list R) (clads : R * R) (pwe_mid : R) (cladding gs fg : bool) : result (list (option title * A)) :=
  let ls := if is_pwe then [pwe_mid] else if cladding then fst clads :: layers ++ [snd clads] else layers in
  match ls with
  | [] => Raise IndexError
  | _ =>
      if gs && fg then Raise NameError
      else if gs || fg then Raise ValueError
      else panels get cladding (List.length ls) 0 ls []
  end.

(** ** Mode profiles: field *)

(** viz.py 1198-1261, which plane is asked for *)
Inductive plane := PlXY | PlYZ | PlXZ.
(** viz.py 1198-1261 *)
Definition field_plane (is_pwe : bool) (x y z : option R) : result plane :=
  match x, y, z with
  | None, None, None => if is_pwe then Ok PlXY else Raise ValueError
  | None, None, Some _ => Ok PlXY
  | Some _, None, None => if is_pwe then Raise NotImplementedError else Ok PlYZ
  | None, Some _, None => if is_pwe then Raise NotImplementedError else Ok PlXZ
  | _, _, _ => Raise ValueError
  end.
(** a + b of two 1D arrays: equal lengths, or one of length 1 (viz.py 1218-1220) *)
Definition add1d (a b : list C) : result (list C) :=
  if (List.length a =? List.length b)%nat then Ok (zip_with Cplus a b)
  else match a, b with
       | [u], _ => Ok (map (Cplus u) b)
       | _, [v] => Ok (map (fun u => Cplus u v) a)
       | _, _ => Raise ValueError
       end.
(** f *= k, in place, of a 2D array given by its rows and a 1D array: each row must
    have the length of k unless k has length 1 (viz.py 1268) *)
Definition imul_row (k row : list C) : result (list C) :=
  match k with
  | [c] => Ok (map (fun v => Cmult v c) row)
  | _ => if (List.length row =? List.length k)%nat then Ok (zip_with Cmult row k) else Raise ValueError
  end.
(** f *= kenv, viz.py 1268 *)
Definition imul (f : list (list C)) (k : list C) : result (list (list C)) := mapM (imul_row k) f.
(** the array kenv, viz.py 1218-1220, 1238-1240 and 1257-1259: [c] is the fixed
    coordinate, [g1] and [g2] are the two 1D grids *)
Definition ramp (k : R) (g : list R) : list C := map (fun u => Cmult Ci (RtoC (u * k))) g.
(** viz.py 1218-1220, 1238-1240, 1257-1259 *)
Definition kenv (p : plane) (kx ky c : R) (g1 g2 : list R) : result (list C) :=
  match p with
  | PlXY => let* e := add1d (ramp kx g1) (ramp ky g2) in Ok (map cexp e)
  | PlYZ => Ok (map cexp (map (fun u => Cplus u (Cmult Ci (RtoC (c * kx)))) (ramp ky g1)))
  | PlXZ => Ok (map cexp (map (fun u => Cplus u (Cmult Ci (RtoC (c * ky)))) (ramp kx g1)))
  end.
(** viz.py 1276-1287: the array drawn for one component, with the colour limits.
    The maximum of an empty array raises ValueError. *)
Inductive part := PRe | PIm | PAbs.
(** the values of val accepted at viz.py 1276-1287 *)
Definition val_of (v : string) : option part :=
  if String.eqb (lower v) "re" then Some PRe else if String.eqb (lower v) "im" then Some PIm
  else if String.eqb (lower v) "abs" then Some PAbs else None.
(** np.real, np.imag, np.abs, viz.py 1277 and 1282 *)
Definition part_of (p : part) (z : C) : R := match p with PRe => fst z | PIm => snd z | PAbs => Cmod z end.
(** .max() of an array, viz.py 1279 and 1284 *)
Definition amax (l : list R) : result R := match l with [] => Raise ValueError | x :: t => Ok (fold_left Rmax t x) end.
(** viz.py 1276-1287 *)
Definition shown (v : string) (f : list (list C)) : result (list (list R) * (R * R)) :=
  match val_of v with
  | None => Raise ValueError
  | Some p =>
      let Z := map (map (part_of p)) f in
      let* m := amax (map (match p with PAbs => fun x => x | _ => Rabs end) (List.concat Z)) in
      Ok (Z, (match p with PAbs => 0 | _ => - m end, m))
  end.
(** the loop over the letters of [component]: the dictionary entry is multiplied in
    place, so a letter that occurs twice is multiplied twice (viz.py 1265-1268) *)
Fixpoint get_key (c : ascii) (d : list (ascii * list (list C))) : result (list (list C)) :=
  match d with
  | [] => Raise KeyError
  | (c', f) :: t => if Ascii.eqb c c' then Ok f else get_key c t
  end.
(** the entry fi[comp] multiplied in place, viz.py 1266-1268 *)
Fixpoint set_key (c : ascii) (f : list (list C)) (d : list (ascii * list (list C))) : list (ascii * list (list C)) :=
  match d with
  | [] => []
  | (c', f') :: t => if Ascii.eqb c c' then (c', f) :: t else (c', f') :: set_key c f t
  end.
(** the loop from viz.py 1265 on *)
Fixpoint comp_draws (periodic : bool) (k : list C) (val : string) (component : string) (fi : list (ascii * list (list C))) : result (list (list (list R) * (R * R))) :=
  match component with
  | EmptyString => Ok []
  | String c t =>
      let* f := get_key c fi in
      let* f := if periodic then Ok f else imul f k in
      let* s := shown val f in
      let* r := comp_draws periodic k val t (set_key c f fi) in
      Ok (s :: r)
  end.
(** field, viz.py 1182-1320; [fi] is the dictionary that get_field_xy/yz/xz returned
    with the grids [g1], [g2], the keys being lower-case letters *)
Definition viz_field (is_pwe : bool) (x y z : option R) (kx ky : R) (periodic : bool) (val component : string)
  (g1 g2 : list R) (fi : list (ascii * list (list C))) : result (list (list (list R) * (R * R))) :=
  let* p := field_plane is_pwe x y z in
  let c := match p, x, y with PlYZ, Some x, _ => x | PlXZ, _, Some y => y | _, _, _ => 0 end in
  let* k := if periodic then Ok [] else kenv p kx ky c g1 g2 in
  comp_draws periodic k val (lower component) fi.
(** wavef, viz.py 1351-1377: the array that is drawn, with the colour limits *)
Definition viz_wavef (val : string) (fi : list (list C)) : result (list (list R) * (R * R)) :=
  let v := lower val in
  if String.eqb v "re" || String.eqb v "im" then
    let Z := map (map (if String.eqb v "re" then fst else snd)) fi in
    let* m := amax (map Rabs (List.concat Z)) in Ok (Z, (- m, m))
  else if String.eqb v "abs2" then
    let Z := map (map (fun z => Cmod z ^ 2)) fi in
    let* m := amax (List.concat Z) in Ok (Z, (0, m))
  else Raise ValueError.

(** ** Band diagrams: bands *)

(** The argument: a GuidedModeExp after run (with kz_symmetry), a PlaneWaveExp
    after run, or anything else with kpoints and freqs. (viz.py 89-93) *)
Inductive bclass := BGme (kz : option string) | BPwe | BOther.
(** the plotting calls of bands, viz.py 89-206 *)
Inductive draw :=
| DMarkers (pts : list (R * R))                       (* ax.plot(..., 'o') *)
| DScatter (pts : list (R * R)) (col : option (list R)) (vmax : option R) (* ax.scatter, c = Q with LogNorm(vmax), or c = kz_symms *)
| DCone (lower : list (R * R)) (top : R).             (* fill_between(X0, lower, top) *)
(** viz.py 89-206.  [freqs], [freqs_im] are arrays of shape (Nk, numeig), the latter
    empty before run_im; [im_run] is what run_im stores.  A column-wise ax.plot is recorded
    row by row.  The axis limits are left out, except that the maxima they need
    must exist. *)
Definition markers (conv : R) (X freqs : list (list R)) : list (R * R) := combine (List.concat X) (map (Rmult conv) (List.concat freqs)).
(** viz.py 89-206 *)
Definition bands (cls : bclass) (P : phc) (ks : list (R * R)) (freqs freqs_im : list (list R)) (im_run : result (list (list R)))
  (q : bool) (Q_clip : R) (cone show_symmetry eV : bool) (a : option R) (k_units : bool) : result (list draw) :=
  let* conv := if eV then match a with None => Raise ValueError | Some a => let* r := from_freq_to_e false a in Ok (fst r) end else Ok 1 in
  let '(X0, X) := calculate_x ks (List.length (nth 0 freqs [])) k_units in
  let* vert := match cls with BGme kz => Ok kz | BPwe => Ok None | BOther => Raise UnboundLocalError end in
  let vl := match vert with None => None | Some s => Some (lower s) end in
  let plain := match vl with None => true | Some s => String.eqb s "odd" || String.eqb s "even" end in
  let both := match vl with None => false | Some s => String.eqb s "both" end in
  let pts := markers conv X freqs in
  let* ds :=
    if q then
      if plain || both then
        let* fim := match cls with BGme _ => match freqs_im with [] => im_run | _ => Ok freqs_im end | _ => Raise AttributeError end in
        let Q := zip_with calculate_Q (List.concat freqs) (List.concat fim) in
        let* Q_max := amax (filter (fun x => Rltb x Q_clip) Q) in
        Ok [DScatter pts (Some Q) (Some Q_max)]
      else Ok []
    else if plain then Ok [DMarkers pts]
    else if both then Ok [if show_symmetry then DScatter pts None None else DMarkers pts]
    else Ok [] in
  let* _ := if plain || both then amax (List.concat freqs) else Ok 0 in
  let* cs :=
    if cone then
      match cls with
      | BGme _ =>
          let LL := calculate_LL ks P conv in
          let* m := amax LL in
          let* f := amax (map (Rmult conv) (List.concat freqs)) in
          Ok [DCone (combine X0 LL) (Rmax (Rmax 100 m) f)]
      | _ => Raise AttributeError
      end
    else Ok [] in
  let* _ := amax X0 in
  Ok (ds ++ cs).
