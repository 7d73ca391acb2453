(** Model of the parts of legume/viz.py that draw a single layer (eps), the
    potential of a well (pot_ft) and the bands of polaritons (pol_bands), and of
    the three field sections of gme.py with their grids.  Conventions as in
    VizModel.v: the calls of matplotlib are recorded, everything else about
    figures is left out. *)
From Coq Require Import Ascii.
From Verif Require Import Py LatticeModel CBase PhcModel FieldsModel ExcModel PolModel MiscModel VizModel.
Open Scope R_scope.

(** eps, viz.py 395-426: the image of one layer.  [clim] is passed on to set_clim
    when it is given and not empty (_plot_eps, 355-372). *)
Definition viz_eps (L : lattice) (ly : layer) (Nx Ny : nat) : result image :=
  let* (xg, yg) := xy_grid L Nx Ny PerNone in
  let* e := layer_get_eps L ly (meshgrid xg yg) in
  let* (l, r) := ends xg in
  let* (b, t) := ends yg in
  Ok (Image (rows (List.length xg) (List.length yg) e) (l, r, b, t)).

(** pot_ft, viz.py 991-1108: the image and its colour limits.  [None] as structure:
    not an ExcitonSchroedEq.  [gs], [fg]: gridspec and fig are given; with both, the
    undefined name [ars] is read (1076, 1078).  The grid of 1050 only fixes the
    size of the figure. *)
Definition viz_pot_ft (s : option exc) (Nx Ny : nat) (gs fg : bool) : result (image * (R * R)) :=
  match s with
  | None => Raise ValueError
  | Some s =>
      let* _ := xy_grid (ex_lat s) 2 2 PerNone in
      if gs && fg then Raise NameError
      else if gs || fg then Raise ValueError
      else
        let* (rs, xg, yg) := get_pot_xy s Nx Ny in
        let* (l, r) := ends xg in
        let* (b, t) := ends yg in
        Ok (Image (map (map fst) rs) (l, r, b, t), (0, Rabs (ex_V s)))
  end.

(** the calls of pol_bands, viz.py 302-352 *)
Inductive pdraw :=
| PMarkers (pts : list (R * R))                                   (* ax.plot(..., 'o') *)
| PQuality (pts : list (R * R)) (col : list R) (vmin vmax : R)    (* ax.scatter, LogNorm *)
| PFraction (pts : list (R * R)) (col : list R) (vmin vmax : R)   (* ax.scatter, linear scale *)
| PCone (lower : list (R * R)) (top : R)                          (* fill_between(X0, lower, top) *)
| PLimits (right top : R).                                        (* set_xlim(0, right), set_ylim(0, top) *)
(** pol_bands, viz.py 229-352.  [eners] is [None] before run: an empty list has no
    shape.  [a] is pol.a, [P] is pol.gme.phc; scatter flattens the colours. *)
Definition pol_bands (P : phc) (a : R) (ks : list (R * R)) (eners : option (list (list R))) (eners_im fractions_ex : list (list R))
  (q fraction : bool) (Q_clip : R) (cone : bool) (Q_min Q_max : R) (k_units : bool) : result (list pdraw) :=
  match eners with
  | None => Raise AttributeError
  | Some en =>
      let '(X0, X) := calculate_x ks (List.length (nth 0 en [])) k_units in
      let pts := combine (List.concat X) (List.concat en) in
      let d :=
        if q && negb fraction then PQuality pts (zip_with calculate_Q (List.concat en) (List.concat eners_im)) Q_min Q_max
        else if fraction then PFraction pts (List.concat fractions_ex) 0 1
        else PMarkers pts in
      let* cs :=
        if cone then
          let* r := from_freq_to_e true a in
          let LL := calculate_LL ks P (fst r) in
          let* m := amax LL in
          let* e := amax (List.concat en) in
          Ok [PCone (combine X0 LL) (Rmax (Rmax 100 m) e)]
        else Ok [] in
      let* x := amax X0 in
      let* e := amax (List.concat en) in
      Ok (d :: cs ++ [PLimits x e])
  end.

(** ** Field sections with their grids *)

(** get_field_xy, gme.py 2173-2194: a grid that is not given is that of the cell *)
Definition grid_or (g : option (list R)) (d : list R) : list R := match g with Some g => g | None => d end.
(** gme.py 2126-2194; [ft] is ft_field_xy at the height z *)
Definition field_xy_on (P : phc) (ft : string -> R -> option vec3) (gvec : list (R * R)) (z : R) (xgrid ygrid : option (list R)) (Nx Ny : nat)
  (field component : string) : result (list (ascii * list C) * list R * list R) :=
  let* (xg, yg) := match xgrid, ygrid with
                   | Some x, Some y => Ok (x, y)
                   | _, _ => let* (xgr, ygr) := xy_grid (pc_lattice P) Nx Ny PerNone in Ok (grid_or xgrid xgr, grid_or ygrid ygr)
                   end in
  let* fi := get_field_xy (fun f => ft f z) gvec (meshgrid xg yg) field component in
  Ok (fi, xg, yg).
(** z_grid or the given one, gme.py 2247-2248 and 2325-2326 *)
Definition zgrid_or (P : phc) (g : option (list R)) (Nz : nat) (dst : R) : result (list R) :=
  match g with Some g => Ok g | None => z_grid P Nz dst end.
(** get_field_xz, gme.py 2196-2272 *)
Definition field_xz_on (P : phc) (ft : string -> R -> option vec3) (gvec : list (R * R)) (y : R) (xgrid zgrid : option (list R)) (Nx Nz : nat) (dst : R)
  (field component : string) : result (list (ascii * list (list C)) * list R * list R) :=
  let* xg := match xgrid with Some x => Ok x | None => let* r := xy_grid (pc_lattice P) Nx 2 PerNone in Ok (fst r) end in
  let* zg := zgrid_or P zgrid Nz dst in
  let* fi := get_field_z ft gvec (map (fun x => (x, y)) xg) zg field component in
  Ok (fi, xg, zg).
(** get_field_yz, gme.py 2274-2350 *)
Definition field_yz_on (P : phc) (ft : string -> R -> option vec3) (gvec : list (R * R)) (x : R) (ygrid zgrid : option (list R)) (Ny Nz : nat) (dst : R)
  (field component : string) : result (list (ascii * list (list C)) * list R * list R) :=
  let* yg := match ygrid with Some y => Ok y | None => let* r := xy_grid (pc_lattice P) 2 Ny PerNone in Ok (snd r) end in
  let* zg := zgrid_or P zgrid Nz dst in
  let* fi := get_field_z ft gvec (map (fun y => (x, y)) yg) zg field component in
  Ok (fi, yg, zg).
