(** Model of the cross-section panels of legume/viz.py: structure with all its
    options, and reciprocal.  Conventions as in VizModel.v. *)
From Verif Require Import Py CBase LatticeModel PhcModel RecipModel ExcModel PweModel PolModel VizModel.
Open Scope R_scope.
Open Scope list_scope.

(** the object given to structure: a GuidedModeExp with its crystal, a PhotCryst, a
    HopfieldPol with the crystal of its gme and its exc_list, anything else (viz.py 728-740) *)
Inductive shown := DGme (P : phc) | DPhc (P : phc) | DPol (P : phc) (ws : list exc) | DOther.
(** the crystal and the heights of the wells to draw, viz.py 728-740 *)
Definition target (s : shown) : option (phc * list R) :=
  match s with
  | DGme P => Some (P, [])
  | DPhc P => Some (P, map qw_z (pc_qws P))
  | DPol P ws => Some (P, map ex_z ws)
  | DOther => None
  end.
(** titles: "xz at y = 0", "yz at x = 0", or that of a layer (viz.py 806, 824, 846-853) *)
Inductive ptitle := PTxz | PTyz | PTxy (t : option title).
(** a panel: its title, the image, the hlines (height, from, to) and the colour limits
    (viz.py 789-853) *)
Record panel := Panel { pn_title : ptitle; pn_im : image; pn_lines : list (R * (R * R)); pn_clim : R * R }.
(** structure, viz.py 672-853.  [gs], [fg]: gridspec and fig are given.  The lattice
    of all_layers[0] is that of the crystal.  A GridSpec without rows is a
    ValueError.  Sizes of the figure and colour bars are left out. *)
Definition structure (s : shown) (Nx Ny Nz : nat) (cladding gs fg xy xz yz : bool) : result (list panel) :=
  match target s with
  | None => Raise ValueError
  | Some (P, zs) =>
      let lim := get_eps_bounds P in
      let ls := shown_layers P cladding in
      match ls with
      | [] => Raise IndexError
      | _ =>
          let* (xb, yb) := xy_grid (pc_lattice P) 2 2 PerNone in
          let* _ := z_grid P 2 1 in
          if xorb gs fg then Raise ValueError
          else if negb (xy || xz || yz) then Raise ValueError
          else
            let wells b := map (fun z => (z, (nth 0 b 0, nth 1 b 0))) zs in
            let* p1 := if xz then let* r := eps_xz P 0 Nx Nz in Ok [Panel PTxz (snd r) (wells xb) lim] else Ok [] in
            let* p2 := if yz then let* r := eps_yz P 0 Ny Nz in Ok [Panel PTyz (snd r) (wells yb) lim] else Ok [] in
            let* p3 := if xy then
                let* ts := panels (fun ly => let* r := eps_xy P ((ly_zmax ly + ly_zmin ly) / 2) Nx Ny in Ok (snd r)) cladding (List.length ls) 0 ls [] in
                Ok (map (fun t => Panel (PTxy (fst t)) (snd t) [] lim) ts)
              else Ok [] in
            Ok (p1 ++ p2 ++ p3)
      end
  end.

(** the object given to reciprocal: an expansion with its plane waves, or a
    HopfieldPol, whose _gvec is set by run (viz.py 1111-1120, pol/pol.py 128-133, 288) *)
Inductive expansion := EGme (rc : recip) | EPwe (s : pwe) | EExc (s : exc) | EPol (gvec : option (list (R * R))).
(** a HopfieldPol after __init__, which sets no _gvec (pol/pol.py 16-61) *)
Definition new_pol (o : pol) : expansion := EPol None.
(** a HopfieldPol after run, which stores the gvec of its GuidedModeExp (pol/pol.py 288) *)
Definition ran_pol (rc : recip) : expansion := EPol (Some (rc_g rc)).
(** the markers of reciprocal, viz.py 1111-1120 *)
Definition reciprocal (e : expansion) : result (list (R * R)) :=
  match e with
  | EGme rc => Ok (rc_g rc)
  | EPwe s => Ok (rc_g (pw_rc s))
  | EExc s => Ok (rc_g (ex_rc s))
  | EPol (Some g) => Ok g
  | EPol None => Raise AttributeError
  end.
