(** Vocabulary for the properties of the drawings and of __repr__. *)
From Coq Require Import Ascii.
From Verif Require Import Py LatticeModel LatticeSpec CBase PhcModel PhcSpec PolModel MiscModel MiscSpec VizModel.
Open Scope R_scope.

Definition is_ellipse (s : vshape) : Prop := exists eps x y rx ry phi, s = VEllipse eps x y rx ry phi.

(** number n, colon, text *)
Fixpoint numbered (dec : nat -> string) (n : nat) (l : list string) : list string :=
  match l with [] => [] | x :: t => (dec n ++ ": " ++ x)%string :: numbered dec (S n) t end.
(** "label = number unit", separated by commas *)
Definition said (fs : list (string * string * string)) : string :=
  String.concat ", " (map (fun f => let '(l, v, u) := f in (l ++ " = " ++ v ++ u)%string) fs).
Definition bare (l v : string) : string * string * string := (l, v, ""%string).
(** what the text of a shape has to say: its class and its parameters *)
Definition shape_says (fixed : nat -> R -> string) (arr : list R -> string) (dec : nat -> string) (s : vshape) : option string :=
  let obj n fs := Some (n ++ "(" ++ said fs ++ ")")%string in
  let f2 := fixed 2%nat in let f4 := fixed 4%nat in
  match s with
  | VCircle eps x y r => obj "Circle" [bare "eps" (f2 eps); bare "x" (f4 x); bare "y" (f4 y); bare "r" (f4 r)]
  | VEllipse _ _ _ _ _ _ => None
  | VPoly eps p => obj "Poly" [bare "eps" (f2 eps); bare "x_edges" (arr (map fst p)); bare "y_edges" (arr (map snd p))]
  | VSquare eps x y a _ => obj "Square" [bare "eps" (f2 eps); bare "x_cent" (f4 x); bare "y_cent" (f4 y); bare "a" (f4 a)]
  | VHexagon eps x y a _ => obj "Hexagon" [bare "eps" (f2 eps); bare "x_cent" (f4 x); bare "y_cent" (f4 y); bare "a" (f4 a)]
  | VFourier eps x y n _ => obj "FourierShape" [bare "eps" (f2 eps); bare "x_cent" (f4 x); bare "y_cent" (f4 y); bare "npts" (dec n)]
  end%string.
Definition lattice_says (fixed : nat -> R -> string) (L : lattice) : string :=
  let v p := ("[" ++ fixed 4%nat (fst p) ++ ", " ++ fixed 4%nat (snd p) ++ "]")%string in
  ("Lattice(" ++ said [bare "a1" (v (lt_a1 L)); bare "a2" (v (lt_a2 L))] ++ ")")%string.
Definition well_says (fixed sci : nat -> R -> string) (str : R -> string) (q : qw) : string :=
  ("QuantumWellLayer(" ++ said [bare "z" (fixed 4%nat (qw_z q)); ("V_shapes", str (qw_V q), " eV"); ("a", fixed 1%nat (qw_a q * 10 ^ 9), " nm")] ++ ", " ++ nl ++
   "          " ++ said [("M", sci 2%nat (qw_M q), " kg"); ("E0", fixed 4%nat (qw_E0 q), " eV"); ("loss", sci 1%nat (qw_loss q), " eV")] ++ " )")%string.
(** the first line of a layer, two digits after the point *)
Definition layer_head (fixed : nat -> R -> string) (ly : vlayer) : string :=
  ("ShapesLayer(eps_b = " ++ fixed 2%nat (vl_epsb ly) ++ ", d = " ++ fixed 2%nat (vl_d ly))%string.
(** the number of the printed unit in SI units or eV *)
Definition unit_scale (u : string) : option R :=
  if String.eqb u "" then Some 1 else if String.eqb u "m" then Some 1 else if String.eqb u "kg" then Some 1
  else if String.eqb u "eV" then Some 1 else if String.eqb u "ueV" then Some (/ 10 ^ 6)
  else if String.eqb u "nm" then Some (/ 10 ^ 9) else None.
(** label l is printed with a number and unit that mean the quantity v *)
Definition prints (fs : list (string * R * string)) (l : string) (v : R) : Prop :=
  exists x u c, In (l, x, u) fs /\ unit_scale u = Some c /\ x * c = v.

(** The curve c is the outline of s moved by (u, v): for a circle, n points at equal
    angles all the way round; for a polygon its vertices. *)
Definition outlines (n : nat) (s : vshape) (o : R * R) (c : list (R * R)) : Prop :=
  match s with
  | VCircle _ x y r => List.length c = n /\
      forall j, (j < n)%nat ->
        nth_error c j = Some (x + fst o + r * cos (2 * PI * (INR j / INR (n - 1))), y + snd o + r * sin (2 * PI * (INR j / INR (n - 1))))
  | VEllipse _ _ _ _ _ _ => False
  | VPoly _ p | VSquare _ _ _ _ p | VHexagon _ _ _ _ p | VFourier _ _ _ _ p =>
      List.length c = List.length p /\ forall j q, nth_error p j = Some q -> nth_error c j = Some (fst q + fst o, snd q + snd o)
  end.
(** the shape itself and its neighbours along the two primitive vectors *)
Definition neighbours (L : lattice) (pad : bool) : list (R * R) :=
  let '(x1, y1) := lt_a1 L in let '(x2, y2) := lt_a2 L in
  (0, 0) :: if pad then [(x1, y1); (- x1, - y1); (x2, y2); (- x2, - y2)] else [].
(** p is on the boundary of some lattice translate of the circle *)
Definition on_image (L : lattice) (x y r : R) (p : R * R) : Prop :=
  exists n1 n2 : Z, Rsqr (fst p - (x + IZR n1 * fst (lt_a1 L) + IZR n2 * fst (lt_a2 L))) +
                    Rsqr (snd p - (y + IZR n1 * snd (lt_a1 L) + IZR n2 * snd (lt_a2 L))) = Rsqr r.
Definition in_window (ext : list R * list R) (p : R * R) : Prop :=
  exists x0 x1 y0 y1, ext = ([x0; x1], [y0; y1]) /\ x0 <= fst p <= x1 /\ y0 <= snd p <= y1.
Definition dist2 (p q : R * R) : R := Rsqr (fst p - fst q) + Rsqr (snd p - snd q).

(** The pixel (column i, row j) of an image of m rows and n columns covers the point
    (u, v): imshow divides the extent into n equal columns and m equal rows. *)
Definition pixel_has (im : image) (n m i j : nat) (u v : R) : Prop :=
  let '(l, r, b, t) := im_extent im in
  l + (r - l) * (INR i / INR n) <= u <= l + (r - l) * (INR (S i) / INR n) /\
  b + (t - b) * (INR j / INR m) <= v <= b + (t - b) * (INR (S j) / INR m).

Definition entry {A} (f : list (list A)) (j i : nat) : option A :=
  match nth_error f j with Some r => nth_error r i | None => None end.
(** e is the permittivity of the crystal at p: in the region at that height, the last
    shape that covers p wins over the background; images of a shape are looked for at least
    as far as p is from the origin, and for an orthogonal lattice whose shapes lie within
    a period at any distance. *)
Definition shows_eps (P : phc) (p : R * R * R) (e : R) : Prop :=
  let L := pc_lattice P in
  forall ly, In ly (pc_layers P ++ [pc_clad_l P; pc_clad_u P]) -> ly_zmin ly <= snd p < ly_zmax ly ->
  (exists N, sqrt (Rsqr (fst (fst p)) + Rsqr (snd (fst p))) <
       IZR N * Rmin (sqrt (Rsqr (fst (lt_a1 L)) + Rsqr (snd (lt_a1 L)))) (sqrt (Rsqr (fst (lt_a2 L)) + Rsqr (snd (lt_a2 L)))) /\
     last_wins (fun s => covers L N s (fst p)) (ly_epsb ly) (ly_shapes ly) e) /\
  (inner (lt_a1 L) (lt_a2 L) = 0 -> (forall s, In s (ly_shapes ly) -> within_one_period L s) ->
     last_wins (fun s => covers_any L s (fst p)) (ly_epsb ly) (ly_shapes ly) e).
(** The array and the picture of n columns and m rows show the crystal in the plane
    parametrised by [pt]: every pixel has the permittivity of a point it covers. *)
Definition shows_plane (P : phc) (pt : R * R -> R * R * R) (n m : nat) (a : list (list R)) (im : image) : Prop :=
  im_rows im = a /\ List.length a = m /\ Forall (fun r => List.length r = n) a /\
  forall i j, (i < n)%nat -> (j < m)%nat -> exists u v e,
    entry a j i = Some e /\ pixel_has im n m i j u v /\ shows_eps P (pt (u, v)) e.

(** The Bloch wave with periodic part u *)
Definition bloch (kx ky x y : R) (u : C) : C := Cmult u (expi (kx * x + ky * y)).

(** im shows the crystal at some height inside ly *)
Definition pictures (P : phc) (Nx Ny : nat) (ly : layer) (im : image) : Prop :=
  exists z a, ly_zmin ly <= z < ly_zmax ly /\ shows_plane P (fun p => (fst p, snd p, z)) Nx Ny a im.

(** The picture (Z, (lo, hi)) of the real part, imaginary part or modulus ([part]) of
    the values [f] (rows over g2, columns over g1), multiplied by the wave exp(i k.r) at the
    point [pos u v] of the plane; the colour scale lo..hi covers all values. *)
Definition real_part (p : part) (z : C) : R := match p with PRe => fst z | PIm => snd z | PAbs => sqrt (fst z * fst z + snd z * snd z) end.
Definition shows_wave (p : part) (kx ky : R) (pos : R -> R -> R * R) (g1 g2 : list R) (f : list (list C)) (pic : list (list R) * (R * R)) : Prop :=
  let '(Z, (lo, hi)) := pic in
  List.length Z = List.length f /\
  forall i j u v w, nth_error g1 i = Some u -> nth_error g2 j = Some v -> entry f j i = Some w ->
    exists e, entry Z j i = Some e /\ e = real_part p (bloch kx ky (fst (pos u v)) (snd (pos u v)) w) /\ lo <= e <= hi.
(** an array with a row for each v in g2 and a column for each u in g1 *)
Definition sampled {A} (g1 g2 : list R) (f : list (list A)) : Prop :=
  List.length f = List.length g2 /\ Forall (fun r => List.length r = List.length g1) f.
Definition val_name (p : part) : string := match p with PRe => "re" | PIm => "im" | PAbs => "abs" end.
Fixpoint letters (s : string) : list ascii := match s with EmptyString => [] | String c t => c :: letters t end.
(** the components asked for are different, and each is an array over the grid *)
Definition comps_ready (g1 g2 : list R) (comp : string) (fi : list (ascii * list (list C))) : Prop :=
  NoDup (letters comp) /\ forall c, In c (letters comp) -> exists f, get_key c fi = Ok f /\ sampled g1 g2 f.

(** ** Band diagrams *)
(** mode j at the i-th k-point at (X0_i, conv f_ij) *)
Definition placed (X0 : list R) (conv : R) (freqs : list (list R)) : list (R * R) :=
  flat_map (fun xr => map (fun f => (fst xr, conv * f)) (snd xr)) (combine X0 freqs).
Definition kz_known (kz : option string) : Prop :=
  match kz with None => True | Some s => lower s = "odd"%string \/ lower s = "even"%string \/ lower s = "both"%string end.
(** the unit of the axis *)
Definition axis_unit (eV : bool) (a : option R) (conv : R) : Prop :=
  if eV then exists a0 w, a = Some a0 /\ from_freq_to_e false a0 = Ok (conv, w) /\ 0 < conv else conv = 1.
(** the shaded region contains exactly the modes that radiate *)
Definition cone_is_lossy (P : phc) (ks : list (R * R)) (X0 : list R) (conv : R) (freqs : list (list R)) (lower : list (R * R)) (top : R) : Prop :=
  forall i j k f, nth_error ks i = Some k -> entry freqs i j = Some f -> 0 <= f ->
    exists x l, nth_error X0 i = Some x /\ nth_error lower i = Some (x, l) /\ (l <= conv * f <= top <-> radiates P k f).
(** markers of one colour, or coloured by the symmetry of the mode *)
Definition marked (kz : option string) (sym : bool) (pts : list (R * R)) (d : draw) : Prop :=
  d = if sym && match kz with Some s => String.eqb (lower s) "both" | None => false end then DScatter pts None None else DMarkers pts.
(** quality factors in the order of the markers *)
Fixpoint quality_row (ws gs : list R) : list R := match ws, gs with w :: ws, g :: gs => w / 2 / (g + 1 / 10 ^ 16) :: quality_row ws gs | _, _ => [] end.
Definition quality (freqs gim : list (list R)) : list R := quality_row (List.concat freqs) (List.concat gim).
(** the stored losses, or those that run_im computes now *)
Definition losses (fim : list (list R)) (ir : result (list (list R))) (gim : list (list R)) : Prop := (fim <> [] /\ gim = fim) \/ (fim = [] /\ ir = Ok gim).
