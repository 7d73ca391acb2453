(** Model of the field and permittivity reconstruction of legume/gme/gme.py
    (get_eps_xy 1859-1912, ft_field_xy 1914-2124, get_field_xy/xz/yz 2126-2350)
    and of utils.py ftinv, extend.  The guided modes of the k-point are the list
    of (mode number, interpolated mode) that _get_guided returns for
    gmode_include; the eigenvector is a function of the basis index, long enough
    for all modes; omega is freqs * 2 pi. *)
From Coq Require Import Ascii.
From Verif Require Import Py CBase LatticeModel PhcModel RecipModel SlabModel MatElModel.
Open Scope R_scope.
Open Scope C_scope.

(** utils.extend, utils.py 229-234: z = zeros; z[inds] = vals, entry n of the
    result (a later assignment to the same index wins) *)
Definition extend (vals : nat -> C) (inds : list nat) (n : nat) : C :=
  fold_left (fun acc r => if Nat.eqb (nth r inds 0%nat) n then vals r else acc) (seq 0 (List.length inds)) 0.

(** z_cent, gme.py 1994-1995 (repeated at 2021, 2068, 2095) *)
Definition z_cent (P : phc) (lind : nat) : R :=
  match nth_error (pc_layers P) (lind - 1) with
  | Some ly => ((ly_zmin ly + ly_zmax ly) / 2)%R
  | None => 0%R
  end.

Section Basis.
Variables (P : phc) (eps : list R) (d : gkdata) (omega : R).
(** px = qy.., gme.py 1952-1963: unit vectors of MatElModel *)
Let px := pkx d.
Let py := pky d.
Let qx := pky d.
Let qy (n : nat) : R := (- pkx d n)%R.
Let N := List.length eps.

(** the H components of plane wave number i of mode m at height z in layer lind,
    gme.py 1976-2027 *)
Definition basis_H (m : nat * gmode) (i lind : nat) (z : R) : C * C * C :=
  let g := md_g (snd m) i in
  let As il := md_A (snd m) il i in
  let Bs il := md_B (snd m) il i in
  let chis il := md_chi (snd m) il i in
  if Nat.even (fst m) then
    if Nat.eqb lind 0 then
      let H := Bs 0%nat * cexp (- Ci * chis 0%nat * RtoC (z - ly_zmax (pc_clad_l P))) in
      (H * Ci * chis 0%nat * RtoC (px g), H * Ci * chis 0%nat * RtoC (py g), H * Ci * RtoC (gk_len d g))
    else if Nat.eqb lind (N - 1)%nat then
      let l := (N - 1)%nat in
      let H := As l * cexp (Ci * chis l * RtoC (z - ly_zmin (pc_clad_u P))) in
      (- H * Ci * chis l * RtoC (px g), - H * Ci * chis l * RtoC (py g), H * Ci * RtoC (gk_len d g))
    else
      let zc := z_cent P lind in
      let zp := cexp (Ci * chis lind * RtoC (z - zc)) in
      let zn := cexp (- Ci * chis lind * RtoC (z - zc)) in
      let Hxy := - Ci * As lind * zp + Ci * Bs lind * zn in
      (Hxy * chis lind * RtoC (px g), Hxy * chis lind * RtoC (py g),
       Ci * (As lind * zp + Bs lind * zn) * RtoC (gk_len d g))
  else
    if Nat.eqb lind 0 then
      let H := Bs 0%nat * cexp (- Ci * chis 0%nat * RtoC (z - ly_zmax (pc_clad_l P))) in
      (H * RtoC (qx g), H * RtoC (qy g), RtoC 0)
    else if Nat.eqb lind (N - 1)%nat then
      let l := (N - 1)%nat in
      let H := As l * cexp (Ci * chis l * RtoC (z - ly_zmin (pc_clad_u P))) in
      (H * RtoC (qx g), H * RtoC (qy g), RtoC 0)
    else
      let zc := z_cent P lind in
      let zp := cexp (Ci * chis lind * RtoC (z - zc)) in
      let zn := cexp (- Ci * chis lind * RtoC (z - zc)) in
      let Hxy := As lind * zp + Bs lind * zn in
      (Hxy * RtoC (qx g), Hxy * RtoC (qy g), RtoC 0).

(** the D components, gme.py 2051-2104 *)
Definition basis_D (m : nat * gmode) (i lind : nat) (z : R) : C * C * C :=
  let g := md_g (snd m) i in
  let As il := md_A (snd m) il i in
  let Bs il := md_B (snd m) il i in
  let chis il := md_chi (snd m) il i in
  let om := md_om (snd m) i in
  let e il := nth il eps 0%R in
  if Nat.even (fst m) then
    if Nat.eqb lind 0 then
      let D := Ci * Bs 0%nat * RtoC (om * om) / RtoC omega * RtoC (e 0%nat)
               * cexp (- Ci * chis 0%nat * RtoC (z - ly_zmax (pc_clad_l P))) in
      (D * RtoC (qx g), D * RtoC (qy g), RtoC 0)
    else if Nat.eqb lind (N - 1)%nat then
      let l := (N - 1)%nat in
      let D := Ci * As l * RtoC (om * om) / RtoC omega * RtoC (e l)
               * cexp (Ci * chis l * RtoC (z - ly_zmin (pc_clad_u P))) in
      (D * RtoC (qx g), D * RtoC (qy g), RtoC 0)
    else
      let zc := z_cent P lind in
      let zp := cexp (Ci * chis lind * RtoC (z - zc)) in
      let zn := cexp (- Ci * chis lind * RtoC (z - zc)) in
      let Dxy := Ci * RtoC (om * om) / RtoC omega * RtoC (e lind) * (As lind * zp + Bs lind * zn) in
      (Dxy * RtoC (qx g), Dxy * RtoC (qy g), RtoC 0)
  else
    if Nat.eqb lind 0 then
      let D := Ci / RtoC omega * Bs 0%nat * cexp (- Ci * chis 0%nat * RtoC (z - ly_zmax (pc_clad_l P))) in
      (D * Ci * chis 0%nat * RtoC (px g), D * Ci * chis 0%nat * RtoC (py g), D * Ci * RtoC (gk_len d g))
    else if Nat.eqb lind (N - 1)%nat then
      let l := (N - 1)%nat in
      let D := Ci / RtoC omega * As l * cexp (Ci * chis l * RtoC (z - ly_zmin (pc_clad_u P))) in
      (- D * Ci * chis l * RtoC (px g), - D * Ci * chis l * RtoC (py g), D * Ci * RtoC (gk_len d g))
    else
      let zc := z_cent P lind in
      let zp := cexp (Ci * chis lind * RtoC (z - zc)) in
      let zn := cexp (- Ci * chis lind * RtoC (z - zc)) in
      let Dxy := RtoC 1 / RtoC omega * chis lind * (As lind * zp - Bs lind * zn) in
      (Dxy * RtoC (px g), Dxy * RtoC (py g),
       - RtoC 1 / RtoC omega * RtoC (gk_len d g) * (As lind * zp + Bs lind * zn)).
End Basis.

(** the accumulation over the modes, gme.py 2029-2038 (same at 2106-2115), for
    one component: acc + extend(evec[count:count+n] * val / sqrt(ec_area)) *)
Fixpoint ft_modes (val : nat * gmode -> nat -> C) (evec : nat -> C) (area : R)
  (count : nat) (ms : list (nat * gmode)) (acc : nat -> C) : nat -> C :=
  match ms with
  | [] => acc
  | m :: t =>
    ft_modes val evec area (count + md_size (snd m))%nat t
      (fun n => acc n + extend (fun r => evec (count + r)%nat * val m r / RtoC (sqrt area)) (md_ind (snd m)) n)
  end.

(** the x entry of a triple returned by ft_field_xy (gme.py 2040, 2118, 2124) *)
Definition cx (v : C * C * C) : C := fst (fst v).
(** the y entry, as above (gme/gme.py 2022-2110) *)
Definition cy (v : C * C * C) : C := snd (fst v).
(** the z entry, as above (gme/gme.py 2022-2110) *)
Definition cz (v : C * C * C) : C := snd v.

(** the three arrays Hx_ft, Hy_ft, Hz_ft of gme.py 1969-1970 (2044-2045 for D) *)
Definition vec3 : Type := ((nat -> C) * (nat -> C) * (nat -> C))%type.

(** ft_field_xy, gme.py 1914-2124; Python's implicit None for an unknown field
    name is [None] *)
Definition ft_field_xy (P : phc) (eps : list R) (d : gkdata) (ng : nat) (einv : nat -> cmat) (ms : list (nat * gmode))
  (evec : nat -> C) (omega : R) (field : string) (z : R) : option vec3 :=
  let lind := z_to_lind P z in
  let acc (val : nat * gmode -> nat -> C * C * C) (pr : C * C * C -> C) :=
    ft_modes (fun m i => pr (val m i)) evec (lt_ec_area (pc_lattice P)) 0 ms (fun _ => RtoC 0) in
  if String.eqb (lower field) "h" then
    let v m i := basis_H P eps d m i lind z in
    Some (acc v cx, acc v cy, acc v cz)
  else if String.eqb (lower field) "d" || String.eqb (lower field) "e" then
    let v m i := basis_D P eps d omega m i lind z in
    if String.eqb (lower field) "d" then Some (acc v cx, acc v cy, acc v cz)
    else
      let dot f := mvec ng (einv lind) f in
      Some (dot (acc v cx), dot (acc v cy), dot (acc v cz))
  else None.

(** ** back to real space (utils.py 25) *)

Definition pair_eqb (u v : R * R) : bool := Reqb (fst u) (fst v) && Reqb (snd u) (snd v).

(** the entries of np.unique(gvec, return_index=True, axis=1): first occurrences
    (numpy lists them in lexicographic order; only a sum over them is formed) (utils.py 25) *)
Fixpoint first_occ (seen l : list (R * R)) (i : nat) : list nat :=
  match l with
  | [] => []
  | g :: t => if existsb (pair_eqb g) seen then first_occ seen t (S i) else i :: first_occ (g :: seen) t (S i)
  end.

(** ftinv at one point of the mesh, utils.py 13-51 *)
Definition ftinv (ft : nat -> C) (gvec : list (R * R)) (x y : R) : C :=
  fold_left (fun acc i => acc + ft i * cexp (Ci * RtoC (fst (nth i gvec (0, 0)%R)) * RtoC x + Ci * RtoC (snd (nth i gvec (0, 0)%R)) * RtoC y))
            (first_occ [] gvec 0) 0.

(** get_eps_xy with truncate_g = 'tbt' at one point, gme.py 1900-1905 and
    pwe.py 224-231; T1 and T2 are those of the layer *)
Definition neg_g (g : R * R) : R * R := (- fst g, - snd g)%R.
(** gme.py 1900-1905 and pwe.py 224-231: the coefficients and vectors handed to ftinv *)
Definition get_eps_tbt (T1 T2 : list C) (G1 G2 : list (R * R)) (x y : R) : C :=
  let coeffs := (T1 ++ T2 ++ map Cconj T1 ++ map Cconj T2)%list in
  let gvec := (G1 ++ G2 ++ map neg_g G1 ++ map neg_g G2)%list in
  ftinv (fun i => nth i coeffs 0) gvec x y.
(** with truncate_g = 'abs', gme.py 1907-1910 *)
Definition get_eps_abs (T1u : list C) (G1u : list (R * R)) (x y : R) : C :=
  ftinv (fun i => nth i T1u 0) G1u x y.

(** the component loop of get_field_xy/xz/yz, gme.py 2183-2192, 2259-2270, 2337-2348 and pwe.py 358-367: [ft] holds the dictionary entries 'x', 'y',
    'z', [one] turns an entry into the output array *)
Section Get.
Variables T A : Type.
Variable one : T -> A.
(** ft[comp], the dictionary of gme.py 2183 (2251, 2329; pwe.py 358) *)
Definition comp_of (ft : T * T * T) (c : Ascii.ascii) : option T :=
  if Ascii.eqb c "x"%char then Some (fst (fst ft))
  else if Ascii.eqb c "y"%char then Some (snd (fst ft))
  else if Ascii.eqb c "z"%char then Some (snd ft)
  else None.
(** comp in fi.keys(), gme.py 2186 (2261, 2339) *)
Definition has_key (c : Ascii.ascii) (fi : list (Ascii.ascii * A)) : bool := existsb (fun p => Ascii.eqb c (fst p)) fi.
(** the loop, gme.py 2185-2192 (2259-2270, 2337-2348) *)
Fixpoint comp_loop (ft : T * T * T) (component : string) (fi : list (Ascii.ascii * A)) : result (list (Ascii.ascii * A)) :=
  match component with
  | EmptyString => Ok fi
  | String c t =>
    match comp_of ft c with
    | Some f => comp_loop ft t (if has_key c fi then fi else (fi ++ [(c, one f)])%list)
    | None => Raise ValueError
    end
  end.
End Get.

(** unpacking what ft_field_xy returned: None is a TypeError (gme/gme.py 2184, 2254, 2332) *)
Definition unpack (ft : option vec3) : result vec3 := match ft with None => Raise TypeError | Some v => Ok v end.
(** get_field_xy on the mesh points [mesh] (gme/gme.py 2126-2194) *)
Definition get_field_xy (ft : string -> option vec3) (gvec : list (R * R)) (mesh : list (R * R))
  (field component : string) : result (list (Ascii.ascii * list C)) :=
  let* v := unpack (ft field) in
  comp_loop (nat -> C) (list C) (fun f => map (fun p => ftinv f gvec (fst p) (snd p)) mesh) v component [].
(** get_field_xz and get_field_yz: [line] are the in-plane points of one row (gme/gme.py 2196-2350) *)
Definition get_field_z (ft : string -> R -> option vec3) (gvec : list (R * R)) (line : list (R * R)) (zgrid : list R)
  (field component : string) : result (list (Ascii.ascii * list (list C))) :=
  let* vs := mapM (fun z => unpack (ft field z)) zgrid in
  comp_loop (list (nat -> C)) (list (list C)) (map (fun f => map (fun p => ftinv f gvec (fst p) (snd p)) line))
    (map (fun v => fst (fst v)) vs, map (fun v => snd (fst v)) vs, map snd vs) component [].
