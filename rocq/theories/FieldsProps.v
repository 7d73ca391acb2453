(** Properties C37, C52, C75, C78 and C110: reconstructed fields and permittivity. *)
From Coq Require Import Ascii.
From Verif Require Import Py CBase LatticeModel LatticeSpec PhcModel PhcSpec RecipModel RecipSpec SlabSpec SlabModel MatElModel MatElSpec MatElProofs3 FieldsSpec FieldsModel FieldsProofs FieldsProofs2 FieldsProofs3 FieldsProofs4 FieldsProofs5.
Open Scope R_scope.

(** C37.  At every height off the interfaces, for every plane wave with non-zero
    G + k, the fields of any superposition of guided modes obey Maxwell's
    equations. *)
Theorem C37_fields_obey_maxwell P eps gvec k dgx garr te tm einv ms evec omega n z :
  omega <> 0 ->
  let d := gk_data gvec k dgx in
  gk_x d n * gk_x d n + gk_y d n * gk_y d n <> 0 ->
  Forall (fun x => get_guided (List.length gvec) (gk_len d) garr te tm eps (fst x) = Ok (snd x)) ms ->
  z <> ly_zmax (pc_clad_l P) -> Forall (fun ly => z <> ly_zmax ly) (pc_layers P) ->
  exists Hx Hy Hz Dx Dy Dz,
    (forall t, ft_field_xy P eps d (List.length gvec) einv ms evec omega "H" t = Some (Hx t, Hy t, Hz t)) /\
    (forall t, ft_field_xy P eps d (List.length gvec) einv ms evec omega "D" t = Some (Dx t, Dy t, Dz t)) /\
    maxwell (gk_x d n) (gk_y d n) omega (fun t => Hx t n) (fun t => Hy t n) (fun t => Hz t n)
      (fun t => Dx t n) (fun t => Dy t n) (fun t => Dz t n) z.
Proof. exact (field_maxwell P eps gvec k dgx garr te tm einv ms evec omega n z). Qed.
Print Assumptions C37_fields_obey_maxwell.
(** ... and for a single basis function in layer lind the curl of H is the field
    whose overlaps are the matrix elements (C77); z is measured from the
    reference point of the layer, and in a cladding only the decaying wave is
    used. *)
Theorem C37_basis_curl P eps d m i lind :
  let g := md_g (snd m) i in
  let c := md_chi (snd m) lind i in let om := md_om (snd m) i in let e := nth lind eps 0 in
  gk_len d g = sqrt (gk_x d g * gk_x d g + gk_y d g * gk_y d g) ->
  gk_x d g * gk_x d g + gk_y d g * gk_y d g <> 0 ->
  Cmult c c = RtoC (e * (om * om) - gk_len d g * gk_len d g) ->
  exists A B zc,
    (lind <> 0%nat -> lind <> (List.length eps - 1)%nat -> A = md_A (snd m) lind i /\ B = md_B (snd m) lind i /\ zc = z_cent P lind) /\
    (lind = 0%nat -> A = RtoC 0 /\ B = md_B (snd m) lind i /\ zc = ly_zmax (pc_clad_l P)) /\
    (lind <> 0%nat -> lind = (List.length eps - 1)%nat -> A = md_A (snd m) lind i /\ B = RtoC 0 /\ zc = ly_zmin (pc_clad_u P)) /\
    forall z, is_curl (gk_x d g) (gk_y d g) (fun t => cx (basis_H P eps d m i lind t)) (fun t => cy (basis_H P eps d m i lind t))
      (fun t => cz (basis_H P eps d m i lind t)) z
      (curl_field (Nat.even (fst m)) (gk_x d g) (gk_y d g) om e c A B (z - zc)).
Proof. exact (basis_curl P eps d m i lind). Qed.
Print Assumptions C37_basis_curl.
Example C37_example : exists P g, z_to_lind P (1/4) = 1%nat /\
  get_guided 1 (gk_len (gk_data [(2, 0)] (0, 1) 0)) [1; 2] ex_te ex_tm [1; 12; 1] 0 = Ok g /\ md_ind g = [0%nat] /\
  1/4 <> ly_zmax (pc_clad_l P) /\ Forall (fun ly => 1/4 <> ly_zmax ly) (pc_layers P).
Proof. exact fields_ex. Qed.

(** C52.  Full statement: the value is exactly the Fourier series of the layer
    over all differences of two plane waves, each counted once, and is real.
    Missing: the code drops imaginary parts below 1e-10 of the largest real part
    separately in two lists, so a coefficient may be replaced by its real part;
    the value is within (number of terms) * 1e-10 * max|Re| of the exact series,
    which is real, and equal to it for real transforms. *)
Theorem C52_eps_series_partial args L gmax ft x y :
  lattice_init args = Ok L -> independent (lt_a1 L) (lt_a2 L) -> 0 <= gmax -> conj_symmetric ft ->
  let rc := recip_tbt L gmax in let gs := rc_g rc in
  let v := get_eps_tbt (T1_tbt ft rc) (T2_tbt ft rc) (G1_of gs) (G2_of gs (Z.to_nat (rc_n1 rc)) (Z.to_nat (rc_n2 rc))) x y in
  exists terms, v = series terms x y /\ NoDup (map snd terms) /\
    (forall D, In D (map snd terms) <-> exists g g', In g gs /\ In g' gs /\ D = diff g g') /\
    Forall (fun t => fst t = ft (snd t) \/
      (fst t = RtoC (fst (ft (snd t))) /\ exists g g', In g gs /\ In g' gs /\ Rabs (snd (ft (snd t))) < 1 / 10 ^ 10 * Rabs (fst (ft (diff g g'))))) terms /\
    let ex := series (map (fun t => (ft (snd t), snd t)) terms) x y in
    snd ex = 0 /\
    (forall M, (forall g g', In g gs -> In g' gs -> Rabs (fst (ft (diff g g'))) <= M) ->
       Cmod (v - ex)%C <= INR (List.length terms) * (1 / 10 ^ 10 * M)) /\
    ((forall g g', In g gs -> In g' gs -> snd (ft (diff g g')) = 0) -> v = ex).
Proof. exact (eps_map args L gmax ft x y). Qed.
Print Assumptions C52_eps_series_partial.
Example C52_example : exists L, lattice_init (LatName "hexagonal") = Ok L /\ independent (lt_a1 L) (lt_a2 L) /\
  conj_symmetric (fun g => (1, fst g)).
Proof. exact hex_ex. Qed.

(** ... and the full statement is false for 'tbt': with a relative imaginary part
    of 1e-11 the value is not that of the series, however it is enumerated. *)
Theorem C52_dropped_refuted : exists L ft x y, lattice_init (LatName "square") = Ok L /\ conj_symmetric ft /\
  let rc := recip_tbt L 1 in let gs := rc_g rc in
  let v := get_eps_tbt (T1_tbt ft rc) (T2_tbt ft rc) (G1_of gs) (G2_of gs (Z.to_nat (rc_n1 rc)) (Z.to_nat (rc_n2 rc))) x y in
  forall Ds, NoDup Ds -> (forall D, In D Ds <-> exists g g', In g gs /\ In g' gs /\ D = diff g g') ->
  v <> series (map (fun D => (ft D, D)) Ds) x y.
Proof. exact dropped. Qed.
Print Assumptions C52_dropped_refuted.
(** For truncate_g = 'abs' the statement holds exactly. *)
Theorem C52_abs args L gmax fuel rc ft x y : lattice_init args = Ok L -> independent (lt_a1 L) (lt_a2 L) -> 0 <= gmax ->
  conj_symmetric ft -> recip_abs fuel L gmax = Some (Ok rc) ->
  exists Ds, NoDup Ds /\ (forall D, In D Ds <-> exists g g', In g (rc_g rc) /\ In g' (rc_g rc) /\ D = diff g g') /\
    get_eps_abs (T1_unique L ft rc) (G1_unique L rc) x y = series (map (fun D => (ft D, D)) Ds) x y /\
    snd (series (map (fun D => (ft D, D)) Ds) x y) = 0.
Proof. exact (abs_map args L gmax fuel rc ft x y). Qed.
Print Assumptions C52_abs.
Example C52_abs_example : exists L fuel rc, lattice_init (LatName "square") = Ok L /\ independent (lt_a1 L) (lt_a2 L) /\
  recip_abs fuel L (3 / 2) = Some (Ok rc) /\ rc_g rc <> [] /\ conj_symmetric (fun g => (1, fst g)).
Proof. exact abs_case. Qed.

(** C75.  Full statement: also a wrong field name raises ValueError, before
    anything is computed.  False: ft_field_xy returns None and unpacking it is a
    TypeError. *)
Theorem C75_field_name_refuted : exists field, forall P eps d ng einv ms evec omega z gvec mesh component,
  get_field_xy (fun f => ft_field_xy P eps d ng einv ms evec omega f z) gvec mesh field component = Raise TypeError.
Proof. exact bad_field. Qed.
Print Assumptions C75_field_name_refuted.
(** For the allowed field names the components are selected as stated: *)
Theorem C75_components_partial field P eps d ng einv ms evec omega z gvec mesh component :
  lower field = "h"%string \/ lower field = "d"%string \/ lower field = "e"%string ->
  exists Fx Fy Fz, ft_field_xy P eps d ng einv ms evec omega field z = Some (Fx, Fy, Fz) /\
  let res := get_field_xy (fun f => ft_field_xy P eps d ng einv ms evec omega f z) gvec mesh field component in
  ((forall c, letter c component -> c = "x"%char \/ c = "y"%char \/ c = "z"%char) ->
    exists fi, res = Ok fi /\ NoDup (map fst fi) /\ (forall c, In c (map fst fi) <-> letter c component) /\
      forall c a, In (c, a) fi -> exists F, ((c = "x"%char /\ F = Fx) \/ (c = "y"%char /\ F = Fy) \/ (c = "z"%char /\ F = Fz)) /\
        a = map (fun p => ftinv F gvec (fst p) (snd p)) mesh) /\
  ((exists c, letter c component /\ ~ (c = "x"%char \/ c = "y"%char \/ c = "z"%char)) -> res = Raise ValueError).
Proof. exact (comps_xy field P eps d ng einv ms evec omega z gvec mesh component). Qed.
Print Assumptions C75_components_partial.
(** the same for the vertical cross-sections *)
Theorem C75_components_z_partial field P eps d ng einv ms evec omega zgrid gvec line component :
  lower field = "h"%string \/ lower field = "d"%string \/ lower field = "e"%string ->
  let F := fun f z => ft_field_xy P eps d ng einv ms evec omega f z in
  exists Fx Fy Fz, (forall z, F field z = Some (Fx z, Fy z, Fz z)) /\
  let res := get_field_z F gvec line zgrid field component in
  ((forall c, letter c component -> c = "x"%char \/ c = "y"%char \/ c = "z"%char) ->
    exists fi, res = Ok fi /\ NoDup (map fst fi) /\ (forall c, In c (map fst fi) <-> letter c component) /\
      forall c a, In (c, a) fi -> exists F, ((c = "x"%char /\ F = Fx) \/ (c = "y"%char /\ F = Fy) \/ (c = "z"%char /\ F = Fz)) /\
        a = map (fun z => map (fun p => ftinv (F z) gvec (fst p) (snd p)) line) zgrid) /\
  ((exists c, letter c component /\ ~ (c = "x"%char \/ c = "y"%char \/ c = "z"%char)) -> res = Raise ValueError).
Proof. exact (comps_z field P eps d ng einv ms evec omega zgrid gvec line component). Qed.
Print Assumptions C75_components_z_partial.
Example C75_example : lower "E" = "e"%string /\ letter "z" "zxz" /\ ~ letter "y" "zxz".
Proof. simpl. repeat split; auto. intros [H|[H|[H|[]]]]; discriminate. Qed.

(** C78.  The E field times the permittivity is the D field, whenever the stored
    matrix is the inverse of the layer's permittivity matrix A. *)
Theorem C78_E_is_D_over_eps P eps d ng einv ms evec omega z A : is_inverse ng A (einv (z_to_lind P z)) ->
  exists Dx Dy Dz Ex Ey Ez,
    ft_field_xy P eps d ng einv ms evec omega "D" z = Some (Dx, Dy, Dz) /\
    ft_field_xy P eps d ng einv ms evec omega "E" z = Some (Ex, Ey, Ez) /\
    forall n, (n < ng)%nat -> mvec ng A Ex n = Dx n /\ mvec ng A Ey n = Dy n /\ mvec ng A Ez n = Dz n.
Proof. exact (E_field P eps d ng einv ms evec omega z A). Qed.
Print Assumptions C78_E_is_D_over_eps.
Example C78_example : is_inverse 2 (fun i j => if Nat.eqb i j then RtoC 2 else RtoC 0) (fun i j => if Nat.eqb i j then RtoC (/ 2) else RtoC 0).
Proof.
  split; intros [|[|i]] [|[|j]] Hi Hj; try lia;
    unfold mmul, mid; simpl; apply Ceq; simpl; lra.
Qed.

(** C110.  Where two layers meet, a basis function whose amplitudes match there
    (C34) gives the same H, the same normal D and the same tangential D / eps in
    both layers.  The interfaces are at the sums of the thicknesses of the layers
    added so far. *)
Theorem C110_continuous L eps_l eps_u ops eps gd omega m i :
  let P := run_ops (phc_init L eps_l eps_u) ops in let ds := thicknesses ops in
  let hs := 0 :: map (fun d => d / 2) ds ++ [0] in
  List.length eps = S (S (List.length ds)) -> Forall (fun e => e <> 0) eps ->
  md_A (snd m) 0%nat i = RtoC 0 -> md_B (snd m) (S (List.length ds)) i = RtoC 0 ->
  all_matched (Nat.even (fst m)) (map (fun l => (nth l eps 0, md_chi (snd m) l i, (md_A (snd m) l i, md_B (snd m) l i), nth l hs 0)) (seq 0 (List.length eps))) ->
  forall l, (l <= List.length ds)%nat ->
  let z := total (firstn l ds) in
  let D := basis_D P eps gd omega m i in
  basis_H P eps gd m i l z = basis_H P eps gd m i (S l) z /\
  cz (D l z) = cz (D (S l) z) /\
  (cx (D l z) / RtoC (nth l eps 0) = cx (D (S l) z) / RtoC (nth (S l) eps 0))%C /\
  (cy (D l z) / RtoC (nth l eps 0) = cy (D (S l) z) / RtoC (nth (S l) eps 0))%C.
Proof. exact (fields_continuous L eps_l eps_u ops eps gd omega m i). Qed.
Print Assumptions C110_continuous.
Example C110_example :
  let ops := [OpLayer (PI / 2) 4 "shapes"] in let ds := thicknesses ops in
  List.length [2; 4; 2] = S (S (List.length ds)) /\ md_A core_mode 0 0 = RtoC 0 /\ md_B core_mode (S (List.length ds)) 0 = RtoC 0 /\
  all_matched (Nat.even 0) (map (fun l => (nth l [2; 4; 2] 0, md_chi core_mode l 0, (md_A core_mode l 0, md_B core_mode l 0),
    nth l (0 :: map (fun d => d / 2) ds ++ [0]) 0)) (seq 0 (List.length [2; 4; 2]))).
Proof.
  split; [reflexivity|]. split; [reflexivity|]. split; [reflexivity|].
  exact (core_mode_matched [PI / 2] _ [2; 4; 2] eq_refl eq_refl).
Qed.
