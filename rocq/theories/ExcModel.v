(** Model of legume/exc/exc.py (ExcitonSchroedEq).
    Simplifications: reals for floats; the structure does not change after
    __init__; numeig_ex, kind and mind are natural numbers; the eigensolver and the
    sort are arguments; timing and printing are left out.  A method maps the object
    to the object it leaves behind and a result. *)
From Coq Require Import List.
From Verif Require Import Py CBase LatticeModel PhcModel RecipModel MatElModel FieldsModel RunModel PweModel.
Open Scope R_scope.
Open Scope list_scope.

(** scipy.constants.hbar and e, used at exc.py 346-347 *)
Definition hbar : R := 1.0545718176461565e-34.
(** scipy.constants.e, used at exc.py 347 *)
Definition qe : R := 1.602176634e-19.

(** attributes; [None]: not set yet.  The pairs (T1, T2) and (T1_unique, pot_ft)
    exist for 'tbt' and 'abs' respectively. (exc/exc.py 53-96, 164-169, 211-217, 231-237, 254-282, 336, 379-385) *)
Record exc := Exc {
  ex_lat : lattice; ex_layer : layer; ex_z : R; ex_V : R; ex_a : R; ex_M : R; ex_E0 : R; ex_loss : R;
  ex_osc : option (list R); ex_abs : bool; ex_rc : recip;
  ex_T1 : list C; ex_T2 : list C; ex_T1u : list C; ex_G1u : list (R * R);
  ex_pot : option cmat; ex_numeig : option nat; ex_k : option (list (R * R));
  ex_eners : option (list (list C)); ex_vecs : option (list (list (nat * cvec))) }.

(** the osc_str argument: None, a list or array, anything else (exc/exc.py 79-87) *)
Inductive osc_arg := OscNone | OscList (l : list R) | OscOther.
(** exc.py 79-87 *)
Definition check_osc (o : osc_arg) : result (option (list R)) :=
  match o with
  | OscNone => Ok None
  | OscOther => Raise TypeError
  | OscList l => if Nat.eqb (List.length l) 3 then Ok (Some l) else Raise ValueError
  end.

(** _compute_pot_ft_tbt, exc.py 219-237; [compute_exc_ft] is that of PhcModel.v.
    _init_reciprocal_tbt (143-170) is [recip_tbt] *)
Definition pot_tbt (L : lattice) (ly : layer) (V : R) (rc : recip) : result (list C * list C) :=
  let* t1 := layer_exc_ft (lt_ec_area L) ly V (G1_of (rc_g rc)) in
  let* t2 := layer_exc_ft (lt_ec_area L) ly V (G2_of (rc_g rc) (Z.to_nat (rc_n1 rc)) (Z.to_nat (rc_n2 rc))) in
  Ok (t1, t2).
(** _compute_pot_ft_abs, exc.py 239-282: T1_unique, G1_unique and T1.  Unlike
    gme.py all unique vectors are transformed. *)
Definition pot_abs (L : lattice) (ly : layer) (V : R) (rc : recip) : result (list C * list (R * R) * list C) :=
  let grid := grid_diff zz_sub (combine (rc_i1 rc) (rc_i2 rc)) in
  let uniq := np_unique grid in
  let inverse := map (fun x => pos_of x uniq) grid in
  let gu := gvec_of (lt_b1 L) (lt_b2 L) (map fst uniq) (map snd uniq) in
  let* tu := layer_exc_ft (lt_ec_area L) ly V gu in
  Ok (tu, gu, map (fun k => nth k tu (RtoC 0)) inverse).

(** __init__, exc.py 15-96.  [None]: the loop of _init_reciprocal_abs (171-217, the
    same as in gme.py) has not ended within [fuel] rounds.  A layer is found by
    z_to_lind; numbers 0 and N_layers + 1 are the claddings. *)
Definition exc_init (fuel : nat) (P : phc) (z V a M E0 loss : R) (osc : osc_arg) (gmax : R) (truncate_g : string) : option (result exc) :=
  let N := List.length (pc_layers P) in
  let li := z_to_lind P z in
  if orb (Nat.eqb li 0) (Nat.eqb li (N + 1)) then Some (Raise ValueError)
  else match nth_error (pc_layers P) (li - 1) with
  | None => Some (Raise IndexError)
  | Some ly =>
    let L := pc_lattice P in
    match check_osc osc with
    | Raise e => Some (Raise e)
    | Ok os =>
      if String.eqb truncate_g "tbt" then
        let rc := recip_tbt L gmax in
        Some (let* (t1, t2) := pot_tbt L ly V rc in
              Ok (Exc L ly z V a M E0 loss os false rc t1 t2 [] [] None None None None None))
      else if String.eqb truncate_g "abs" then
        match recip_abs fuel L gmax with
        | None => None
        | Some r => Some (let* rc := r in
              let* (x, t1) := pot_abs L ly V rc in
              Ok (Exc L ly z V a M E0 loss os true rc t1 [] (fst x) (snd x) None None None None None))
        end
      else Some (Raise ValueError)
    end
  end.

(** _compute_matrix, exc.py 284-292; pot_ft is T1 as a square array (281-282) *)
Definition pot_matrix (s : exc) : cmat :=
  if ex_abs s then fun i j => nth (i * List.length (rc_g (ex_rc s)) + j) (ex_T1 s) (RtoC 0)
  else toeplitz_block (Z.to_nat (rc_n1 (ex_rc s))) (ex_T1 s) (ex_T2 s).

(** exc.py 344-351: (k+G)/a, its norm squared times hbar^2/(2 M e), on the diagonal *)
Definition kinetic (s : exc) (k g : R * R) : R :=
  let x := (fst k + fst g) / ex_a s in
  let y := (snd k + snd g) / ex_a s in
  sqrt (x ^ 2 + y ^ 2) ^ 2 * hbar ^ 2 / (2 * ex_M s * qe).
(** the matrix at one k-point, exc.py 344-351 *)
Definition exc_mat (s : exc) (k : R * R) (pot : cmat) : cmat := fun i j =>
  Cplus (if Nat.eqb i j then RtoC (kinetic s k (nthg (rc_g (ex_rc s)) i)) else RtoC 0) (pot i j).

(** the test at exc.py 352-357; bd.max of an empty array is a ValueError as well *)
Definition herm_gap (n : nat) (A : cmat) : R :=
  amax (flat_map (fun i => map (fun j => Cmod (Cminus (A i j) (Cconj (A j i)))) (seq 0 n)) (seq 0 n)).
(** exc.py 352-357, the test with its exception *)
Definition herm_check (n : nat) (A : cmat) : result unit :=
  if Nat.eqb n 0 then Raise ValueError
  else if Rltb (1 / 10 ^ 10) (herm_gap n A) then Raise ValueError else Ok tt.

Section Run.
Variable argsort : list R -> list nat.
Variable eigh : nat -> cmat -> list R * cmat.

(** exc.py 369-377; slicing does not fail when there are fewer than numeig_ex
    entries *)
Definition exc_solve (n numeig : nat) (mat : cmat) : result (list R * list (nat * cvec)) :=
  let (ls, V) := eigh n (plus_eye (Arr n n mat)) in
  let ener1 := map (fun l => l - 1) ls in
  let i_sort := firstn numeig (argsort ener1) in
  let* ener := take_ix ener1 i_sort in
  Ok (ener, columns n V i_sort).

(** one k-point, exc.py 339-377 *)
Definition exc_one (s : exc) (numeig : nat) (pot : cmat) (k : R * R) : result (list R * list (nat * cvec)) :=
  let n := List.length (rc_g (ex_rc s)) in
  let mat := exc_mat s k pot in
  let* _ := herm_check n mat in
  exc_solve n numeig mat.
(** the loop over the k-points, exc.py 339-377 *)
Fixpoint exc_loop (s : exc) (numeig : nat) (pot : cmat) (ks : list (R * R)) (fs : list (list R)) (vs : list (list (nat * cvec)))
  : list (list (nat * cvec)) * result (list (list R)) :=
  match ks with
  | [] => (vs, Ok fs)
  | k :: t =>
    match exc_one s numeig pot k with
    | Ok (f, v) => exc_loop s numeig pot t (fs ++ [f]) (vs ++ [v])
    | Raise e => (vs, Raise e)
    end
  end.
(** run, exc.py 311-385; [self.mat = mat] fails when there was no k-point *)
Definition exc_run (s : exc) (ks : list (R * R)) (numeig : nat) : exc * result unit :=
  let pot := pot_matrix s in
  let (vs, r) := exc_loop s numeig pot ks [] [] in
  let done en := Exc (ex_lat s) (ex_layer s) (ex_z s) (ex_V s) (ex_a s) (ex_M s) (ex_E0 s) (ex_loss s) (ex_osc s) (ex_abs s) (ex_rc s)
                     (ex_T1 s) (ex_T2 s) (ex_T1u s) (ex_G1u s) (Some pot) (Some numeig) (Some ks) en (Some vs) in
  match r with
  | Raise e => (done (ex_eners s), Raise e)
  | Ok fs => (done (Some (map (map (fun x => Cplus (RtoC (x + ex_E0 s)) (Cmult Ci (RtoC (ex_loss s))))) fs)),
              match ks with [] => Raise UnboundLocalError | _ => Ok tt end)
  end.
End Run.

(** ** plots *)

(** What ftinv (utils.py 13-51) is given: an array, or (through [ft_coeffs[0]]) a
    single number; indexing a number raises IndexError, also for an empty mesh.
    Rows of the mesh follow ygrid. *)
Inductive coeffs := CArr (l : list C) | CNum (z : C).
(** utils.py 13-51, the mesh filled row by row *)
Definition ftinv_mesh (c : coeffs) (gvec : list (R * R)) (xg yg : list R) : result (list (list C)) :=
  match c, gvec with
  | CNum _, _ :: _ => Raise IndexError
  | CNum _, [] => Ok (map (fun y => map (fun x => RtoC 0) xg) yg)
  | CArr l, _ => Ok (map (fun y => map (fun x => ftinv (fun i => nth i l (RtoC 0)) gvec x y) xg) yg)
  end.
(** get_pot_xy, exc.py 387-422 *)
Definition get_pot_xy (s : exc) (Nx Ny : nat) : result (list (list C) * list R * list R) :=
  let* (xg, yg) := xy_grid (ex_lat s) Nx Ny PerNone in
  let* rows := (if ex_abs s then ftinv_mesh (CArr (ex_T1u s)) (ex_G1u s) xg yg
    else
      let g1 := G1_of (rc_g (ex_rc s)) in
      let g2 := G2_of (rc_g (ex_rc s)) (Z.to_nat (rc_n1 (ex_rc s))) (Z.to_nat (rc_n2 (ex_rc s))) in
      let ft := ex_T1 s ++ ex_T2 s ++ map Cconj (ex_T1 s) ++ map Cconj (ex_T2 s) in
      ftinv_mesh (CNum (nth 0 ft (RtoC 0))) (g1 ++ g2 ++ map neg_g g1 ++ map neg_g g2) xg yg) in
  Ok (rows, xg, yg).

(** ft_wavef_xy, exc.py 424-438 *)
Definition ft_wavef (s : exc) (kind mind : nat) : result cvec :=
  let* vs := attr (ex_vecs s) in
  let* vk := SymModel.get vs kind in
  let* v := SymModel.get vk mind in
  Ok (snd v).
(** get_wavef_xy, exc.py 440-475, at one point of the mesh *)
Definition wavef_point (s : exc) (kind mind : nat) (x y : R) : result C :=
  let* ft := ft_wavef s kind mind in
  Ok (ftinv ft (rc_g (ex_rc s)) x y).
