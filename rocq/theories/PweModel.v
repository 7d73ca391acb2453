(** Model of legume/pwe/pwe.py (PlaneWaveExp).
    Simplifications: reals for floats; the layer and its lattice do not change
    after __init__; numeig, kind and mind are natural numbers; the inverse, the
    eigensolver and the sort are arguments.  A method maps the object to the object
    it leaves behind and a result. *)
From Coq Require Import List.
From Verif Require Import Py CBase LatticeModel PhcModel RecipModel MatElModel FieldsModel RunModel.
Open Scope R_scope.
Open Scope list_scope.

(** attributes; [None]: not set yet (pwe/pwe.py 26-37, 102-110, 120-130, 140, 164, 196-199) *)
Record pwe := Pwe {
  pw_lat : lattice; pw_layer : layer; pw_epseff : R; pw_rc : recip;
  pw_T1 : list C; pw_T2 : list C;
  pw_einv : option cmat; pw_pol : option string; pw_numeig : option nat;
  pw_k : option (list (R * R));
  pw_freqs : option (list (list R)); pw_vecs : option (list (list (nat * cvec))) }.

(** _compute_ft, pwe.py 112-130: like _compute_ft_tbt of gme.py, but small
    imaginary parts are kept *)
Definition pwe_T1 (L : lattice) (ly : layer) (rc : recip) : list C := map (layer_ft_at (lt_ec_area L) ly) (G1_of (rc_g rc)).
(** T2, pwe.py 112-130 *)
Definition pwe_T2 (L : lattice) (ly : layer) (rc : recip) : list C :=
  map (layer_ft_at (lt_ec_area L) ly) (G2_of (rc_g rc) (Z.to_nat (rc_n1 rc)) (Z.to_nat (rc_n2 rc))).

(** __init__, pwe.py 11-36; [_init_reciprocal] (84-110) is that of gme.py.
    [not eps_eff] holds for None and for 0 *)
Definition pwe_init (L : lattice) (ly : layer) (gmax : R) (eps_eff : option R) : pwe :=
  let e := match eps_eff with None => ly_epsb ly | Some x => if Reqb x 0 then ly_epsb ly else x end in
  let rc := recip_tbt L gmax in
  Pwe L ly e rc (pwe_T1 L ly rc) (pwe_T2 L ly rc) None None None None None None.

(** eps_mat and eps_inv_mat, pwe.py 132-140 *)
Definition pwe_eps_mat (s : pwe) : cmat := toeplitz_block (Z.to_nat (rc_n1 (pw_rc s))) (pw_T1 s) (pw_T2 s).

(** the matrix at one k-point, pwe.py 171-182 *)
Definition pwe_kg (s : pwe) (k : R * R) (i : nat) : R * R :=
  let g := nthg (rc_g (pw_rc s)) i in (fst k + fst g, snd k + snd g).
(** the branch 'te', pwe.py 171-174 *)
Definition mat_te (s : pwe) (k : R * R) (einv : cmat) : cmat := fun i j =>
  let u := pwe_kg s k i in let v := pwe_kg s k j in
  Cmult (RtoC (fst u * fst v + snd u * snd v)) (einv i j).
(** the branch 'tm', pwe.py 176-180 *)
Definition mat_tm (s : pwe) (k : R * R) (einv : cmat) : cmat := fun i j =>
  let Gk i := let u := pwe_kg s k i in sqrt (fst u * fst u + snd u * snd u) in
  Cmult (RtoC (Gk i * Gk j)) (einv i j).

Section Run.
Variable argsort : list R -> list nat.
Variable eigh : nat -> cmat -> list R * cmat.
Variable inv : nat -> cmat -> cmat.

(** pwe.py 184-194, for the matrix [mat] of size n.  Slicing does not fail when
    there are fewer than numeig entries. *)
Definition pwe_solve (n numeig : nat) (mat : cmat) : result (list R * list (nat * cvec)) :=
  let (ls, V) := eigh n (plus_eye (Arr n n mat)) in
  let freq1 := to_freqs ls in
  let i_sort := firstn numeig (argsort freq1) in
  let* freq := take_ix freq1 i_sort in
  Ok (freq, columns n V i_sort).

(** one k-point, pwe.py 169-198 *)
Definition pwe_one (s : pwe) (pol : string) (numeig : nat) (einv : cmat) (k : R * R) : result (list R * list (nat * cvec)) :=
  let n := List.length (rc_g (pw_rc s)) in
  if String.eqb pol "te" then pwe_solve n numeig (mat_te s k einv)
  else if String.eqb pol "tm" then pwe_solve n numeig (mat_tm s k einv)
  else Raise ValueError.
(** the loop: _eigvecs grows as it goes, freqs is stored at the end (pwe/pwe.py 167-199) *)
Fixpoint pwe_loop (s : pwe) (pol : string) (numeig : nat) (einv : cmat) (ks : list (R * R))
  (fs : list (list R)) (vs : list (list (nat * cvec))) : list (list (nat * cvec)) * result (list (list R)) :=
  match ks with
  | [] => (vs, Ok fs)
  | k :: t =>
    match pwe_one s pol numeig einv k with
    | Ok (f, v) => pwe_loop s pol numeig einv t (fs ++ [f]) (vs ++ [v])
    | Raise e => (vs, Raise e)
    end
  end.
(** run, pwe.py 142-199; [self.mat = mat] fails when there was no k-point *)
Definition pwe_run (s : pwe) (ks : list (R * R)) (pol : string) (numeig : nat) : pwe * result unit :=
  let pol := lower pol in
  let T1 := pwe_T1 (pw_lat s) (pw_layer s) (pw_rc s) in
  let T2 := pwe_T2 (pw_lat s) (pw_layer s) (pw_rc s) in
  let s := Pwe (pw_lat s) (pw_layer s) (pw_epseff s) (pw_rc s) T1 T2 (pw_einv s) (Some pol) (Some numeig) (Some ks) (pw_freqs s) (pw_vecs s) in
  let einv := inv (List.length (rc_g (pw_rc s))) (pwe_eps_mat s) in
  let (vs, r) := pwe_loop s pol numeig einv ks [] [] in
  let done f := Pwe (pw_lat s) (pw_layer s) (pw_epseff s) (pw_rc s) T1 T2 (Some einv) (Some pol) (Some numeig) (Some ks) f (Some vs) in
  match r with
  | Raise e => (done (pw_freqs s), Raise e)
  | Ok fs => (done (Some fs), match ks with [] => Raise UnboundLocalError | _ => Ok tt end)
  end.
End Run.

(** ** fields *)

(** reading an attribute that is not set (pwe/pwe.py 54-82) *)
Definition attr {A} (x : option A) : result A := match x with Some a => Ok a | None => Raise AttributeError end.
(** ft_field_xy, pwe.py 234-311.  [dl] is the 1e-10 added to gkx.  Python's
    implicit None for an unknown field is [None]; an unknown polarisation leaves
    the components unbound. *)
Definition pwe_ft_field (dl : R) (s : pwe) (field : string) (kind mind : nat) : result (option vec3) :=
  let* vs := attr (pw_vecs s) in
  let* vk := SymModel.get vs kind in
  let* ev := SymModel.get vk mind in
  let evec := snd ev in
  let* fs := attr (pw_freqs s) in
  let* fk := SymModel.get fs kind in
  let* f := SymModel.get fk mind in
  let omega := f * 2 * PI in
  let* ks := attr (pw_k s) in
  let* k := SymModel.get ks kind in
  let* pol := attr (pw_pol s) in
  let g i := nthg (rc_g (pw_rc s)) i in
  let gkx i := fst (g i) + fst k + dl in
  let gky i := snd (g i) + snd k in
  let gnorm i := sqrt (gkx i * gkx i + gky i * gky i) in
  let px i := gkx i / gnorm i in
  let py i := gky i / gnorm i in
  let qx i := py i in
  let qy i := - px i in
  let zero : nat -> C := fun _ => RtoC 0 in
  if String.eqb (lower field) "h" then
    if String.eqb pol "te" then Ok (Some (zero, zero, evec))
    else if String.eqb pol "tm" then Ok (Some ((fun i => Cmult (evec i) (RtoC (qx i))), (fun i => Cmult (evec i) (RtoC (qy i))), zero))
    else Raise UnboundLocalError
  else if String.eqb (lower field) "d" || String.eqb (lower field) "e" then
    let* D := (if String.eqb pol "te" then
                 Ok ((fun i => Cmult (Cmult (Cdiv Ci (RtoC omega)) (evec i)) (RtoC (qx i))),
                     (fun i => Cmult (Cmult (Cdiv Ci (RtoC omega)) (evec i)) (RtoC (qy i))), zero)
               else if String.eqb pol "tm" then Ok (zero, zero, (fun i => Cmult (Cdiv Ci (RtoC omega)) (evec i)))
               else Raise UnboundLocalError) in
    if String.eqb (lower field) "d" then Ok (Some D)
    else
      let* einv := attr (pw_einv s) in
      let n := List.length (rc_g (pw_rc s)) in
      let '(x, y, z) := D in
      Ok (Some (mvec n einv x, mvec n einv y, mvec n einv z))
  else Ok None.

(** get_field_xy, pwe.py 313-369; its argument z is not used.  Rows of the mesh
    follow ygrid. *)
Definition pwe_get_field (dl : R) (s : pwe) (field : string) (kind mind : nat) (component : string) (Nx Ny : nat)
  : result (list (Ascii.ascii * list (list C)) * list R * list R) :=
  let* (xg, yg) := xy_grid (pw_lat s) Nx Ny PerNone in
  let* ft := pwe_ft_field dl s field kind mind in
  let* v := unpack ft in
  let* fi := comp_loop (nat -> C) (list (list C)) (fun f => map (fun y => map (fun x => ftinv f (rc_g (pw_rc s)) x y) xg) yg) v component [] in
  Ok (fi, xg, yg).

(** get_eps_xy at one point, pwe.py 201-232 *)
Definition pwe_get_eps (s : pwe) (x y : R) : C :=
  get_eps_tbt (pw_T1 s) (pw_T2 s) (G1_of (rc_g (pw_rc s))) (G2_of (rc_g (pw_rc s)) (Z.to_nat (rc_n1 (pw_rc s))) (Z.to_nat (rc_n2 (pw_rc s)))) x y.
