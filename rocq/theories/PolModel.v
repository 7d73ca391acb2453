(** Model of legume/pol/pol.py (HopfieldPol) and utils.from_freq_to_e.
    Simplifications: reals for floats; what GuidedModeExp.run leaves behind is an
    argument (record [phot]); the general eigensolver and the sort of complex
    numbers are arguments; matrices are functions of two indices, with sizes
    carried separately; timing and printing are left out.  The attributes that
    [run] sets are returned as a value. *)
From Coq Require Import List.
From Verif Require Import Py CBase LatticeModel PhcModel RecipModel MatElModel FieldsModel RunModel PweModel ExcModel.
Open Scope R_scope.
Open Scope list_scope.

(** constants.py 12-18 *)
Definition m_e : R := 9.1093837015e-31.
(** constants.py 14 *)
Definition epsilon_0 : R := 8.8541878128e-12.
(** constants.py 15 *)
Definition c_light : R := 299792458.
(** constants.py 18 *)
Definition h_eV_Hz : R := 4.135667696e-15.

(** utils.py 253-282.  The quotient comes before the test: for a Python float
    dividing by zero is an exception, for a numpy number it is not.  The warning is
    the boolean. *)
Definition from_freq_to_e (numpy_scalar : bool) (a : R) : result (R * bool) :=
  if negb numpy_scalar && Reqb a 0 then Raise ZeroDivisionError
  else if Rleb a 0 then Raise ValueError
  else Ok (h_eV_Hz * c_light / a, Rltb a 5e-8 || Rltb 5e-6 a)%bool.

(** What is read from self.gme after its run: numeig, freqs, freqs_im (both of
    shape (Nk, numeig)), ft_field_xy('E', kind, mind, z) (pol/pol.py 156-241) *)
Record phot := Phot {
  ph_N : nat; ph_freqs : list (list R); ph_ims : list (list R);
  ph_E : nat -> nat -> R -> result (cvec * cvec * cvec) }.

(** ** the blocks *)

(** pol.py 170-172, the prefactor *)
Definition pref (a : R) : C := Cmult (Copp Ci) (RtoC (sqrt (hbar ^ 2 * qe ^ 2 / (4 * m_e * epsilon_0)) / qe / sqrt a)).
(** one entry of C, pol.py 179-181; [ng] plane waves *)
Definition C_entry (a : R) (ng : nat) (osc : list R) (E : cvec * cvec * cvec) (W : cvec) : C :=
  let '(ex, ey, ez) := E in
  Cmult (pref a) (csum ng (fun g =>
    Cmult (Cplus (Cplus (Cmult (RtoC (sqrt (nth 0 osc 0))) (ex g)) (Cmult (RtoC (sqrt (nth 1 osc 0))) (ey g)))
                 (Cmult (RtoC (sqrt (nth 2 osc 0))) (ez g))) (Cconj (W g)))).
(** the loops at pol.py 173-181; osc_str None has no astype *)
Definition C_block (a : R) (p : phot) (M : nat) (s : exc) (kind : nat) : result (list (list C)) :=
  mapM (fun n =>
    let* E := ph_E p kind n (ex_z s) in
    mapM (fun nu =>
      let* W := ft_wavef s kind nu in
      let* osc := attr (ex_osc s) in
      Ok (C_entry a (List.length (rc_g (ex_rc s))) osc E W)) (seq 0 M)) (seq 0 (ph_N p)).
(** a rectangular list of rows as a matrix (pol/pol.py 156-241) *)
Definition mat_of (rows : list (list C)) : cmat := fun i j => nth j (nth i rows []) (RtoC 0).
(** pol.py 183-189; numpy broadcasts C[n,:] against eners[kind,:], both of length M *)
Definition D_block (M : nat) (c : cmat) (en : list C) : cmat := fun n1 n2 =>
  csum M (fun nu => Cdiv (Cmult (Cconj (c n1 nu)) (c n2 nu)) (RtoC (fst (nth nu en (RtoC 0))))).
(** exc.eners[kind, :], pol.py 189 *)
Definition eners_at (s : exc) (kind : nat) : result (list C) :=
  let* es := attr (ex_eners s) in SymModel.get es kind.
(** _calculate_C_D, pol.py 156-191 *)
Definition C_D (a : R) (p : phot) (M : nat) (s : exc) (kind : nat) : result (cmat * cmat) :=
  let* rows := C_block a p M s kind in
  let* en := eners_at s kind in
  Ok (mat_of rows, D_block M (mat_of rows) en).

(** ** the matrix *)

(** np.hstack / np.vstack of four pieces of sizes N, K, N, K (pol/pol.py 231-239) *)
Definition stack4 {T} (N K : nat) (x0 x1 x2 x3 : nat -> T) (i : nat) : T :=
  if Nat.ltb i N then x0 i
  else if Nat.ltb i (N + K) then x1 (i - N)%nat
  else if Nat.ltb i (N + K + N) then x2 (i - (N + K))%nat
  else x3 (i - (N + K + N))%nat.
(** pol.py 231-239; [A]: diag_phot, [c]: C_final_block, [e]: the diagonal of diag_exc *)
Definition hopfield (N K : nat) (A c d : cmat) (e : nat -> C) : cmat :=
  let cd : cmat := fun i j => Cconj (c j i) in
  let de : cmat := fun i j => if Nat.eqb i j then e i else RtoC 0 in
  stack4 N K
    (fun i => stack4 N K (A i) (fun j => Cmult (Copp Ci) (c i j)) (fun j => Cmult (RtoC (- 2)) (d i j)) (fun j => Cmult (Copp Ci) (c i j)))
    (fun i => stack4 N K (fun j => Cmult Ci (cd i j)) (de i) (fun j => Cmult (Copp Ci) (cd i j)) (fun j => Cmult (de i j) (RtoC 0)))
    (fun i => stack4 N K (fun j => Cmult (RtoC 2) (d i j)) (fun j => Cmult (Copp Ci) (c i j)) (fun j => Copp (A i j)) (fun j => Cmult (Copp Ci) (c i j)))
    (fun i => stack4 N K (fun j => Cmult (Copp Ci) (cd i j)) (fun j => Cmult (de i j) (RtoC 0)) (fun j => Cmult Ci (cd i j)) (fun j => Copp (de i j))).
(** np.hstack of the C blocks, each with M columns (pol.py 217) *)
Definition hcat (M : nat) (cs : list cmat) : cmat := fun i j => nth (j / M) cs (fun _ _ => RtoC 0) i (j mod M)%nat.
(** diag_phot, pol.py 205-210 and 229 *)
Definition phot_block (conv : R) (f fi : list R) (dsum : cmat) : cmat := fun i j =>
  Cplus (if Nat.eqb i j then Cplus (RtoC (nth i f 0 * conv)) (Cmult Ci (RtoC (nth i fi 0 * conv))) else RtoC 0)
        (RtoC (2 * fst (dsum i j))).
(** the sum of two arrays, pol.py 214 and 229 *)
Definition mplus (x y : cmat) : cmat := fun i j => Cplus (x i j) (y i j).
(** bd.zeros, pol.py 203 *)
Definition mzero : cmat := fun _ _ => RtoC 0.
(** _construct_Hopfield, pol.py 193-241.  The name D left over by the loop is the D
    of the last well (lines 232 and 236).  With no wells np.hstack raises. *)
Definition construct (a : R) (p : phot) (M : nat) (ws : list exc) (kind : nat) : result cmat :=
  let* (conv, _) := from_freq_to_e true a in
  let* f := SymModel.get (ph_freqs p) kind in
  let* fi := SymModel.get (ph_ims p) kind in
  let* cds := mapM (fun s => C_D a p M s kind) ws in
  match cds with
  | [] => Raise ValueError
  | _ =>
    let* ens := mapM (fun s => eners_at s kind) ws in
    let dsum := fold_left mplus (map snd cds) mzero in
    let d := last (map snd cds) mzero in
    Ok (hopfield (ph_N p) (M * List.length ws) (phot_block conv f fi dsum) (hcat M (map fst cds)) d (fun j => nth j (List.concat ens) (RtoC 0)))
  end.

(** ** diagonalisation *)

(** what is stored for one k-point: eners, eners_im, eigvecs, fractions_ex, fractions_ph (pol/pol.py 324-338) *)
Record kres := KRes { kr_e : list R; kr_im : list R; kr_v : list cvec; kr_fx : list R; kr_fp : list R }.

(** sum(abs(v[lo:hi])**2) (pol/pol.py 148-152) *)
Definition weight (v : cvec) (lo len : nat) : R := rsuml (map (fun i => Cmod (v (lo + i)%nat) ^ 2) (seq 0 len)).
(** _calculate_fraction, pol.py 135-154, for one band: (ex, ph) *)
Definition fractions (N K : nat) (v : cvec) : R * R :=
  (weight v N K + weight v (2 * N + K) (2 * (N + K) - (2 * N + K)), weight v 0 N + weight v (N + K) (2 * N + K - (N + K))).

Section Run.
Variable eig : nat -> cmat -> list C * cmat.
Variable cargsort : list C -> list nat.
Variable argsort : list R -> list nat.
Variable eigh : nat -> cmat -> list R * cmat.

(** one k-point, pol.py 313-338 *)
Definition solve_k (N K : nat) (mat : cmat) : result kres :=
  let n := (2 * (N + K))%nat in
  let (ener2, evecs) := eig n (plus_eye (Arr n n mat)) in
  let ener1 := map (fun l => Cminus l (RtoC 1)) ener2 in
  let filt := filter (fun b => Rleb 0 (fst (nth b ener1 (RtoC 0)))) (seq 0 (List.length ener1)) in
  let pos := map (fun b => nth b ener1 (RtoC 0)) filt in
  let vecs := map (fun b i => evecs i b) filt in
  let fr := map (fractions N K) vecs in
  let i_sort := firstn (n / 2 - 1) (cargsort pos) in
  let* e := take_ix pos i_sort in
  let* v := take_ix vecs i_sort in
  let* f := take_ix fr i_sort in
  Ok (KRes (map fst e) (map snd e) v (map fst f) (map snd f)).

(** the object: self.exc_list and self.a (self.gme is in [phot]) (pol/pol.py 30-61) *)
Record pol := Pol { po_exc : list exc; po_a : R }.
(** __init__, pol.py 16-61, after GuidedModeExp(...) has succeeded.  [None]: a loop
    of exc_init ran out of fuel. *)
Fixpoint init_wells (fuel : nat) (P : phc) (gmax : R) (tr : string) (qs : list qw) : option (result (list exc)) :=
  match qs with
  | [] => Some (Ok [])
  | q :: t =>
    match exc_init fuel P (qw_z q) (qw_V q) (qw_a q) (qw_M q) (qw_E0 q) (qw_loss q) (OscList (qw_osc q)) gmax tr with
    | None => None
    | Some (Raise e) => Some (Raise e)
    | Some (Ok s) =>
      match init_wells fuel P gmax tr t with
      | None => None
      | Some r => Some (let* ss := r in Ok (s :: ss))
      end
    end
  end.
(** pol.py 16-61 *)
Definition pol_init (fuel : nat) (P : phc) (gmax : R) (tr : string) : option (result pol) :=
  match pc_qws P with
  | [] => Some (Raise ValueError)
  | _ =>
    match init_wells fuel P gmax tr (pc_qws P) with
    | None => None
    | Some r => Some (let* ws := r in
        let a0 := nth 0 (map ex_a ws) 0 in
        if forallb (fun s => Rltb (Rabs (ex_a s - a0)) (1 / 10 ^ 15)) ws then Ok (Pol ws a0) else Raise ValueError)
    end
  end.

(** all wells, pol.py 299-301 *)
Fixpoint run_wells (ws : list exc) (ks : list (R * R)) (m : nat) : list exc * result unit :=
  match ws with
  | [] => ([], Ok tt)
  | s :: t =>
    match exc_run argsort eigh s ks m with
    | (s', Ok _) => let (t', r) := run_wells t ks m in (s' :: t', r)
    | (s', Raise e) => (s' :: t, Raise e)
    end
  end.
(** the loop over k-points, pol.py 303-346: stored results and self.mat *)
Fixpoint k_loop (a : R) (p : phot) (M : nat) (ws : list exc) (kinds : list nat) (acc : list kres) (mat : option cmat) : result (list kres * option cmat) :=
  match kinds with
  | [] => Ok (acc, mat)
  | kind :: t =>
    let* A := construct a p M ws kind in
    let* r := solve_k (ph_N p) (M * List.length ws) A in
    k_loop a p M ws t (acc ++ [r]) (Some A)
  end.
(** run, pol.py 243-350; [gme_run] is self.gme.run with the options of the user and
    the given k-points; numeig_ex = m *)
Definition pol_run (gme_run : list (R * R) -> result phot) (o : pol) (ks : list (R * R)) (m : nat) : list exc * result (list kres * cmat) :=
  match gme_run ks with
  | Raise e => (po_exc o, Raise e)
  | Ok p =>
    let (ws, r) := run_wells (po_exc o) ks m in
    (ws, let* _ := r in
         let* (res, mat) := k_loop (po_a o) p m ws (seq 0 (List.length ks)) [] None in
         match mat with None => Raise UnboundLocalError | Some A => Ok (res, A) end)
  end.
End Run.
