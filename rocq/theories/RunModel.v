(** Model of the guided-mode expansion as a whole: gme.py run (826-1179) with the
    object state it reads and writes, _compute_guided (356-401), the part of
    _construct_mat (523-643) that stores its bookkeeping, compute_eps_inv
    (645-701) with its cache, and utils.find_nearest (193-199).
    A Python object is the record [gst]; a method is a function from the state to
    the new state and a result, so what a failed call leaves behind is visible.
    External routines are arguments: [argsort], [eigh], [eigsh] (numpy/scipy),
    [inv] (numpy), [root] (scipy brentq).
    Simplifications: reals for floats; numeig and the mode numbers are natural
    numbers; timing, printing, the option 'gradients' and the attributes N_basis,
    hom_layer and eps_mat, which no computation below reads, are left out; a
    _construct_mat that fails leaves gmode_include as it was (run resets it). *)
From Coq Require Import List.
From Verif Require Import Py CBase LatticeModel PhcModel RecipModel SlabModel MatElModel SymModel RadModel.
Open Scope R_scope.
Open Scope list_scope.

(** ** The run options used, gme.py 703-824 *)
Record opts := Opts {
  o_compute : string;        (* gmode_compute *)
  o_inds : list nat;         (* gmode_inds *)
  o_npts : nat; o_step : R; o_tol : R;
  o_numeig : nat; o_im : bool; (* compute_im *)
  o_solver : string; o_sigma : R; o_epseff : string;
  o_symm : option string;    (* kz_symmetry *)
  o_thr : R; o_dgx : R; o_dgabs : R; o_sparse : bool; o_only : bool }.

(** ** What __init__ fixes, gme.py 22-81: structure, truncation, plane waves.
    [dv_custom] holds the layers' eps_eff, if set. *)
Record dev := Dev { dv_phc : phc; dv_tbt : bool; dv_rc : recip; dv_custom : option (list R) }.
(** [claddings[0]] + layers + [claddings[1]], gme.py 919-920 *)
Definition all_layers (P : phc) : list layer := pc_clad_l P :: pc_layers P ++ [pc_clad_u P].
(** the property gvec, gme.py 175-180 *)
Definition dv_gvec (d : dev) : list (R * R) := rc_g (dv_rc d).
(** self.phc.lattice, e.g. gme.py 187 *)
Definition cell (d : dev) : lattice := pc_lattice (dv_phc d).

(** ** The object *)
(** the attributes set by gme.py 57-65, 877-879, 945-955, 989-991 and 1163-1164 *)
Record gst := GSt {
  g_freqs : list (list R); g_im : list (list R); g_ub : list (list R); g_rad : list (list rad_res);
  g_vecs : list (list (nat * (nat -> C)));
  g_symms : option (list (list Z));           (* _kz_symms: not set by __init__ *)
  g_einv : option (nat -> cmat);              (* eps_inv_mat: not set by __init__ *)
  g_ind : list (list (list nat));             (* ind_modes *)
  g_numg : list (list nat); g_inc : list (list nat);
  g_k : list (R * R);
  g_tabs : list (list R * gtable * gtable);   (* g_array, omegas and coeffs *)
  g_even : list nat; g_odd : list nat }.
(** after __init__ (gme/gme.py 24-75) *)
Definition fresh : gst := GSt [] [] [] [] [] None None [] [] [] [] [] [] [].

(** a method of the object: state before, state after and result or exception (gme/gme.py 826-1179) *)
Definition act (A : Type) : Type := gst -> gst * result A.
(** return (state unchanged) (gme/gme.py 826-1179) *)
Definition ret {A} (a : A) : act A := fun s => (s, Ok a).
(** raise (state unchanged), as at gme.py 886-903 *)
Definition fail {A} (e : exn) : act A := fun s => (s, Raise e).
(** a computation that does not touch the object (gme/gme.py 826-1179) *)
Definition lift {A} (r : result A) : act A := fun s => (s, r).
(** an assignment to attributes, as at gme.py 875-879 *)
Definition modify (f : gst -> gst) : act unit := fun s => (f s, Ok tt).
(** reading attributes (gme/gme.py 826-1179) *)
Definition look {A} (f : gst -> A) : act A := fun s => (s, Ok (f s)).
(** one statement after the other: an exception ends the method, what was assigned stays (gme/gme.py 826-1179)
    *)
Definition andthen {A B} (m : act A) (f : A -> act B) : act B := fun s =>
  match m s with (s', Ok a) => f a s' | (s', Raise e) => (s', Raise e) end.
Notation "'do' x <- m ; k" := (andthen m (fun x => k)) (at level 200, x pattern, m at level 100, k at level 200, right associativity).
(** a for loop collecting results, as at gme.py 995-1154 *)
Fixpoint foreach {A B} (f : A -> act B) (l : list A) : act (list B) :=
  match l with
  | [] => ret []
  | a :: t => do b <- f a; do bs <- foreach f t; ret (b :: bs)
  end.

Section Run.
Variable argsort : list R -> list nat.
Variable eigh : nat -> cmat -> list R * cmat.
Variable eigsh : nat -> cmat -> nat -> R -> result (list R * cmat).
Variable inv : nat -> cmat -> cmat.
Variable root : (R -> R) -> R -> R -> R.
Variable dl : R.

(** utils.py 193-199  find_nearest *)
Definition find_nearest (arr : list R) (v : R) (n : nat) : list nat :=
  firstn n (argsort (map (fun x => Rabs (x - v)) arr)).

(** array[index_array] (gme/gme.py 1036-1140) *)
Definition take_ix {A} (l : list A) (ix : list nat) : result (list A) := mapM (SymModel.get l) ix.
(** i_near[i_sort], gme.py 1036-1040 and its copies *)
Definition pick (freq1 : list R) (sigma : R) (n : nat) : result (list nat) :=
  let near := find_nearest freq1 sigma n in
  let* fn := take_ix freq1 near in
  take_ix near (argsort fn).
(** sqrt(abs(freq2 - 1))/2/pi, gme.py 1033-1034 *)
Definition to_freqs (ls : list R) : list R := map (fun l => sqrt (Rabs (l - 1)) / 2 / PI) ls.
(** mat + eye (gme/gme.py 1032-1140) *)
Definition plus_eye (a : arr2) : cmat := fun i j => Cplus (ent a i j) (if Nat.eqb i j then RtoC 1 else RtoC 0).
(** evecs[:, ix] (gme/gme.py 1036-1140) *)
Definition columns (n : nat) (V : cmat) (ix : list nat) : list (nat * (nat -> C)) := map (fun j => (n, fun i => V i j)) ix.

(** gme.py 1029-1040: no symmetry, 'eigh' *)
Definition solve_plain (o : opts) (mat : arr2) : result (list R * list (nat * (nat -> C))) :=
  let (ls, V) := eigh (nr mat) (plus_eye mat) in
  let freq1 := to_freqs ls in
  let* ix := pick freq1 (o_sigma o) (o_numeig o) in
  let* f := take_ix freq1 ix in
  Ok (f, columns (nr mat) V ix).
(** gme.py 1132-1145: 'eigsh' *)
Definition solve_eigsh (o : opts) (mat : arr2) : result (list R * list (nat * (nat -> C))) :=
  let* (ls, V) := eigsh (nr mat) (plus_eye mat) (o_numeig o) ((o_sigma o * 2 * PI) * (o_sigma o * 2 * PI) + 1) in
  let freq1 := to_freqs ls in
  let ix := argsort freq1 in
  let* f := take_ix freq1 ix in
  Ok (f, columns (nr mat) V ix).

(** zero rows above / below (gme/gme.py 1048-1060) *)
Definition pad_above (z : nat) (v : nat * (nat -> C)) : nat * (nat -> C) :=
  ((z + fst v)%nat, fun i => if Nat.ltb i z then RtoC 0 else snd v (i - z)%nat).
(** zero rows below, gme.py 1058-1060 and 1125-1127 *)
Definition pad_below (z : nat) (v : nat * (nat -> C)) : nat * (nat -> C) :=
  ((fst v + z)%nat, fun i => if Nat.ltb i (fst v) then snd v i else RtoC 0).
(** bd.matmul(v_sigma_perm, evec), bd.spdot: ValueError on a shape mismatch (gme/gme.py 1076-1080) *)
Definition back (b : sbasis) (v : nat * (nat -> C)) : result (nat * (nat -> C)) :=
  if Nat.eqb (sb_cols b) (fst v) then Ok (sb_rows b, mvec (sb_cols b) (sb_v b) (snd v)) else Raise ValueError.

(** gme.py 1042-1080: kz_symmetry = 'both'.  The second half of symm1 has
    even_counts entries too. *)
Definition solve_both (o : opts) (b : sbasis) (E O : arr2) : result (list R * list (nat * (nat -> C)) * list Z) :=
  let (lo, Vo) := eigh (nr O) (plus_eye O) in
  let (le, Ve) := eigh (nr E) (plus_eye E) in
  let fo := to_freqs lo in
  let fe := to_freqs le in
  let vo := map (pad_above (sb_even b)) (columns (nr O) Vo (seq 0 (List.length lo))) in
  let ve := map (pad_below (sb_odd b)) (columns (nr E) Ve (seq 0 (List.length le))) in
  let symm1 := repeat 1%Z (sb_even b) ++ repeat (-1)%Z (sb_even b) in
  let freq1 := fe ++ fo in
  let evecs := ve ++ vo in
  let* ix := pick freq1 (o_sigma o) (o_numeig o) in
  let* f := take_ix freq1 ix in
  let* sy := take_ix symm1 ix in
  let* vs := take_ix evecs ix in
  let* vs := mapM (back b) vs in
  Ok (f, vs, sy).
(** gme.py 1082-1106 ('odd') and 1107-1131 ('even'): [pad] is pad_above even_counts
    or pad_below odd_counts *)
Definition solve_one (o : opts) (b : sbasis) (M : arr2) (pad : nat * (nat -> C) -> nat * (nat -> C))
  : result (list R * list (nat * (nat -> C))) :=
  if Nat.ltb (nr M) (o_numeig o) then Raise ValueError
  else
    let (ls, V) := eigh (nr M) (plus_eye M) in
    let freq1 := to_freqs ls in
    let* ix := pick freq1 (o_sigma o) (o_numeig o) in
    let* f := take_ix freq1 ix in
    let* vs := mapM (fun v => back b (pad v)) (columns (nr M) V ix) in
    Ok (f, vs).

(** ** guided modes *)

(** reshape_list, gme.py 370-371: zip_longest without the missing entries *)
Definition reshape_list {A} (l : list (list A)) : list (list A) :=
  map (fun m => flat_map (fun x => match nth_error x m with Some y => [y] | None => [] end) l)
      (seq 0 (fold_right Nat.max 0%nat (map (@List.length A) l))).
(** guided_modes for one polarisation, reshaped to the table of MatElModel;
    nothing is stored when no mode of this polarisation is requested (gme/gme.py 356-401) *)
Definition guided_table (o : opts) (pol : string) (eps ds garr : list R) (modes : list nat) : result gtable :=
  match modes with
  | [] => Ok []
  | m :: t =>
    let* rs := guided_modes root pol garr eps ds (1 + fold_right Nat.max m t / 2) (o_step o) (o_tol o) in
    Ok (combine (reshape_list (map fst rs))
          (map (map (fun ab il => nth il ab (RtoC 0, RtoC 0))) (reshape_list (map snd rs))))
  end.
(** g_array -= delta; g_array[-1] += delta, gme.py 365-366 *)
Fixpoint shift_but_last (d : R) (l : list R) : list R :=
  match l with [] => [] | [x] => [x - d + d] | x :: t => (x - d) :: shift_but_last d t end.
(** _compute_guided, gme.py 356-401 *)
Definition compute_guided (o : opts) (eps ds garr : list R) : result (list R * gtable * gtable) :=
  match garr with
  | [] => Raise IndexError
  | _ =>
    let garr := shift_but_last (o_dgabs o) garr in
    let* te := guided_table o "TE" eps ds garr (filter Nat.even (o_inds o)) in
    let* tm := guided_table o "TM" eps ds garr (filter Nat.odd (o_inds o)) in
    Ok (garr, te, tm)
  end.
(** np.sort (gme/gme.py 535) *)
Fixpoint r_insert (x : R) (l : list R) : list R :=
  match l with [] => [x] | y :: t => if Rleb x y then x :: l else y :: r_insert x t end.
(** np.sort, gme.py 535 *)
Definition r_sort (l : list R) : list R := fold_right r_insert [] l.
(** np.linspace(0, b, n) (gme/gme.py 967) *)
Definition linspace0 (b : R) (n : nat) : list R :=
  map (fun i => match n with 1%nat => 0 | _ => INR i * (b / INR (n - 1)) end) (seq 0 n).
(** np.amax of lengths, gme.py 960-964 *)
Definition rmax0 (l : list R) : R := fold_right Rmax 0 l.

(** ** permittivities *)

(** gme.py 905-942: eps_array and d_array *)
Definition eps_list (d : dev) (o : opts) : result (list R) :=
  if String.eqb (o_epseff o) "average" then Ok (map ly_epsavg (all_layers (dv_phc d)))
  else if String.eqb (o_epseff o) "background" then Ok (map ly_epsb (all_layers (dv_phc d)))
  else if String.eqb (o_epseff o) "custom" then
    match dv_custom d with Some l => Ok l | None => Raise ValueError end
  else Raise ValueError.
(** d_array, gme.py 931-934 *)
Definition d_list (d : dev) : list R := map ly_d (pc_layers (dv_phc d)).
(** the matrices compute_eps_inv builds when they are not there yet (gme/gme.py 645-701) *)
Definition build_einv (d : dev) (only : bool) : nat -> cmat := fun il =>
  let ft := layer_ft_at (lt_ec_area (cell d)) (nth il (all_layers (dv_phc d)) (pc_clad_l (dv_phc d))) in
  if dv_tbt d then eps_inv_tbt inv only ft (dv_rc d) else eps_inv_abs inv only (cell d) ft (dv_rc d).
(** compute_eps_inv, gme.py 645-701: nothing happens if eps_inv_mat exists *)
Definition compute_eps_inv (d : dev) (only : bool) : act (nat -> cmat) := fun s =>
  match g_einv s with
  | Some e => (s, Ok e)
  | None =>
    let e := build_einv d only in
    (GSt (g_freqs s) (g_im s) (g_ub s) (g_rad s) (g_vecs s) (g_symms s) (Some e) (g_ind s) (g_numg s) (g_inc s)
       (g_k s) (g_tabs s) (g_even s) (g_odd s), Ok e)
  end.

(** ** state updates *)
(** gme.py 875-879 *)
Definition start (ks : list (R * R)) (s : gst) : gst :=   (* gme.py 875-879 *)
  GSt (g_freqs s) (g_im s) (g_ub s) (g_rad s) (g_vecs s) (g_symms s) (g_einv s) (g_ind s) [] [] ks (g_tabs s) (g_even s) (g_odd s).
(** gme.py 944-955 *)
Definition clear_tabs (s : gst) : gst :=                    (* gme.py 944-955 *)
  GSt (g_freqs s) (g_im s) (g_ub s) (g_rad s) (g_vecs s) (g_symms s) (g_einv s) (g_ind s) (g_numg s) (g_inc s) (g_k s) [] (g_even s) (g_odd s).
(** the appends of gme.py 367, 388-389, 400-401 *)
Definition add_tab (t : list R * gtable * gtable) (s : gst) : gst :=
  GSt (g_freqs s) (g_im s) (g_ub s) (g_rad s) (g_vecs s) (g_symms s) (g_einv s) (g_ind s) (g_numg s) (g_inc s) (g_k s) (g_tabs s ++ [t]) (g_even s) (g_odd s).
(** gme.py 989-991 *)
Definition clear_vecs (s : gst) : gst :=                    (* gme.py 989-991 *)
  GSt (g_freqs s) (g_im s) (g_ub s) (g_rad s) [] (g_symms s) (g_einv s) (g_ind s) (g_numg s) (g_inc s) (g_k s) (g_tabs s) [] [].
(** gme.py 574, 618-623 *)
Definition add_modes (inc numg : list nat) (ind : list (list nat)) (s : gst) : gst :=  (* gme.py 574, 618-623 *)
  GSt (g_freqs s) (g_im s) (g_ub s) (g_rad s) (g_vecs s) (g_symms s) (g_einv s) (g_ind s ++ [ind]) (g_numg s ++ [numg]) (g_inc s ++ [inc]) (g_k s) (g_tabs s) (g_even s) (g_odd s).
(** even_counts and odd_counts, appended at the end of _separate_hamiltonian_dense and
    _sparse (gme.py 1231-1523) *)
Definition add_counts (e o : nat) (s : gst) : gst :=
  GSt (g_freqs s) (g_im s) (g_ub s) (g_rad s) (g_vecs s) (g_symms s) (g_einv s) (g_ind s) (g_numg s) (g_inc s) (g_k s) (g_tabs s) (g_even s ++ [e]) (g_odd s ++ [o]).
(** gme.py 1151 *)
Definition add_vecs (v : list (nat * (nat -> C))) (s : gst) : gst :=
  GSt (g_freqs s) (g_im s) (g_ub s) (g_rad s) (g_vecs s ++ [v]) (g_symms s) (g_einv s) (g_ind s) (g_numg s) (g_inc s) (g_k s) (g_tabs s) (g_even s) (g_odd s).
(** gme.py 1163-1164 *)
Definition store (f : list (list R)) (sy : list (list Z)) (s : gst) : gst :=   (* gme.py 1163-1164 *)
  GSt f (g_im s) (g_ub s) (g_rad s) (g_vecs s) (Some sy) (g_einv s) (g_ind s) (g_numg s) (g_inc s) (g_k s) (g_tabs s) (g_even s) (g_odd s).
(** gme.py 1223-1226 *)
Definition store_im (im ub : list (list R)) (rad : list (list rad_res)) (s : gst) : gst :=   (* gme.py 1223-1226 *)
  GSt (g_freqs s) im ub rad (g_vecs s) (g_symms s) (g_einv s) (g_ind s) (g_numg s) (g_inc s) (g_k s) (g_tabs s) (g_even s) (g_odd s).

(** ** one k-point, gme.py 995-1154 *)
(** self.kz_symmetry.lower() == x, gme.py 1042, 1082, 1107 *)
Definition is_low (o : opts) (x : string) : bool :=
  match o_symm o with None => false | Some y => String.eqb (lower y) x end.
(** self.gmode_compute.lower() == 'exact', gme.py 533 *)
Definition exact_modes (o : opts) : bool := String.eqb (lower (o_compute o)) "exact".
(** self.gmode_compute.lower() == 'interp', gme.py 958 *)
Definition interp_modes (o : opts) : bool := String.eqb (lower (o_compute o)) "interp".

(** the mode table used at k-point ik, gme.py 319 and 560 *)
Definition tab_at (o : opts) (ik : nat) (s : gst) : result (list R * gtable * gtable) :=
  SymModel.get (g_tabs s) (if interp_modes o then 0%nat else ik).

(** the choice at gme.py 1019-1024: the change of basis *)
Definition symm_basis (d : dev) (o : opts) (m : mat2) (numg : list nat) (ind : list (list nat)) : result sbasis :=
  if o_sparse o then basis_sparse m (dv_gvec d) (o_inds o) numg ind else basis_dense m (dv_gvec d) (o_inds o) numg ind.
(** the same choice: the two blocks with their checks (gme/gme.py 1231-1523) *)
Definition symm_split (o : opts) (mat : arr2) (b : sbasis) : result (arr2 * arr2) :=
  if o_sparse o then separate_sparse (o_thr o) mat b else separate (o_thr o) mat b.

(** _construct_mat with its bookkeeping, gme.py 523-643 *)
Definition construct (d : dev) (o : opts) (eps ds : list R) (einv : nat -> cmat) (ik : nat) (k : R * R) : act arr2 :=
  let gk := gk_len (gk_data (dv_gvec d) k (o_dgx o)) in
  do _ <- (if exact_modes o
           then do t <- lift (compute_guided o eps ds (r_sort (map gk (seq 0 (List.length (dv_gvec d)))))); modify (add_tab t)
           else ret tt);
  do t <- (fun s => lift (tab_at o ik s) s);
  let '(garr, te, tm) := t in
  do mat <- lift (construct_mat dl (dv_gvec d) k (o_dgx o) (o_inds o) garr te tm eps ds einv);
  let inc := gmode_include (o_inds o) te tm in
  do ms <- lift (mapM (get_guided (List.length (dv_gvec d)) gk garr te tm eps) inc);
  do _ <- modify (add_modes inc (map md_size ms) (map md_ind ms));
  ret mat.

(** one pass of the loop, gme.py 995-1154 *)
Definition one_k (d : dev) (o : opts) (eps ds : list R) (einv : nat -> cmat) (refl : list (R * mat2)) (angles : list R) (x : nat * (R * R))
  : act (list R * list Z) :=
  let (ik, k) := x in
  do mat <- construct d o eps ds einv ik k;
  if Nat.ltb (nr mat) (o_numeig o) then fail ValueError
  else if String.eqb (o_solver o) "eigh" then
    match o_symm o with
    | None =>
      do r <- lift (solve_plain o mat);
      do _ <- modify (add_vecs (snd r));
      ret (fst r, [])
    | Some _ =>
      do a <- lift (SymModel.get angles ik);
      do m <- lift (dict_get a refl);
      do numg <- (fun s => lift (SymModel.get (g_numg s) ik) s);
      do ind <- (fun s => lift (SymModel.get (g_ind s) ik) s);
      do b <- lift (symm_basis d o m numg ind);
      do _ <- modify (add_counts (sb_even b) (sb_odd b));
      do eo <- lift (symm_split o mat b);
      let (E, O) := eo in
      if is_low o "both" then
        do r <- lift (solve_both o b E O);
        let '(f, vs, sy) := r in
        do _ <- modify (add_vecs vs);
        ret (f, sy)
      else if is_low o "odd" then
        do r <- lift (solve_one o b O (pad_above (sb_even b)));
        do _ <- modify (add_vecs (snd r));
        ret (fst r, repeat (-1)%Z (List.length (fst r)))
      else
        do r <- lift (solve_one o b E (pad_below (sb_odd b)));
        do _ <- modify (add_vecs (snd r));
        ret (fst r, repeat 1%Z (List.length (fst r)))
    end
  else if String.eqb (o_solver o) "eigsh" then
    match o_symm o with
    | Some _ => fail ValueError
    | None =>
      do r <- lift (solve_eigsh o mat);
      do _ <- modify (add_vecs (snd r));
      ret (fst r, [])
    end
  else fail ValueError.

(** run_im on the stored results, gme.py 1181-1229: what it reads at k-point i *)
Definition rad_at (d : dev) (o : opts) (eps ds : list R) (einv : nat -> cmat) (s : gst) (i : nat)
  : result (rad_env * list R * list (nat * (nat -> C))) :=
  let* fs := SymModel.get (g_freqs s) i in
  let* vs := SymModel.get (g_vecs s) i in
  let* k := SymModel.get (g_k s) i in
  let* inc := SymModel.get (g_inc s) i in
  let* numg := SymModel.get (g_numg s) i in
  let* (garr, te, tm) := tab_at o i s in
  let gk := gk_len (gk_data (dv_gvec d) k (o_dgx o)) in
  Ok (RadEnv (dv_gvec d) k (o_dgx o) eps ds einv (ly_epsavg (pc_clad_l (dv_phc d))) (ly_epsavg (pc_clad_u (dv_phc d)))
        (get_guided (List.length (dv_gvec d)) gk garr te tm eps) inc numg, fs, vs).
(** gme.py 1181-1229 *)
Definition run_im_m (d : dev) (o : opts) (eps ds : list R) (einv : nat -> cmat) : act unit :=
  do rows <- (fun s => lift (match g_freqs s with
                             | [] => Raise RuntimeError
                             | _ => let* envs := mapM (rad_at d o eps ds einv s) (seq 0 (List.length (g_freqs s))) in
                                    run_im dl (o_numeig o) envs end) s);
  let '(im, ub, rad) := rows in modify (store_im im ub rad).

(** the checks before the computation, gme.py 881-903 *)
Definition check (d : dev) (o : opts) (angles : list R) : result (list (R * mat2)) :=
  let* _ := match o_symm o with
            | None => Ok tt
            | Some y => if (String.eqb (lower y) "odd" || String.eqb (lower y) "even" || String.eqb (lower y) "both")%bool
                        then match angles with [] => Raise ValueError | _ => Ok tt end
                        else Raise ValueError
            end in
  let* refl := match o_symm o with None => Ok [] | Some _ => refl_mats (lt_type (cell d)) angles end in
  if (dv_tbt d && o_only o)%bool then Raise ValueError else Ok refl.

(** run, gme.py 826-1179 *)
Definition run (d : dev) (o : opts) (ks : list (R * R)) (angles : list R) : act unit :=
  do _ <- modify (start ks);
  do refl <- lift (check d o angles);
  do eps <- lift (eps_list d o);
  let ds := d_list d in
  do _ <- modify clear_tabs;
  do _ <- (if interp_modes o then
             match ks, dv_gvec d with
             | [], _ | _, [] => fail ValueError
             | _, _ =>
               let kmax := rmax0 (map (fun k => sqrt (fst k * fst k + snd k * snd k)) ks) in
               let Gmax := rmax0 (map (fun k => sqrt (fst k * fst k + snd k * snd k)) (dv_gvec d)) in
               do t <- lift (compute_guided o eps ds (linspace0 (Gmax + kmax) (o_npts o)));
               modify (add_tab t)
             end
           else ret tt);
  do einv <- compute_eps_inv d (o_only o);
  do _ <- modify clear_vecs;
  do rows <- foreach (one_k d o eps ds einv refl angles) (enum ks);
  do _ <- modify (store (map fst rows) (match o_symm o with None => [] | Some _ => map snd rows end));
  if o_im o then run_im_m d o eps ds einv else ret tt.

(** a history of run calls, failed ones included (gme/gme.py 826-1179) *)
Fixpoint runs (d : dev) (h : list (opts * list (R * R) * list R)) (s : gst) : gst :=
  match h with
  | [] => s
  | (o, ks, an) :: t => runs d t (fst (run d o ks an s))
  end.
End Run.
