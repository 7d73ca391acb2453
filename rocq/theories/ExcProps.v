(** Property theorems for the exciton Schroedinger equation: C53, C54, C88, C89, C114. *)
From Coq Require Import Permutation List.
From Verif Require Import Py CBase LatticeModel LatticeSpec PhcModel PhcSpec ShapesModel RecipModel RecipSpec MatElModel FieldsSpec FieldsModel RunModel RunSpec PweSpec PweModel ExcSpec ExcModel.
From Verif Require Import ExcProofs ExcProofs2 ExcProofs3 ExcProofs4 ExcProofs5.
From Verif Require Import CellSpec.
Open Scope R_scope.
Open Scope list_scope.

(** C53.  A Hermitian potential gives a Hermitian matrix at any k. *)
Theorem C53_hermitian s k pot : let n := List.length (rc_g (ex_rc s)) in herm_on n pot -> herm_on n (exc_mat s k pot).
Proof. exact (herm_any s k pot). Qed.
Print Assumptions C53_hermitian.
(** The potentials of an initialised object are Hermitian. *)
Theorem C53_potential_hermitian fuel P z V a M E0 loss osc gmax tr s args : exc_init fuel P z V a M E0 loss osc gmax tr = Some (Ok s) ->
  tr = "tbt"%string \/ tr = "abs"%string -> lattice_init args = Ok (pc_lattice P) -> independent (lt_a1 (pc_lattice P)) (lt_a2 (pc_lattice P)) -> 0 <= gmax ->
  separated (rc_g (ex_rc s)) -> (forall sh, In sh (ly_shapes (ex_layer s)) -> conj_symmetric (sh_ft sh)) ->
  let n := List.length (rc_g (ex_rc s)) in herm_on n (pot_matrix s) /\ (forall k, herm_on n (exc_mat s k (pot_matrix s))) /\
  exists pot, conj_symmetric pot /\ transform_of (lt_ec_area (pc_lattice P)) (ex_layer s) V (rc_g (ex_rc s)) pot.
Proof. exact (exc_hermitian fuel P z V a M E0 loss osc gmax tr s args). Qed.
Print Assumptions C53_potential_hermitian.
(** A run succeeds and reports, per k, the numeig_ex lowest eigenvalues of the
    Schroedinger operator plus E0, with imaginary part loss ([flip]: see C88). *)
Theorem C53_run argsort eigh : sorts argsort -> diagonalises eigh ->
  forall fuel P z V a M E0 loss osc gmax tr args pot s, exc_init fuel P z V a M E0 loss osc gmax tr = Some (Ok s) -> 0 < a -> 0 < M ->
  tr = "tbt"%string \/ tr = "abs"%string -> lattice_init args = Ok (pc_lattice P) -> independent (lt_a1 (pc_lattice P)) (lt_a2 (pc_lattice P)) -> 0 <= gmax ->
  conj_symmetric pot -> transform_of (lt_ec_area (pc_lattice P)) (ex_layer s) V (rc_g (ex_rc s)) pot ->
  forall ks m, ks <> [] ->
  exists s' es vs, exc_run argsort eigh s ks m = (s', Ok tt) /\
    ex_eners s' = Some (map (map (fun e => (e + E0, loss))) es) /\ ex_vecs s' = Some vs /\ ex_rc s' = ex_rc s /\
    List.length es = List.length ks /\ List.length vs = List.length ks /\
    forall i k, nth_error ks i = Some k ->
      levels (List.length (rc_g (ex_rc s))) m (schroedinger hbar qe M a (flip (String.eqb tr "abs") pot) (rc_g (ex_rc s)) k) (nth i es []) (nth i vs []).
Proof.
  exact (fun Hs He fuel P z V a M E0 loss osc gmax tr args pot s HI _ _ Htr HL Hind Hg Hc Ht =>
    exc_whole argsort eigh Hs He fuel P z V a M E0 loss osc gmax tr args pot s HI Htr HL Hind Hg Hc Ht).
Qed.
Print Assumptions C53_run.
Example C53_run_hyps V a M E0 loss gmax L : lattice_init (LatName "square") = Ok L -> 0 <= gmax ->
  exists s pot, exc_init 0 (disc_phc L) (1/2) V a M E0 loss OscNone gmax "tbt" = Some (Ok s) /\ ly_shapes (ex_layer s) <> [] /\ separated (rc_g (ex_rc s)) /\
    pc_lattice (disc_phc L) = L /\ independent (lt_a1 L) (lt_a2 L) /\
    conj_symmetric pot /\ transform_of (lt_ec_area L) (ex_layer s) V (rc_g (ex_rc s)) pot.
Proof. exact (disc_tbt V a M E0 loss gmax L). Qed.
(** what [transform_of] says for one shape *)
Example C53_one_shape area ly s V gs : ly_shapes ly = [s] -> 0 < V -> 0 < area -> separated gs -> 0 <= fst (sh_ft s (0, 0)) -> snd (sh_ft s (0, 0)) = 0 ->
  transform_of area ly V gs (fun g => Cdiv (Cmult (RtoC V) (sh_ft s g)) (RtoC area)).
Proof. exact (one_transform area ly s V gs). Qed.
(** Without shapes: the energies hbar^2 |k+G|^2/(2 M), plus E0. *)
Theorem C53_free argsort eigh : sorts argsort -> diagonalises eigh ->
  forall fuel P z V a M E0 loss osc gmax tr s args ks m, exc_init fuel P z V a M E0 loss osc gmax tr = Some (Ok s) ->
  tr = "tbt"%string \/ tr = "abs"%string -> lattice_init args = Ok (pc_lattice P) -> independent (lt_a1 (pc_lattice P)) (lt_a2 (pc_lattice P)) -> 0 <= gmax ->
  ly_shapes (ex_layer s) = [] -> ks <> [] ->
  exists s' es, exc_run argsort eigh s ks m = (s', Ok tt) /\ ex_eners s' = Some (map (map (fun e => (e + E0, loss))) es) /\ List.length es = List.length ks /\
    forall i k, nth_error ks i = Some k -> smallest m (map (free_energy hbar qe M a k) (rc_g (ex_rc s))) (nth i es []).
Proof. exact (exc_free argsort eigh). Qed.
Print Assumptions C53_free.
(** A constant added to the potential is added to all energies. *)
Theorem C53_shift argsort eigh : sorts argsort -> diagonalises eigh ->
  forall fuel P P' z z' V V' a M E0 loss osc osc' gmax tr s s' args pot pot' c ks m,
  exc_init fuel P z V a M E0 loss osc gmax tr = Some (Ok s) -> exc_init fuel P' z' V' a M E0 loss osc' gmax tr = Some (Ok s') -> pc_lattice P' = pc_lattice P ->
  tr = "tbt"%string \/ tr = "abs"%string -> lattice_init args = Ok (pc_lattice P) -> independent (lt_a1 (pc_lattice P)) (lt_a2 (pc_lattice P)) -> 0 <= gmax ->
  conj_symmetric pot -> transform_of (lt_ec_area (pc_lattice P)) (ex_layer s) V (rc_g (ex_rc s)) pot ->
  conj_symmetric pot' -> transform_of (lt_ec_area (pc_lattice P)) (ex_layer s') V' (rc_g (ex_rc s)) pot' ->
  pot' (0, 0) = Cplus (pot (0, 0)) (RtoC c) -> (forall g, g <> (0, 0) -> pot' g = pot g) -> ks <> [] ->
  exists es, ex_eners (fst (exc_run argsort eigh s ks m)) = Some (map (map (fun e => (e + E0, loss))) es) /\
    ex_eners (fst (exc_run argsort eigh s' ks m)) = Some (map (map (fun e => (e + c + E0, loss))) es).
Proof. exact (exc_shift argsort eigh). Qed.
Print Assumptions C53_shift.
Example C53_shift_hyps L V a M E0 loss gmax : lattice_init (LatName "square") = Ok L -> 0 <= gmax -> 0 < V ->
  let P := run_ops (phc_init L 1 1) [OpLayer 1 12 "shapes"] in
  let P' := run_ops (phc_init L 1 1) [OpLayer 1 12 "shapes"; OpShape (ShOne (filling (lt_ec_area L))) 0 CladNone] in
  exists s s' pot pot', exc_init 0 P (1/2) V a M E0 loss OscNone gmax "tbt" = Some (Ok s) /\ exc_init 0 P' (1/2) V a M E0 loss OscNone gmax "tbt" = Some (Ok s') /\
    pc_lattice P = L /\ pc_lattice P' = pc_lattice P /\ independent (lt_a1 L) (lt_a2 L) /\
    conj_symmetric pot /\ transform_of (lt_ec_area L) (ex_layer s) V (rc_g (ex_rc s)) pot /\
    conj_symmetric pot' /\ transform_of (lt_ec_area L) (ex_layer s') V (rc_g (ex_rc s)) pot' /\
    pot' (0, 0) = Cplus (pot (0, 0)) (RtoC V) /\ (forall g, g <> (0, 0) -> pot' g = pot g).
Proof. exact (shift_example L V a M E0 loss gmax). Qed.

(** C54.  Plotting the potential fails for every object truncated with 'tbt' ... *)
Theorem C54_get_pot_refuted : exists L s, lattice_init (LatName "square") = Ok L /\
  exc_init 0 (disc_phc L) (1/2) 1 1 1 0 0 OscNone 1 "tbt" = Some (Ok s) /\ forall Nx Ny, get_pot_xy s Nx Ny = Raise IndexError.
Proof. exact get_pot_refuted. Qed.
Print Assumptions C54_get_pot_refuted.
Theorem C54_tbt_partial fuel P z V a M E0 loss osc gmax s args Nx Ny : exc_init fuel P z V a M E0 loss osc gmax "tbt" = Some (Ok s) ->
  lattice_init args = Ok (pc_lattice P) -> independent (lt_a1 (pc_lattice P)) (lt_a2 (pc_lattice P)) -> 0 <= gmax ->
  get_pot_xy s Nx Ny = Raise IndexError.
Proof. exact (pot_tbt_fails fuel P z V a M E0 loss osc gmax s args Nx Ny). Qed.
Print Assumptions C54_tbt_partial.
(** ... and gives the (real) series over all differences of reciprocal vectors for 'abs'. *)
Theorem C54_abs_partial fuel P z V a M E0 loss osc gmax s args pot Nx Ny : exc_init fuel P z V a M E0 loss osc gmax "abs" = Some (Ok s) ->
  lattice_init args = Ok (pc_lattice P) -> independent (lt_a1 (pc_lattice P)) (lt_a2 (pc_lattice P)) -> 0 <= gmax ->
  conj_symmetric pot -> transform_of (lt_ec_area (pc_lattice P)) (ex_layer s) V (rc_g (ex_rc s)) pot ->
  exists rows xg yg ds, get_pot_xy s Nx Ny = Ok (rows, xg, yg) /\ xy_grid (pc_lattice P) Nx Ny PerNone = Ok (xg, yg) /\
    NoDup ds /\ (forall D, In D ds <-> difference (rc_g (ex_rc s)) D) /\
    rows = map (fun y => map (fun x => series (map (fun D => (pot D, D)) ds) x y) xg) yg /\
    forall x y, snd (series (map (fun D => (pot D, D)) ds) x y) = 0.
Proof. exact (pot_abs_series fuel P z V a M E0 loss osc gmax s args pot Nx Ny). Qed.
Print Assumptions C54_abs_partial.

(** C88.  Entry (i,j) of the potential matrix is V(G_i - G_j): true for 'tbt', but
    the matrix of 'abs' is transposed; the off-centre disc is a counterexample (its
    plot is right, by C54, its Hamiltonian is that of the mirror image). *)
Theorem C88_abs_refuted : exists L fuel s pot i j, lattice_init (LatName "square") = Ok L /\
  exc_init fuel (disc_phc L) (1/2) 1 1 1 0 0 OscNone (3/2) "abs" = Some (Ok s) /\
  conj_symmetric pot /\ transform_of (lt_ec_area L) (ex_layer s) 1 (rc_g (ex_rc s)) pot /\
  let gs := rc_g (ex_rc s) in (i < List.length gs)%nat /\ (j < List.length gs)%nat /\
  pot_matrix s i j <> pot (diff (gat gs i) (gat gs j)).
Proof. exact abs_mirrored. Qed.
Print Assumptions C88_abs_refuted.
Theorem C88_tbt_partial fuel P z V a M E0 loss osc gmax s args pot i j : exc_init fuel P z V a M E0 loss osc gmax "tbt" = Some (Ok s) ->
  lattice_init args = Ok (pc_lattice P) -> independent (lt_a1 (pc_lattice P)) (lt_a2 (pc_lattice P)) -> 0 <= gmax ->
  conj_symmetric pot -> transform_of (lt_ec_area (pc_lattice P)) (ex_layer s) V (rc_g (ex_rc s)) pot ->
  let gs := rc_g (ex_rc s) in (i < List.length gs)%nat -> (j < List.length gs)%nat -> pot_matrix s i j = pot (diff (gat gs i) (gat gs j)).
Proof. exact (potential_tbt fuel P z V a M E0 loss osc gmax s args pot i j). Qed.
Print Assumptions C88_tbt_partial.
Theorem C88_abs_partial fuel P z V a M E0 loss osc gmax s args pot i j : exc_init fuel P z V a M E0 loss osc gmax "abs" = Some (Ok s) ->
  lattice_init args = Ok (pc_lattice P) -> independent (lt_a1 (pc_lattice P)) (lt_a2 (pc_lattice P)) -> 0 <= gmax ->
  conj_symmetric pot -> transform_of (lt_ec_area (pc_lattice P)) (ex_layer s) V (rc_g (ex_rc s)) pot ->
  let gs := rc_g (ex_rc s) in (i < List.length gs)%nat -> (j < List.length gs)%nat ->
  pot_matrix s i j = pot (diff (gat gs j) (gat gs i)) /\ ((forall g, pot (opp g) = pot g) -> pot_matrix s i j = pot (diff (gat gs i) (gat gs j))).
Proof. exact (potential_abs fuel P z V a M E0 loss osc gmax s args pot i j). Qed.
Print Assumptions C88_abs_partial.

(** C89.  The energies depend on neither the eigensolver's choice of eigenvectors
    and order nor the way ties are sorted, ... *)
Theorem C89_solver_independent argsort eigh argsort' eigh' : sorts argsort -> diagonalises eigh -> sorts argsort' -> diagonalises eigh' ->
  forall fuel P z V a M E0 loss osc gmax tr s args pot ks m, exc_init fuel P z V a M E0 loss osc gmax tr = Some (Ok s) ->
  tr = "tbt"%string \/ tr = "abs"%string -> lattice_init args = Ok (pc_lattice P) -> independent (lt_a1 (pc_lattice P)) (lt_a2 (pc_lattice P)) -> 0 <= gmax ->
  conj_symmetric pot -> transform_of (lt_ec_area (pc_lattice P)) (ex_layer s) V (rc_g (ex_rc s)) pot ->
  ex_eners (fst (exc_run argsort eigh s ks m)) = ex_eners (fst (exc_run argsort' eigh' s ks m)).
Proof. exact (exc_solver_free argsort eigh argsort' eigh'). Qed.
Print Assumptions C89_solver_independent.
(** ... nor on earlier runs, successful or not. *)
Theorem C89_rerun argsort eigh s h ks m : let s1 := after argsort eigh s h in
  snd (exc_run argsort eigh s1 ks m) = snd (exc_run argsort eigh s ks m) /\
  (snd (exc_run argsort eigh s ks m) = Ok tt -> fst (exc_run argsort eigh s1 ks m) = fst (exc_run argsort eigh s ks m)).
Proof. exact (history_free argsort eigh s h ks m). Qed.
Print Assumptions C89_rerun.
(** Rejected: no k-points, a quantum well in a cladding. *)
Theorem C89_no_k argsort eigh s m : let r := exc_run argsort eigh s [] m in snd r = Raise UnboundLocalError /\ ex_eners (fst r) = Some [] /\ ex_vecs (fst r) = Some [].
Proof. exact (exc_no_k argsort eigh s m). Qed.
Print Assumptions C89_no_k.
Theorem C89_cladding fuel P z V a M E0 loss osc gmax tr : z_to_lind P z = 0%nat \/ z_to_lind P z = S (List.length (pc_layers P)) ->
  exc_init fuel P z V a M E0 loss osc gmax tr = Some (Raise ValueError).
Proof. exact (exc_cladding fuel P z V a M E0 loss osc gmax tr). Qed.
Print Assumptions C89_cladding.
(** The oscillator strength: None or three numbers, kept as given, without
    influence on the Hamiltonian. *)
Theorem C89_osc_accepted fuel P z V a M E0 loss osc gmax tr s : exc_init fuel P z V a M E0 loss osc gmax tr = Some (Ok s) ->
  (osc = OscNone /\ ex_osc s = None) \/ exists x y w, osc = OscList [x; y; w] /\ ex_osc s = Some [x; y; w].
Proof. exact (osc_argument fuel P z V a M E0 loss osc gmax tr s). Qed.
Print Assumptions C89_osc_accepted.
Theorem C89_osc_free fuel P z V a M E0 loss gmax tr s : exc_init fuel P z V a M E0 loss OscNone gmax tr = Some (Ok s) ->
  forall x y w, exists s', exc_init fuel P z V a M E0 loss (OscList [x; y; w]) gmax tr = Some (Ok s') /\
    ex_osc s' = Some [x; y; w] /\ ex_rc s' = ex_rc s /\ pot_matrix s' = pot_matrix s.
Proof. exact (osc_free fuel P z V a M E0 loss gmax tr s). Qed.
Print Assumptions C89_osc_free.
Theorem C89_osc_rejected fuel P z V a M E0 loss gmax tr : (0 < z_to_lind P z <= List.length (pc_layers P))%nat ->
  exc_init fuel P z V a M E0 loss OscOther gmax tr = Some (Raise TypeError) /\
  forall l, List.length l <> 3%nat -> exc_init fuel P z V a M E0 loss (OscList l) gmax tr = Some (Raise ValueError).
Proof. exact (osc_rejected fuel P z V a M E0 loss gmax tr). Qed.
Print Assumptions C89_osc_rejected.

(** C114.  The wave functions.  For k-point number i and level number b,
    ft_wavef_xy returns the eigenvector of the Schroedinger operator that belongs
    to the reported energy, and get_wavef_xy the sum of its plane waves: a lattice
    periodic function (the factor e^{ik.r} is not included); those of one k-point
    are orthonormal in the mean over the cell.  Other indices are IndexErrors. *)
Theorem C114_wave_functions argsort eigh : sorts argsort -> diagonalises eigh ->
  forall fuel P z V a M E0 loss osc gmax tr args pot s, exc_init fuel P z V a M E0 loss osc gmax tr = Some (Ok s) ->
  tr = "tbt"%string \/ tr = "abs"%string -> lattice_init args = Ok (pc_lattice P) -> independent (lt_a1 (pc_lattice P)) (lt_a2 (pc_lattice P)) -> 0 <= gmax ->
  conj_symmetric pot -> transform_of (lt_ec_area (pc_lattice P)) (ex_layer s) V (rc_g (ex_rc s)) pot ->
  forall ks m, ks <> [] ->
  let gs := rc_g (ex_rc s) in let n := List.length gs in let L := pc_lattice P in
  exists s' es, exc_run argsort eigh s ks m = (s', Ok tt) /\ ex_eners s' = Some (map (map (fun e => (e + E0, loss))) es) /\
    (forall i b, (List.length ks <= i)%nat \/ (Nat.min m n <= b)%nat -> ft_wavef s' i b = Raise IndexError) /\
    forall i k, nth_error ks i = Some k -> exists v : nat -> cvec, forall b, (b < Nat.min m n)%nat ->
      ft_wavef s' i b = Ok (v b) /\
      (forall p, (p < n)%nat -> csum n (fun q => (schroedinger hbar qe M a (flip (String.eqb tr "abs") pot) gs k p q * v b q)%C) = (RtoC (nth b (nth i es []) 0) * v b p)%C) /\
      (forall x y, wavef_point s' i b x y = Ok (wave gs (v b) x y)) /\ lattice_periodic (lt_a1 L) (lt_a2 L) (wave gs (v b)) /\
      forall b', (b' < Nat.min m n)%nat -> cell_mean (lt_a1 L) (lt_a2 L) (fun x y => (Cconj (wave gs (v b) x y) * wave gs (v b') x y)%C) (if Nat.eqb b b' then RtoC 1 else RtoC 0).
Proof. exact (wave_functions argsort eigh). Qed.
Print Assumptions C114_wave_functions.
(** its hypotheses are those of C53_run, see C53_run_hyps *)
Example C114_hyps V a M E0 loss gmax L : lattice_init (LatName "square") = Ok L -> 0 <= gmax ->
  exists s pot, exc_init 0 (disc_phc L) (1/2) V a M E0 loss OscNone gmax "tbt" = Some (Ok s) /\ ly_shapes (ex_layer s) <> [] /\
    independent (lt_a1 L) (lt_a2 L) /\ conj_symmetric pot /\ transform_of (lt_ec_area L) (ex_layer s) V (rc_g (ex_rc s)) pot.
Proof. intros HL Hg. destruct (disc_tbt V a M E0 loss gmax L HL Hg) as (s & pot & H). exists s, pot. tauto. Qed.
