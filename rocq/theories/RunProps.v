(** Properties C38, C43-C45, C67, C82, C83 and C113: the band computation.
    argsort, eigh, eigsh, inv and root stand for the external routines; nothing is
    assumed of them beyond the hypotheses shown. *)
From Coq Require Import List.
From Verif Require Import Py CBase LatticeModel PhcModel SymModel SymSpec SymProofs8 RecipModel SlabModel MatElModel MatElSpec
  RadModel RunModel RunSpec RunProofs RunProofs2 RunProofs4 RunProofs5 RunProofs6 RunProofs7 RunProofs8 RunProofs9 RunProofs10 RunSpec2 RunProofs11 RunProofs12.
Open Scope R_scope.
Open Scope list_scope.

(** C67.  find_nearest. *)
Theorem C67_find_nearest argsort : sorts argsort -> forall arr v n, (n <= List.length arr)%nat ->
  nearest (List.length arr) n (fun i => Rabs (nth i arr 0 - v)) (find_nearest argsort arr v n) /\
  ascending (map (fun i => Rabs (nth i arr 0 - v)) (find_nearest argsort arr v n)).
Proof. exact (nearest_ok argsort). Qed.
Print Assumptions C67_find_nearest.
Example C67_example argsort : sorts argsort -> find_nearest argsort [5; 2; 9] 8 2 = [2%nat; 0%nat].
Proof. exact (nearest_ex argsort). Qed.

(** C38.  A successful dense run without symmetry has, at every k-point, numeig
    frequencies in ascending order with their eigenvectors, and nothing left out
    is nearer to eig_sigma. *)
Theorem C38_bands argsort eigh eigsh inv root dl : sorts argsort ->
  forall d o ks an s s', diagonalises eigh -> o_solver o = "eigh"%string -> o_symm o = None ->
  run argsort eigh eigsh inv root dl d o ks an s = (s', Ok tt) ->
  List.length (g_freqs s') = List.length ks /\ List.length (g_vecs s') = List.length ks /\
  forall ik k, nth_error ks ik = Some k -> exists eps einv te tm mat ls V idx,
    matrix_at root dl d o ks eps einv k te tm mat /\ g_einv s' = Some einv /\
    reports (nr mat) (ent mat) ls V idx (nth ik (g_freqs s') []) (nth ik (g_vecs s') []) /\
    nearest (nr mat) (o_numeig o) (fun j => Rabs (freq_of (nth j ls 0) - o_sigma o)) idx.
Proof. exact (C38_run argsort eigh eigsh inv root dl). Qed.
Print Assumptions C38_bands.
(** the run of a uniform slab at one k-point *)
Example C38_example argsort eigh eigsh inv root dl : sorts argsort -> diagonalises eigh ->
  exists s', run argsort eigh eigsh inv root dl slab_dev (slab_opts false) slab_k [] fresh = (s', Ok tt).
Proof. intros Hs He. exact (slab_run argsort eigh eigsh inv root dl Hs He fresh). Qed.
(** more eigenvalues than the matrix has: ValueError, nothing stored for the point *)
Theorem C38_too_many argsort eigh eigsh root dl d o eps ds einv refl an ik k s s1 mat :
  construct root dl d o eps ds einv ik k s = (s1, Ok mat) -> (nr mat < o_numeig o)%nat ->
  one_k argsort eigh eigsh root dl d o eps ds einv refl an (ik, k) s = (s1, Raise ValueError).
Proof. exact (C38_fails argsort eigh eigsh root dl d o eps ds einv refl an ik k s s1 mat). Qed.
Print Assumptions C38_too_many.
(** as many as it has, or fewer: no failure *)
Theorem C38_no_failure argsort eigh eigsh root dl : sorts argsort ->
  forall d o eps ds einv refl an ik k s s1 mat, diagonalises eigh -> o_solver o = "eigh"%string -> o_symm o = None ->
  construct root dl d o eps ds einv ik k s = (s1, Ok mat) -> (o_numeig o <= nr mat)%nat ->
  exists s2 fs, one_k argsort eigh eigsh root dl d o eps ds einv refl an (ik, k) s = (s2, Ok (fs, [])).
Proof. exact (C38_succeeds argsort eigh eigsh root dl). Qed.
Print Assumptions C38_no_failure.
Example C38_matrix_example root dl einv : exists s1 mat,
  construct root dl slab_dev (slab_opts false) SlabProofs8.ex_eps SlabProofs8.ex_ds einv 0 (1, 0) fresh = (s1, Ok mat) /\ (1 <= nr mat)%nat.
Proof. exact (slab_construct root dl false einv fresh eq_refl). Qed.
(** C38 with the sparse solver: the selection is by distance in omega^2, not in
    frequency, and is not claimed when eig_sigma is itself an eigenfrequency. *)
Theorem C38_eigsh_partial argsort eigh eigsh inv root dl : sorts argsort ->
  forall d o ks an s s', diagonalises_near eigsh -> (0 < o_numeig o)%nat -> o_solver o = "eigsh"%string -> o_symm o = None ->
  run argsort eigh eigsh inv root dl d o ks an s = (s', Ok tt) ->
  forall ik k, nth_error ks ik = Some k -> exists eps einv te tm mat,
    matrix_at root dl d o ks eps einv k te tm mat /\ g_einv s' = Some einv /\
    (~ eigval (nr mat) (ent mat) (RtoC ((2 * PI * o_sigma o) * (2 * PI * o_sigma o))) -> exists ls V idx,
    reports (nr mat) (ent mat) ls V idx (nth ik (g_freqs s') []) (nth ik (g_vecs s') []) /\
    nearest (nr mat) (o_numeig o) (fun j => Rabs (nth j ls 0 - (2 * PI * o_sigma o) * (2 * PI * o_sigma o))) idx).
Proof. exact (C38_eigsh_run argsort eigh eigsh inv root dl). Qed.
Print Assumptions C38_eigsh_partial.
(** frequencies 0 and 19/10, eig_sigma = 13/10, one band: the reported one is 0 *)
Theorem C38_eigsh_refuted : exists o mat, herm mat /\ o_numeig o = 1%nat /\ o_sigma o = 13 / 10 /\ nr mat = 2%nat /\
  (exists v, eigvec 2 (ent mat) (RtoC b19) v) /\ freq_of b19 = 19 / 10 /\
  forall argsort eigsh, sorts argsort -> diagonalises_near eigsh -> exists vs, solve_eigsh argsort eigsh o mat = Ok ([0], vs).
Proof. exact eigsh_wrong. Qed.
Print Assumptions C38_eigsh_refuted.

(** C43 (and C82 below) for whole runs on a fresh object: wherever the matrix
    commutes with the reflection, the labels 'both' stores are the parities of the
    stored eigenvectors, and 'odd' / 'even' store the nearest modes of that parity.
    Missing from C43: that the run does not fail (see the refutation). *)
Theorem C43_labels_partial argsort eigh eigsh inv root dl : sorts argsort -> diagonalises eigh ->
  forall d o ks an s s' y, o_symm o = Some y -> 0 <= o_thr o -> g_ind s = [] ->
  run argsort eigh eigsh inv root dl d o ks an s = (s', Ok tt) ->
  exists sy, g_symms s' = Some sy /\ List.length sy = List.length ks /\
  forall ik k th, nth_error ks ik = Some k -> nth_error an ik = Some th -> exists eps einv te tm mat,
    matrix_at root dl d o ks eps einv k te tm mat /\ g_einv s' = Some einv /\
    sorted_by_parity d o th (nth ik (g_ind s') []) mat (lower y) (nth ik (g_freqs s') []) (nth ik (g_vecs s') []) (nth ik sy []).
Proof. exact (parity_run argsort eigh eigsh inv root dl). Qed.
Print Assumptions C43_labels_partial.
(** C43 for one matrix: with no more odd than even states it does not fail *)
Theorem C43_one_matrix_partial d o th inds mate mt s H :
  reflect_pairs th (dv_gvec d) (o_inds o) inds mate mt s ->
  let n := list_sum (map (@List.length nat) inds) in let T := refl_op mt s in
  (forall i j, (i < n)%nat -> (j < n)%nat -> H i j = Cconj (H j i)) ->
  (forall v i, (i < n)%nat -> mvec n H (T v) i = T (mvec n H v) i) -> 0 <= o_thr o ->
  forall argsort eigh, sorts argsort -> diagonalises eigh ->
  exists b, symm_basis d o (sym_mat th) (map (@List.length nat) inds) inds = Ok b /\ (sb_even b + sb_odd b)%nat = n /\
  ((0 < sb_even b)%nat -> (0 < sb_odd b)%nat -> exists E O, symm_split o (Arr n n H) b = Ok (E, O) /\
    ((sb_odd b <= sb_even b)%nat -> (o_numeig o <= n)%nat ->
      exists ls W idx fs vs sy, solve_both argsort eigh o b E O = Ok (fs, vs, sy) /\
        reports n H ls W idx fs vs /\ nearest n (o_numeig o) (fun j => Rabs (freq_of (nth j ls 0) - o_sigma o)) idx /\
        List.length sy = o_numeig o /\
        forall c, (c < o_numeig o)%nat -> has_parity n T (snd (nth c vs (0%nat, fun _ => RtoC 0))) (nth c sy 0%Z)) /\
    ((sb_even b < sb_odd b)%nat -> o_numeig o = n -> solve_both argsort eigh o b E O = Raise IndexError)).
Proof. exact (both_lem d o th inds mate mt s H). Qed.
Print Assumptions C43_one_matrix_partial.
Example C43_example : reflect_pairs 0 (dv_gvec ex_dev) [0%nat] [[0%nat; 1%nat; 2%nat]] (fun _ => SymProofs6.lmate ex_mate [0%nat; 1%nat; 2%nat]) ex_mate (fun _ => - 1) /\
  (forall i j, herm_H i j = Cconj (herm_H j i)) /\
  (forall v i, (i < 3)%nat -> mvec 3 herm_H (refl_op ex_mate (fun _ => - 1) v) i = refl_op ex_mate (fun _ => - 1) (mvec 3 herm_H v) i).
Proof. exact (conj ex_pairs (conj herm_H_ok herm_H_comm)). Qed.
(** one even and two odd states, all three requested: IndexError *)
Theorem C43_more_odd_refuted : exists d o th inds mate mt s H, reflect_pairs th (dv_gvec d) (o_inds o) inds mate mt s /\
  (let n := list_sum (map (@List.length nat) inds) in o_numeig o = n /\ o_symm o = Some "both"%string /\
   (forall i j, (i < n)%nat -> (j < n)%nat -> H i j = Cconj (H j i)) /\
   (forall v i, (i < n)%nat -> mvec n H (refl_op mt s v) i = refl_op mt s (mvec n H v) i) /\
   forall argsort eigh, sorts argsort -> diagonalises eigh ->
   exists b E O, symm_basis d o (sym_mat th) (map (@List.length nat) inds) inds = Ok b /\ symm_split o (Arr n n H) b = Ok (E, O) /\
     (sb_even b + sb_odd b)%nat = n /\
     solve_both argsort eigh o b E O = Raise IndexError).
Proof. exact both_wrong. Qed.
Print Assumptions C43_more_odd_refuted.

(** C44.  What holds: a symmetric run that succeeds had every requested guided
    mode at every k-point. *)
Theorem C44_needs_all_partial argsort eigh eigsh inv root dl d o ks an s s' : o_symm o <> None ->
  run argsort eigh eigsh inv root dl d o ks an s = (s', Ok tt) ->
  forall ik k, nth_error ks ik = Some k -> exists eps einv te tm mat, matrix_at root dl d o ks eps einv k te tm mat /\
    forall m, In m (o_inds o) -> entry te tm m <> None.
Proof. exact (C44_needs_all argsort eigh eigsh inv root dl d o ks an s s'). Qed.
Print Assumptions C44_needs_all_partial.
(** a k-point where mode 2 of [0,1,2] is missing: the matrix is built and equals
    the one for [0,1]; the basis exists for [0,1], but [0,1,2] gives IndexError *)
Theorem C44_missing_mode_refuted : exists d o k garr te tm eps ds einv M ms b,
  o_symm o = Some "both"%string /\ o_inds o = [0%nat; 1%nat; 2%nat] /\ entry te tm 2 = None /\
  construct_mat 0 (dv_gvec d) k (o_dgx o) (o_inds o) garr te tm eps ds einv = Ok M /\
  construct_mat 0 (dv_gvec d) k (o_dgx o) [0%nat; 1%nat] garr te tm eps ds einv = Ok M /\
  gmode_include (o_inds o) te tm = [0%nat; 1%nat] /\
  mapM (get_guided (List.length (dv_gvec d)) (gk_len (gk_data (dv_gvec d) k (o_dgx o))) garr te tm eps) [0%nat; 1%nat] = Ok ms /\
  symm_basis d (with_inds o [0%nat; 1%nat]) (sym_mat 0) (map md_size ms) (map md_ind ms) = Ok b /\
  symm_basis d o (sym_mat 0) (map md_size ms) (map md_ind ms) = Raise IndexError.
Proof. exact missing_wrong. Qed.
Print Assumptions C44_missing_mode_refuted.

(** C45.  After any history of runs, failed ones included: same outcome and same
    results as on a fresh object, if no symmetry is used (or no earlier run got as
    far as storing modes) and, for truncation 'abs', only_gmodes never changed. *)
Theorem C45_history_partial argsort eigh eigsh inv root dl d h o ks an :
  (o_symm o = None \/ g_ind (runs argsort eigh eigsh inv root dl d h fresh) = []) ->
  (dv_tbt d = true \/ forall x, In x h -> o_only (ho x) = o_only o) ->
  let a := run argsort eigh eigsh inv root dl d o ks an (runs argsort eigh eigsh inv root dl d h fresh) in
  let b := run argsort eigh eigsh inv root dl d o ks an fresh in
  snd a = snd b /\ (snd a = Ok tt ->
    g_freqs (fst a) = g_freqs (fst b) /\ g_vecs (fst a) = g_vecs (fst b) /\ g_symms (fst a) = g_symms (fst b) /\
    g_inc (fst a) = g_inc (fst b) /\ g_numg (fst a) = g_numg (fst b) /\ g_tabs (fst a) = g_tabs (fst b) /\ g_k (fst a) = g_k (fst b) /\
    (o_im o = true -> g_im (fst a) = g_im (fst b) /\ g_ub (fst a) = g_ub (fst b) /\ g_rad (fst a) = g_rad (fst b))).
Proof. exact (C45_lem argsort eigh eigsh inv root dl d h o ks an). Qed.
Print Assumptions C45_history_partial.
Example C45_example : o_symm (slab_opts true) = None /\ dv_tbt slab_dev = true.
Proof. exact (conj eq_refl eq_refl). Qed.
(** what is kept: without compute_im the losses of the earlier run *)
Theorem C45_losses_kept argsort eigh eigsh inv root dl d o ks an s : o_im o = false ->
  g_im (fst (run argsort eigh eigsh inv root dl d o ks an s)) = g_im s /\
  g_ub (fst (run argsort eigh eigsh inv root dl d o ks an s)) = g_ub s.
Proof. exact (im_kept argsort eigh eigsh inv root dl d o ks an s). Qed.
Print Assumptions C45_losses_kept.
(** with a symmetry, the plane-wave lists of the earlier run are the ones used *)
Theorem C45_modes_kept argsort eigh eigsh inv root dl d o ks an s s' : o_symm o <> None ->
  run argsort eigh eigsh inv root dl d o ks an s = (s', Ok tt) ->
  forall ik, (ik < List.length ks)%nat -> (ik < List.length (g_ind s))%nat ->
  nth ik (g_ind s') [] = nth ik (g_ind s) [] /\
  (List.length (o_inds o) <= List.length (nth ik (g_ind s) []))%nat.
Proof. exact (stale_modes argsort eigh eigsh inv root dl d o ks an s s'). Qed.
Print Assumptions C45_modes_kept.
(** two runs of a uniform slab, with and then without compute_im: the second
    leaves one row in freqs_im, on a fresh object it leaves none *)
Theorem C45_stale_losses_refuted : exists d o1 o2 ks, o_im o1 = true /\ o_im o2 = false /\
  forall argsort eigh eigsh inv root dl, sorts argsort -> diagonalises eigh ->
  exists s1 s2 s3, run argsort eigh eigsh inv root dl d o1 ks [] fresh = (s1, Ok tt) /\
    run argsort eigh eigsh inv root dl d o2 ks [] s1 = (s2, Ok tt) /\
    run argsort eigh eigsh inv root dl d o2 ks [] fresh = (s3, Ok tt) /\
    g_freqs s2 = g_freqs s3 /\ List.length (g_im s2) = 1%nat /\ g_im s3 = [].
Proof. exact im_stale. Qed.
Print Assumptions C45_stale_losses_refuted.

(** C82.  kz_symmetry = 'odd' or 'even' on one matrix: the numeig nearest modes of
    that parity, or ValueError if there are fewer. *)
Theorem C82_one_parity d o th inds mate mt s H :
  reflect_pairs th (dv_gvec d) (o_inds o) inds mate mt s ->
  let n := list_sum (map (@List.length nat) inds) in let T := refl_op mt s in
  (forall i j, (i < n)%nat -> (j < n)%nat -> H i j = Cconj (H j i)) ->
  (forall v i, (i < n)%nat -> mvec n H (T v) i = T (mvec n H v) i) -> 0 <= o_thr o ->
  forall argsort eigh, sorts argsort -> diagonalises eigh ->
  exists b, symm_basis d o (sym_mat th) (map (@List.length nat) inds) inds = Ok b /\ (sb_even b + sb_odd b)%nat = n /\
  ((0 < sb_even b)%nat -> (0 < sb_odd b)%nat -> exists E O, symm_split o (Arr n n H) b = Ok (E, O) /\
    ((o_numeig o <= sb_even b)%nat -> exists ls W idx fs vs, solve_one argsort eigh o b E (pad_below (sb_odd b)) = Ok (fs, vs) /\
        reports n H ls W idx fs vs /\ nearest_of_parity n (o_numeig o) T 1 W (fun j => Rabs (freq_of (nth j ls 0) - o_sigma o)) idx) /\
    ((o_numeig o <= sb_odd b)%nat -> exists ls W idx fs vs, solve_one argsort eigh o b O (pad_above (sb_even b)) = Ok (fs, vs) /\
        reports n H ls W idx fs vs /\ nearest_of_parity n (o_numeig o) T (-1) W (fun j => Rabs (freq_of (nth j ls 0) - o_sigma o)) idx) /\
    ((sb_even b < o_numeig o)%nat -> solve_one argsort eigh o b E (pad_below (sb_odd b)) = Raise ValueError) /\
    ((sb_odd b < o_numeig o)%nat -> solve_one argsort eigh o b O (pad_above (sb_even b)) = Raise ValueError)).
Proof. exact (one_lem d o th inds mate mt s H). Qed.
Print Assumptions C82_one_parity.
(** ... and in a whole run: the case "odd"/"even" of the run theorem of C43 *)
Theorem C82_run argsort eigh eigsh inv root dl : sorts argsort -> diagonalises eigh ->
  forall d o ks an s s' y, o_symm o = Some y -> lower y = "odd"%string -> 0 <= o_thr o -> g_ind s = [] ->
  run argsort eigh eigsh inv root dl d o ks an s = (s', Ok tt) ->
  forall ik k th, nth_error ks ik = Some k -> nth_error an ik = Some th -> exists eps einv te tm mat,
    matrix_at root dl d o ks eps einv k te tm mat /\
    forall mate mt sg, reflect_pairs th (dv_gvec d) (o_inds o) (nth ik (g_ind s') []) mate mt sg ->
    let T := refl_op mt sg in
    (forall v i, (i < nr mat)%nat -> mvec (nr mat) (ent mat) (T v) i = T (mvec (nr mat) (ent mat) v) i) ->
    exists ls W idx, reports (nr mat) (ent mat) ls W idx (nth ik (g_freqs s') []) (nth ik (g_vecs s') []) /\
      nearest_of_parity (nr mat) (o_numeig o) T (-1) W (fun j => Rabs (freq_of (nth j ls 0) - o_sigma o)) idx.
Proof. exact (odd_run argsort eigh eigsh inv root dl). Qed.
Print Assumptions C82_run.

(** C83.  compute_im never makes a dense run without symmetry fail and changes no
    frequency or eigenvector. *)
Theorem C83_losses_harmless argsort eigh eigsh inv root dl : sorts argsort -> diagonalises eigh ->
  forall d o ks an s s', o_im o = false -> o_solver o = "eigh"%string -> o_symm o = None ->
  (0 < o_numeig o)%nat -> ks <> [] -> pc_layers (dv_phc d) <> [] ->
  (o_epseff o = "custom"%string -> forall l, dv_custom d = Some l -> List.length l = List.length (all_layers (dv_phc d))) ->
  run argsort eigh eigsh inv root dl d o ks an s = (s', Ok tt) ->
  exists s2, run argsort eigh eigsh inv root dl d (with_im o true) ks an s = (s2, Ok tt) /\
    g_freqs s2 = g_freqs s' /\ g_vecs s2 = g_vecs s' /\
    List.length (g_im s2) = List.length ks /\ List.length (g_ub s2) = List.length ks /\
    forall ik, (ik < List.length ks)%nat -> (o_numeig o <= List.length (nth ik (g_im s2) []))%nat.
Proof. exact (im_total argsort eigh eigsh inv root dl). Qed.
Print Assumptions C83_losses_harmless.
Example C83_example argsort eigh eigsh inv root dl : sorts argsort -> diagonalises eigh ->
  exists s s', run argsort eigh eigsh inv root dl slab_dev (slab_opts false) slab_k [] s = (s', Ok tt) /\ pc_layers (dv_phc slab_dev) <> [].
Proof.
  intros Hs He. exists fresh. destruct (slab_run argsort eigh eigsh inv root dl Hs He fresh) as [s' E]. exists s'. split; [exact E|discriminate].
Qed.

(** Without k-points a run computes nothing, and asking for losses then fails. *)
Theorem C83_no_kpoints argsort eigh eigsh inv root dl d o an s s' : o_im o = false ->
  run argsort eigh eigsh inv root dl d o [] an s = (s', Ok tt) ->
  g_freqs s' = [] /\ g_vecs s' = [] /\ run argsort eigh eigsh inv root dl d (with_im o true) [] an s = (s', Raise RuntimeError).
Proof. exact (no_kpoints argsort eigh eigsh inv root dl d o an s s'). Qed.
Print Assumptions C83_no_kpoints.
Example C83_no_kpoints_example argsort eigh eigsh inv root dl s :
  exists s', run argsort eigh eigsh inv root dl slab_dev (slab_opts false) [] [] s = (s', Ok tt) /\ o_im (slab_opts false) = false.
Proof. destruct (slab_nothing argsort eigh eigsh inv root dl s) as [s' E]. exists s'. auto. Qed.

(** C113.  The mode tables a run leaves behind: the nodes are the plane waves'
    wave numbers in ascending order (or an equally spaced grid up to the largest
    |G| plus the largest |k|), all but the last lowered by delta_gabs; the TE
    table belongs to the even and the TM table to the odd mode indices, and its
    row m lists mode m over the nodes that have it. *)
Theorem C113_tables argsort eigh eigsh inv root dl d o ks an s s' :
  run argsort eigh eigsh inv root dl d o ks an s = (s', Ok tt) -> dv_gvec d <> [] ->
  exists eps, eps_for d o eps /\ forall ik k, nth_error ks ik = Some k -> exists garr te tm,
    nth_error (g_tabs s') (if String.eqb (lower (o_compute o)) "interp" then 0 else ik)%nat = Some (garr, te, tm) /\
    grid_for o (dv_gvec d) ks k garr /\
    table_for root o Nat.even "TE" eps (map ly_d (pc_layers (dv_phc d))) garr te /\
    table_for root o Nat.odd "TM" eps (map ly_d (pc_layers (dv_phc d))) garr tm.
Proof. exact (run_tables argsort eigh eigsh inv root dl d o ks an s s'). Qed.
Print Assumptions C113_tables.
(** the matrices of C38, C43 and C82 are built from such tables *)
Theorem C113_matrix root dl d o ks eps einv k te tm mat : ks <> [] -> dv_gvec d <> [] ->
  matrix_at root dl d o ks eps einv k te tm mat ->
  eps_for d o eps /\ exists garr, (grid_for o (dv_gvec d) ks k garr /\
    table_for root o Nat.even "TE" eps (map ly_d (pc_layers (dv_phc d))) garr te /\
    table_for root o Nat.odd "TM" eps (map ly_d (pc_layers (dv_phc d))) garr tm) /\
    construct_mat dl (dv_gvec d) k (o_dgx o) (o_inds o) garr te tm eps (map ly_d (pc_layers (dv_phc d))) einv = Ok mat.
Proof. exact (matrix_tables root dl d o ks eps einv k te tm mat). Qed.
Print Assumptions C113_matrix.
(** no plane wave lies outside the nodes: above by at most |delta_gx| and only
    with 'interp', never below *)
Theorem C113_reaches o gvec ks k garr G : grid_for o gvec ks k garr -> In G gvec -> In k ks ->
  let n := List.length garr in
  (lower (o_compute o) = "exact"%string -> n = List.length gvec /\ wave_len G k (o_dgx o) <= nth (n - 1) garr 0 /\
     ((2 <= n)%nat -> nth 0 garr 0 + o_dgabs o <= wave_len G k (o_dgx o))) /\
  (lower (o_compute o) = "interp"%string -> n = o_npts o /\ ((2 <= n)%nat ->
     wave_len G k (o_dgx o) <= nth (n - 1) garr 0 + Rabs (o_dgx o) /\ nth 0 garr 0 + o_dgabs o <= wave_len G k (o_dgx o))).
Proof. exact (grid_reaches o gvec ks k garr G). Qed.
Print Assumptions C113_reaches.
Theorem C113_nodes_ascending o gvec ks k garr : grid_for o gvec ks k garr -> 0 <= o_dgabs o -> MatElSpec.ascending garr.
Proof. exact (grid_ascending o gvec ks k garr). Qed.
Print Assumptions C113_nodes_ascending.
(** if no mode is lost from one node to the next, row m/2 of the table belongs to
    the last nodes, and the mode used at a plane wave is the linear interpolation
    between the neighbouring nodes' modes number m/2 *)
Theorem C113_interpolated root pol garr eps ds n step tol rs ng gk (te tm : gtable) eps' m oms cs m' :
  guided_modes root pol garr eps ds n step tol = Ok rs -> MatElSpec.ascending garr ->
  tabulates rs (if Nat.even m then te else tm) -> more_and_more rs ->
  entry te tm m = Some (oms, cs) -> get_guided ng gk garr te tm eps' m = Ok m' ->
  let skip := (List.length garr - List.length oms)%nat in
  (forall j, (j < List.length oms)%nat -> nth_error oms j = nth_error (fst (nth (skip + j) rs ([], []))) (m / 2) /\
     forall il, nth j cs (fun _ => (RtoC 0, RtoC 0)) il = nth il (nth (m / 2) (snd (nth (skip + j) rs ([], []))) []) (RtoC 0, RtoC 0)) /\
  forall i, let x := gk (md_g m' i) in
    lerp (skipn skip garr) (map RtoC oms) x (RtoC (md_om m' i)) /\
    forall il, md_chi m' il i = chi (md_om m' i) x (nth il eps' 0) /\
      lerp (skipn skip garr) (map (fun c => fst (c il)) cs) x (md_A m' il i) /\
      lerp (skipn skip garr) (map (fun c => snd (c il)) cs) x (md_B m' il i).
Proof. exact (tables_interpolated root pol garr eps ds n step tol rs ng gk te tm eps' m oms cs m'). Qed.
Print Assumptions C113_interpolated.
Example C113_example argsort eigh eigsh inv root dl : sorts argsort -> diagonalises eigh ->
  (exists s', run argsort eigh eigsh inv root dl slab_dev (slab_opts false) slab_k [] fresh = (s', Ok tt)) /\ dv_gvec slab_dev <> [].
Proof. intros Hs He. split; [exact (slab_run argsort eigh eigsh inv root dl Hs He fresh)|rewrite slab_g; discriminate]. Qed.
(** a second mode that appears at the second of two nodes *)
Example C113_example_rows (a b c : list (C * C)) :
  let rs := [([1], [a]); ([2; 3], [b; c])] in let val x := fun il : nat => nth il x (RtoC 0, RtoC 0) in
  tabulates rs [([1; 2], [val a; val b]); ([3], [val c])] /\ more_and_more rs.
Proof.
  split.
  - intros [|[|m]]; cbn [nth_error].
    + split; [exists ([1], [a]); split; [left; reflexivity|cbn; lia]|]. split; [reflexivity|]. split; [reflexivity|].
      intros [|[|j]] il Hj; cbn [List.length] in Hj; [reflexivity|reflexivity|lia].
    + split; [exists ([2; 3], [b; c]); split; [right; left; reflexivity|cbn; lia]|]. split; [reflexivity|]. split; [reflexivity|].
      intros [|j] il Hj; cbn [List.length] in Hj; [reflexivity|lia].
    + destruct m; cbn [nth_error]; intros r [<-|[<-|[]]]; cbn [fst List.length]; lia.
  - intros [|[|i]] [|[|j]] H; cbn [List.length] in H; cbn [map fst nth List.length]; lia.
Qed.
