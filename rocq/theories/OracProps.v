(** Properties C116 and C117: what the results owe to numpy's and scipy's
    routines. *)
From Coquelicot Require Import Coquelicot.
From Verif Require Import Py CBase LatticeModel PhcModel SymModel SymSpec RunModel RunSpec RunProofs RunProofs5 RunProofs9 RecipModel RadModel MatElModel MatElSpec RecipSpec PweSpec PolSpec SlabModel SlabSpec OracSpec OracProofs OracProofs2 OracProofs3.
Open Scope R_scope.
Open Scope list_scope.

(** C116.  With eig_sigma <= 0 (the default is 0) a dense run without symmetry
    reports the smallest frequencies of the matrix at each k-point ... *)
Theorem C116_lowest inv root dl argsort eigh eigsh : sorts argsort -> diagonalises eigh ->
  forall d o ks an s s', o_solver o = "eigh"%string -> o_symm o = None -> o_sigma o <= 0 ->
  run argsort eigh eigsh inv root dl d o ks an s = (s', Ok tt) ->
  List.length (g_freqs s') = List.length ks /\
  forall ik k, nth_error ks ik = Some k -> exists eps einv te tm mat,
    matrix_at root dl d o ks eps einv k te tm mat /\ g_einv s' = Some einv /\ herm mat /\
    forall ls V, eigensystem (nr mat) (ent mat) ls V -> smallest (o_numeig o) (map freq_of ls) (nth ik (g_freqs s') []).
Proof. exact (gme_lowest inv root dl argsort eigh eigsh). Qed.
Print Assumptions C116_lowest.
(** ... whichever eigenvectors the solver returns and however ties are sorted. *)
Theorem C116_solver_independent inv root dl argsort eigh eigsh argsort' eigh' eigsh' : sorts argsort -> diagonalises eigh -> sorts argsort' -> diagonalises eigh' ->
  forall d o ks an s s1 s2, o_solver o = "eigh"%string -> o_symm o = None -> o_sigma o <= 0 ->
  run argsort eigh eigsh inv root dl d o ks an s = (s1, Ok tt) -> run argsort' eigh' eigsh' inv root dl d o ks an s = (s2, Ok tt) ->
  g_freqs s1 = g_freqs s2.
Proof. exact (gme_solver_free inv root dl argsort eigh eigsh argsort' eigh' eigsh'). Qed.
Print Assumptions C116_solver_independent.
Example C116_run_example argsort eigh eigsh inv root dl : sorts argsort -> diagonalises eigh -> o_sigma (slab_opts false) = 0 /\
  exists s', run argsort eigh eigsh inv root dl slab_dev (slab_opts false) slab_k [] fresh = (s', Ok tt).
Proof. intros Hs He. split; [reflexivity|]. exact (slab_run argsort eigh eigsh inv root dl Hs He fresh). Qed.
(** eig_sigma = 0: the sparse solver gives the frequencies of the dense one at
    every k-point whose matrix has no zero eigenvalue *)
Theorem C116_dense_sparse inv root dl argsort eigh eigsh argsort' eigh' eigsh' : sorts argsort -> diagonalises eigh -> sorts argsort' -> diagonalises_near eigsh' ->
  forall d o ks an s s1 s2, (0 < o_numeig o)%nat -> o_symm o = None -> o_sigma o = 0 ->
  run argsort eigh eigsh inv root dl d (with_solver "eigh" o) ks an s = (s1, Ok tt) ->
  run argsort' eigh' eigsh' inv root dl d (with_solver "eigsh" o) ks an s = (s2, Ok tt) ->
  forall ik k, nth_error ks ik = Some k -> exists eps einv te tm mat, matrix_at root dl d o ks eps einv k te tm mat /\ g_einv s1 = Some einv /\ g_einv s2 = Some einv /\
  (~ eigval (nr mat) (ent mat) (RtoC 0) -> nth ik (g_freqs s1) [] = nth ik (g_freqs s2) []).
Proof. exact (gme_dense_sparse inv root dl argsort eigh eigsh argsort' eigh' eigsh'). Qed.
Print Assumptions C116_dense_sparse.
(** the same for one matrix; neither solver fails *)
Theorem C116_one_matrix argsort eigh argsort' eigsh : sorts argsort -> diagonalises eigh -> sorts argsort' -> diagonalises_near eigsh ->
  forall o mat, herm mat -> (0 < o_numeig o <= nr mat)%nat -> o_sigma o = 0 -> ~ eigval (nr mat) (ent mat) (RtoC 0) ->
  exists fs vs vs', solve_plain argsort eigh o mat = Ok (fs, vs) /\ solve_eigsh argsort' eigsh o mat = Ok (fs, vs') /\
    forall ls V, eigensystem (nr mat) (ent mat) ls V -> smallest (o_numeig o) (map freq_of ls) fs.
Proof. exact (solvers_agree argsort eigh argsort' eigsh). Qed.
Print Assumptions C116_one_matrix.
Example C116_matrix_example : herm tie_mat /\ nr tie_mat = 2%nat /\ ~ eigval 2 (ent tie_mat) (RtoC 0).
Proof. exact (conj tie_herm (conj eq_refl tie_regular)). Qed.
(** For a positive eig_sigma this is false: two bands at the same distance, one
    requested, and the outcome is how argsort breaks the tie. *)
Theorem C116_tie_refuted : exists o mat, 0 < o_sigma o /\ herm mat /\ exists eigh argsort argsort' vs vs', diagonalises eigh /\ sorts argsort /\ sorts argsort' /\
  solve_plain argsort eigh o mat = Ok ([1], vs) /\ solve_plain argsort' eigh o mat = Ok ([3], vs').
Proof. exact (ex_intro _ tie_opts (ex_intro _ tie_mat (conj (Rlt_0_2 : 0 < o_sigma tie_opts) ties))). Qed.
Print Assumptions C116_tie_refuted.

(** C117.  The contracts under which the theorems use numpy's and scipy's routines
    can be met for every input. *)

(** numpy.argsort of real and of complex numbers *)
Theorem C117_argsort : (exists argsort, sorts argsort) /\ (exists cargsort, csorts cargsort).
Proof. exact (conj sorts_exists csorts_exists). Qed.
Print Assumptions C117_argsort.

(** numpy.linalg.inv *)
Theorem C117_inv : exists inv, inverts inv.
Proof. exact inverts_exists. Qed.
Print Assumptions C117_inv.

(** numpy.linalg.eigh: every Hermitian matrix has an orthonormal eigensystem *)
Theorem C117_eigh : exists eigh, diagonalises eigh.
Proof. exact diagonalises_exists. Qed.
Print Assumptions C117_eigh.

(** scipy.sparse.linalg.eigsh *)
Theorem C117_eigsh : exists eigsh, diagonalises_near eigsh.
Proof. exact diagonalises_near_exists. Qed.
Print Assumptions C117_eigsh.

(** numpy.linalg.eig of any complex matrix *)
Theorem C117_eig : exists eig, solves eig.
Proof. exact solves_exists. Qed.
Print Assumptions C117_eig.

(** scipy.optimize.brentq on the characteristic function of any stack; one
    routine serves all stacks, polarisations and wave vectors *)
Theorem C117_brentq : exists root, forall pol g eps ds, finds_roots root (D22real pol g eps ds).
Proof. exact finds_roots_exists. Qed.
Print Assumptions C117_brentq.

(** a matrix of the contract of [solves] without a basis of eigenvectors *)
Example C117_example : eigval 2 (fun i j => if Nat.eqb j (S i) then RtoC 1 else RtoC 0) (RtoC 0) /\
  exists eig, solves eig /\ In (RtoC 0) (fst (eig 2%nat (fun i j => if Nat.eqb j (S i) then RtoC 1 else RtoC 0))).
Proof.
  assert (E : eigval 2 (fun i j => if Nat.eqb j (S i) then RtoC 1 else RtoC 0) (RtoC 0)).
  { exists (fun i => if Nat.eqb i 0 then RtoC 1 else RtoC 0). split.
    - exists 0%nat. split; [lia|]. cbn. intros H. injection H. lra.
    - intros [|[|i]] Hi; [| |lia]; unfold mvec; cbn; ring. }
  split; [exact E|]. destruct C117_eig as [eig H]. exists eig. split; [exact H|]. apply (H 2%nat). exact E.
Qed.
