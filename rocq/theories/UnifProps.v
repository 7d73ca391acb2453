(** Property C146: unpatterned layers. *)
From Coq Require Import Permutation List.
From Verif Require Import Py CBase LatticeModel LatticeSpec PhcModel PhcSpec RecipModel RecipSpec SlabModel SlabSpec MatElModel MatElSpec MatElProofs3 RunModel RunSpec RunSpec2 InvSpec GinvSpec PweSpec RunProofs11 OrthProofs2
  UnifSpec UnifProofs3 UnifProofs4 UnifProofs5 UnifProofs6.
Open Scope string_scope.
Open Scope list_scope.
Open Scope R_scope.

(** C146.  In unpatterned layers the matrix of the guided-mode expansion is diagonal:
    the entry of a slab mode of frequency w is w^2 times its magnetic energy, which
    the normalisation makes 1.  Missing: the regulariser 1/10^20 of the overlap
    integrals (0 here), and modes interpolated between nodes. *)
Theorem C146_matrix_partial gvec k dgx inds garr (te tm : gtable) eps ds einv :
  let d := gk_data gvec k dgx in
  (forall m oms cs, entry te tm m = Some (oms, cs) -> (0 < List.length oms <= List.length garr)%nat) ->
  (exists m, In m inds /\ entry te tm m <> None) -> NoDup inds ->
  unpatterned (List.length gvec) eps einv -> Forall (fun x => 0 <= x) ds ->
  slab_modes_at gvec k dgx inds garr te tm eps ds ->
  exists ms M, construct_mat 0 gvec k dgx inds garr te tm eps ds einv = Ok M /\
    map fst ms = present te tm inds /\
    Forall (fun x => get_guided (List.length gvec) (gk_len d) garr te tm eps (fst x) = Ok (snd x)) ms /\
    let sz := map (fun x => List.length (md_ind (snd x))) ms in
    nr M = list_sum sz /\ nc M = list_sum sz /\
    (forall P Q, (P < nr M)%nat -> (Q < nr M)%nat -> P <> Q -> ent M P Q = RtoC 0) /\
    (forall p r, (p < List.length ms)%nat -> (r < nth p sz 0)%nat -> let a := nth p ms dgm in
       exists E, is_energy (Nat.even (fst a)) (gk_len d (md_g (snd a) r)) (List.length eps) ds
           (fun il => md_chi (snd a) il r) (fun il => md_A (snd a) il r) (fun il => md_B (snd a) il r) E /\ 0 <= E /\
         ent M (offset sz p + r) (offset sz p + r) = RtoC (md_om (snd a) r * md_om (snd a) r * E)).
Proof. intros d H1 H2 H3 H4 H5 [H6 H7]. exact (unif_matrix gvec k dgx inds garr te tm eps ds einv H1 H2 H3 H4 H5 H6 H7). Qed.
Print Assumptions C146_matrix_partial.
(** its eigenvalues are these numbers, with multiplicity *)
Theorem C146_spectrum_partial gvec k dgx inds garr (te tm : gtable) eps ds einv M :
  let d := gk_data gvec k dgx in
  (forall m oms cs, entry te tm m = Some (oms, cs) -> (0 < List.length oms <= List.length garr)%nat) ->
  NoDup inds -> unpatterned (List.length gvec) eps einv -> Forall (fun x => 0 <= x) ds ->
  slab_modes_at gvec k dgx inds garr te tm eps ds ->
  construct_mat 0 gvec k dgx inds garr te tm eps ds einv = Ok M ->
  exists ls0, (forall ls V, eigensystem (nr M) (ent M) ls V -> Permutation ls ls0) /\
  forall l, In l ls0 <-> exists m x r E, In m (present te tm inds) /\ get_guided (List.length gvec) (gk_len d) garr te tm eps m = Ok x /\
    (r < List.length (md_ind x))%nat /\
    is_energy (Nat.even m) (gk_len d (md_g x r)) (List.length eps) ds (fun il => md_chi x il r) (fun il => md_A x il r) (fun il => md_B x il r) E /\ 0 <= E /\
    l = md_om x r * md_om x r * E.
Proof. exact (unif_spectrum gvec k dgx inds garr te tm eps ds einv M). Qed.
Print Assumptions C146_spectrum_partial.
(** the frequencies a run stores are those of slab modes, w sqrt E / 2 pi *)
Theorem C146_bands_partial argsort eigh eigsh inv root d o ks an s s' : sorts argsort -> diagonalises eigh -> o_solver o = "eigh" -> o_symm o = None ->
  run argsort eigh eigsh inv root 0 d o ks an s = (s', Ok tt) -> dv_gvec d <> [] -> NoDup (o_inds o) ->
  Forall (fun x => 0 <= x) (map ly_d (pc_layers (dv_phc d))) ->
  forall ik k, nth_error ks ik = Some k -> exists eps einv garr te tm,
    eps_for d o eps /\ g_einv s' = Some einv /\ 
    (grid_for o (dv_gvec d) ks k garr /\ table_for root o Nat.even "TE" eps (map ly_d (pc_layers (dv_phc d))) garr te /\
     table_for root o Nat.odd "TM" eps (map ly_d (pc_layers (dv_phc d))) garr tm) /\
    (unpatterned (List.length (dv_gvec d)) eps einv ->
     slab_modes_at (dv_gvec d) k (o_dgx o) (o_inds o) garr te tm eps (map ly_d (pc_layers (dv_phc d))) ->
     forall f, In f (nth ik (g_freqs s') []) -> exists m x r E, let g := gk_len (gk_data (dv_gvec d) k (o_dgx o)) in
       In m (present te tm (o_inds o)) /\ get_guided (List.length (dv_gvec d)) g garr te tm eps m = Ok x /\ (r < List.length (md_ind x))%nat /\
       is_energy (Nat.even m) (g (md_g x r)) (List.length eps) (map ly_d (pc_layers (dv_phc d)))
         (fun il => md_chi x il r) (fun il => md_A x il r) (fun il => md_B x il r) E /\
       f = md_om x r * sqrt E / (2 * PI)).
Proof. exact (unif_run argsort eigh eigsh inv root d o ks an s s'). Qed.
Print Assumptions C146_bands_partial.
(** layers without shapes are unpatterned in this sense *)
Theorem C146_uniform_layers inv only args gmax d : inverts inv -> lattice_init args = Ok (cell d) -> independent (lt_a1 (cell d)) (lt_a2 (cell d)) -> 0 <= gmax ->
  waves_of (cell d) (dv_tbt d) gmax (dv_rc d) ->
  each_layer (fun ly => ly_shapes ly = [] /\ 0 < ly_epsavg ly) d ->
  NoDup (dv_gvec d) -> (forall g g', In g (dv_gvec d) -> In g' (dv_gvec d) -> is_g0 (diff g g') -> g = g') ->
  unpatterned (List.length (dv_gvec d)) (map ly_epsavg (all_layers (dv_phc d))) (build_einv inv d only).
Proof. exact (plain_einv inv only args gmax d). Qed.
Print Assumptions C146_uniform_layers.
(** the modes the search returns are guided modes of the slab ... *)
Theorem C146_search root (te : bool) g e0 el ei ds n lb ub step tol oms cs w co :
  let eps := e0 :: ei ++ [el] in
  finds_roots root (D22real (if te then "TE" else "TM") g eps ds) ->
  List.length ds = List.length ei -> ei <> [] -> Forall (fun e => 0 < e) eps ->
  guided_mode_given_g root (if te then "TE" else "TM") g eps ds n lb ub step tol = Ok (oms, cs) ->
  0 < step -> In (w, co) (combine oms cs) -> 0 < w ->
  e0 * (w * w) < g * g -> el * (w * w) < g * g -> (List.length ei = 1%nat -> Forall (fun e => g * g < e * (w * w)) ei) ->
  Forall (fun e => chi w g e <> RtoC 0) ei -> snd (hd (RtoC 0, RtoC 0) co) <> RtoC 0 ->
  slab_solution te g w eps ds (fun il => chi w g (nth il eps 0)) (fun il => fst (nth il co (RtoC 0, RtoC 0))) (fun il => snd (nth il co (RtoC 0, RtoC 0))).
Proof. exact (searched_solution root te g e0 el ei ds n lb ub step tol oms cs w co). Qed.
Print Assumptions C146_search.
(** ... of energy 1 up to the regulariser of the normalisation *)
Theorem C146_energy root (te : bool) g e0 el ei ds n lb ub step tol oms cs w co :
  List.length ds = List.length ei -> ei <> [] -> Forall (fun d => 0 < d) ds -> 
  guided_mode_given_g root (if te then "TE" else "TM") g (e0 :: ei ++ [el]) ds n lb ub step tol = Ok (oms, cs) ->
  In (w, co) (combine oms cs) -> e0 * (w * w) < g * g -> el * (w * w) < g * g ->
  Forall (fun e => 2 * fst (chi w g e) <> reg) ei ->
  snd (hd (RtoC 0, RtoC 0) co) <> RtoC 0 -> snd (last co (RtoC 0, RtoC 0)) = RtoC 0 ->
  let eps := e0 :: ei ++ [el] in
  exists E K, 0 < E /\ Rabs (E - 1) <= reg * K /\
  is_energy te g (List.length eps) ds (fun il => chi w g (nth il eps 0)) (fun il => fst (nth il co (RtoC 0, RtoC 0))) (fun il => snd (nth il co (RtoC 0, RtoC 0))) E /\
  exists B mid A, co = (RtoC 0, B) :: mid ++ [(A, RtoC 0)] /\ mode_energy te g (chi w g e0) B (map (chi w g) ei) mid (chi w g el) A ds E K.
Proof. exact (searched_energy root te g e0 el ei ds n lb ub step tol oms cs w co). Qed.
Print Assumptions C146_energy.
(** a slab of permittivity 4 in vacuum with two TE modes at k = (1, 0) *)
Example C146_example : exists w1 w2 co1 co2,
  let te := [([w1], [at_layer co1]); ([w2], [at_layer co2])] in let eps := [1; 4; 1] in
  w1 <> w2 /\ unpatterned 1 eps (ex_einv eps) /\
  (forall m oms cs, entry te [] m = Some (oms, cs) -> (0 < List.length oms <= List.length [1])%nat) /\
  present te [] [0%nat; 2%nat] = [0%nat; 2%nat] /\
  slab_modes_at [(0, 0)] (1, 0) 0 [0%nat; 2%nat] [1] te [] eps [14 / 5].
Proof. exact ex_slab. Qed.
