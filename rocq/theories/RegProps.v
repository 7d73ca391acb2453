(** Properties C147: the regulariser of the overlap integrals, and C146 for modes
    computed at every plane wave. *)
From Coq Require Import Permutation List String.
From Verif Require Import Py CBase LatticeModel LatticeSpec PhcModel PhcSpec RecipModel RecipSpec ShapesSpec SlabModel SlabSpec MatElModel MatElSpec RunModel RunSpec RunSpec2 InvSpec GinvSpec PweSpec UnifSpec RunProofs RunProofs9 RunProofs11
  RegSpec RegSpec2 RegProofs2 RegProofs4 RegProofs5 RegProofs6 RegProofs7 RegProofs8 RegProofs9 RegProofs10 RegProofs11.
Open Scope R_scope.
Open Scope list_scope.

(** C147.  The overlap integrals I and J of gme/slab_modes.py add dl = 1/10^20 to
    their denominators.  When the modes decay in both claddings the matrix of the
    guided-mode expansion depends on dl at most linearly near dl = 0 ... *)
Theorem C147_matrix gvec k dgx inds garr te tm eps ds einv M0 : decaying_at gvec k dgx inds garr te tm eps -> Forall (fun x => 0 <= x) ds ->
  construct_mat 0 gvec k dgx inds garr te tm eps ds einv = Ok M0 ->
  exists K, 0 <= K /\ forall dl, 0 <= dl <= 1 -> exists M, construct_mat dl gvec k dgx inds garr te tm eps ds einv = Ok M /\ nr M = nr M0 /\ nc M = nc M0 /\
    forall i j, (i < nr M0)%nat -> (j < nr M0)%nat -> Cmod (ent M i j - ent M0 i j)%C <= K * dl.
Proof. exact (matrix_close gvec k dgx inds garr te tm eps ds einv M0). Qed.
Print Assumptions C147_matrix.

(** ... and so do the squares of the frequencies that run stores; whether it fails
    does not depend on dl *)
Theorem C147_bands argsort eigh eigsh inv root d o ks an s : sorts argsort -> diagonalises eigh ->
  o_solver o = "eigh"%string -> o_symm o = None -> o_sigma o = 0 -> dv_gvec d <> [] -> let ds := map ly_d (pc_layers (dv_phc d)) in Forall (fun x => 0 <= x) ds ->
  (forall eps garr te tm k, In k ks -> eps_for d o eps ->
     grid_for o (dv_gvec d) ks k garr /\ table_for root o Nat.even "TE" eps ds garr te /\ table_for root o Nat.odd "TM" eps ds garr tm ->
     decaying_at (dv_gvec d) k (o_dgx o) (o_inds o) garr te tm eps) ->
  exists K, 0 <= K /\ forall dl, 0 <= dl <= 1 ->
    let r0 := run argsort eigh eigsh inv root 0 d o ks an s in let r := run argsort eigh eigsh inv root dl d o ks an s in
    (o_im o = false -> g_einv s = None -> snd r = snd r0) /\
    (snd r0 = Ok tt -> snd r = Ok tt -> forall ik, (ik < List.length ks)%nat ->
     List.length (nth ik (g_freqs (fst r0)) []) = o_numeig o /\ List.length (nth ik (g_freqs (fst r)) []) = o_numeig o /\
     forall b, (b < o_numeig o)%nat -> let f := nth b (nth ik (g_freqs (fst r)) []) 0 in let f0 := nth b (nth ik (g_freqs (fst r0)) []) 0 in
       Rabs (f * f - f0 * f0) <= K * dl /\ Rabs (f - f0) <= sqrt (K * dl)).
Proof. exact (regularised_run argsort eigh eigsh inv root d o ks an s). Qed.
Print Assumptions C147_bands.

(** modes interpolated between decaying nodes decay *)
Theorem C147_nodes gvec k dgx inds garr te tm eps : 0 <= nth 0 eps 0 -> 0 <= nth (List.length eps - 1) eps 0 ->
  (forall m oms cs, In m inds -> entry te tm m = Some (oms, cs) -> nodes_decay eps garr oms cs) -> (forall m, In m inds -> reaches_node gvec k dgx garr te tm m) ->
  decaying_at gvec k dgx inds garr te tm eps.
Proof. exact (decaying_nodes gvec k dgx inds garr te tm eps). Qed.
Print Assumptions C147_nodes.
(** the nodes of the tables that a run computes decay, from the smallest wave number
    1/10^4 of the mode search on *)
Theorem C147_search root d o ks k e0 el ei garr te tm : let eps := e0 :: ei ++ [el] in let ds := map ly_d (pc_layers (dv_phc d)) in
  (forall pol g, finds_roots root (D22real pol g eps ds)) -> List.length ds = List.length ei -> ei <> [] -> Forall (fun e => 0 < e) eps ->
  0 < o_step o -> 0 < o_tol o < 1 -> 0 <= o_dgabs o -> (forall pol, off_lines pol e0 el ei ds) ->
  grid_for o (dv_gvec d) ks k garr /\ table_for root o Nat.even "TE" eps ds garr te /\ table_for root o Nat.odd "TM" eps ds garr tm ->
  (forall m oms cs, In m (o_inds o) -> entry te tm m = Some (oms, cs) -> / 10 ^ 4 <= nth (List.length garr - List.length oms) garr 0) ->
  forall m oms cs, In m (o_inds o) -> entry te tm m = Some (oms, cs) -> nodes_decay eps garr oms cs.
Proof. exact (found_decaying root d o ks k e0 el ei garr te tm). Qed.
Print Assumptions C147_search.
(** gmode_compute 'exact': a mode found at every plane wave reaches its first node *)
Theorem C147_exact o gvec ks k garr te tm m : grid_for o gvec ks k garr -> lower (o_compute o) = "exact"%string -> 0 <= o_dgabs o ->
  (forall oms cs, entry te tm m = Some (oms, cs) -> List.length oms = List.length garr) -> reaches_node gvec k (o_dgx o) garr te tm m.
Proof. exact (reaches_exact o gvec ks k garr te tm m). Qed.
Print Assumptions C147_exact.

(** the symmetry of the bands of C138, with the regulariser *)
Theorem C147_symmetry argsort eigh eigsh inv root : sorts argsort -> diagonalises eigh -> eigh_ascending eigh -> inverts inv ->
  forall args gmax d M o ks ks' an s, lattice_init args = Ok (cell d) -> independent (lt_a1 (cell d)) (lt_a2 (cell d)) -> 0 <= gmax ->
  waves_of (cell d) (dv_tbt d) gmax (dv_rc d) -> each_layer (layer_usable d) d ->
  linear_isometry M -> closed_under M (dv_gvec d) -> each_layer (fun ly => invariant_on (difference_of (dv_gvec d)) M (transform d ly)) d ->
  Forall2 (fun k k' => (fst k' + o_dgx o, snd k') = M (fst k + o_dgx o, snd k)) ks ks' ->
  (lower (o_compute o) = "interp"%string -> map len ks' = map len ks) -> o_solver o = "eigh"%string -> o_symm o = None -> g_einv s = None ->
  o_im o = false -> o_sigma o = 0 -> dv_gvec d <> [] -> let ds := map ly_d (pc_layers (dv_phc d)) in Forall (fun x => 0 <= x) ds ->
  (forall eps garr te tm k, In k ks -> eps_for d o eps ->
     grid_for o (dv_gvec d) ks k garr /\ table_for root o Nat.even "TE" eps ds garr te /\ table_for root o Nat.odd "TM" eps ds garr tm ->
     decaying_at (dv_gvec d) k (o_dgx o) (o_inds o) garr te tm eps) ->
  (forall eps garr te tm k, In k ks' -> eps_for d o eps ->
     grid_for o (dv_gvec d) ks' k garr /\ table_for root o Nat.even "TE" eps ds garr te /\ table_for root o Nat.odd "TM" eps ds garr tm ->
     decaying_at (dv_gvec d) k (o_dgx o) (o_inds o) garr te tm eps) ->
  exists K, 0 <= K /\ forall dl, 0 <= dl <= 1 ->
    let r := run argsort eigh eigsh inv root dl d o ks an s in let r' := run argsort eigh eigsh inv root dl d o ks' an s in
    snd r' = snd r /\
    (snd r = Ok tt -> forall ik b, (ik < List.length ks)%nat -> (b < o_numeig o)%nat ->
      let f := nth b (nth ik (g_freqs (fst r)) []) 0 in let f' := nth b (nth ik (g_freqs (fst r')) []) 0 in
      Rabs (f' * f' - f * f) <= K * dl).
Proof. exact (reg_symmetry argsort eigh eigsh inv root). Qed.
Print Assumptions C147_symmetry.

(** the bands of an unpatterned slab of C146, with the regulariser *)
Theorem C147_uniform argsort eigh eigsh inv root d o ks an s : sorts argsort -> diagonalises eigh -> o_solver o = "eigh"%string -> o_symm o = None ->
  o_im o = false -> o_sigma o = 0 -> g_einv s = None -> dv_gvec d <> [] -> NoDup (o_inds o) -> let ds := map ly_d (pc_layers (dv_phc d)) in Forall (fun x => 0 <= x) ds ->
  (forall eps garr te tm k, In k ks -> eps_for d o eps ->
     grid_for o (dv_gvec d) ks k garr /\ table_for root o Nat.even "TE" eps ds garr te /\ table_for root o Nat.odd "TM" eps ds garr tm ->
     unpatterned (List.length (dv_gvec d)) eps (build_einv inv d (o_only o)) /\ slab_modes_at (dv_gvec d) k (o_dgx o) (o_inds o) garr te tm eps ds) ->
  exists K, 0 <= K /\ forall dl s', 0 <= dl <= 1 -> run argsort eigh eigsh inv root dl d o ks an s = (s', Ok tt) ->
  forall ik k b, nth_error ks ik = Some k -> (b < o_numeig o)%nat -> exists eps garr te tm m x r E, let g := gk_len (gk_data (dv_gvec d) k (o_dgx o)) in
    eps_for d o eps /\
    (grid_for o (dv_gvec d) ks k garr /\ table_for root o Nat.even "TE" eps ds garr te /\ table_for root o Nat.odd "TM" eps ds garr tm) /\
    In m (present te tm (o_inds o)) /\ get_guided (List.length (dv_gvec d)) g garr te tm eps m = Ok x /\ (r < List.length (md_ind x))%nat /\
    is_energy (Nat.even m) (g (md_g x r)) (List.length eps) ds (fun il => md_chi x il r) (fun il => md_A x il r) (fun il => md_B x il r) E /\
    let f := nth b (nth ik (g_freqs s') []) 0 in let f0 := md_om x r * sqrt E / (2 * PI) in Rabs (f * f - f0 * f0) <= K * dl /\ Rabs (f - f0) <= sqrt (K * dl).
Proof. exact (reg_uniform argsort eigh eigsh inv root d o ks an s). Qed.
Print Assumptions C147_uniform.

(** a slab of permittivity 4 and thickness 3/2 in vacuum with one plane wave: the
    tables of any run at |k| = 1 decay, and runs succeed for every dl *)
Example C147_example : exists root, (forall pol g eps ds, finds_roots root (D22real pol g eps ds)) /\
  (forall im ks eps garr te tm k, fst k * fst k + snd k * snd k = 1 -> eps_for slab_dev (slab_opts im) eps -> RunProofs11.tables_for root slab_dev (slab_opts im) ks k eps garr te tm ->
    (forall m oms cs, In m (o_inds (slab_opts im)) -> entry te tm m = Some (oms, cs) -> nodes_decay eps garr oms cs) /\
    decaying_at (dv_gvec slab_dev) k (o_dgx (slab_opts im)) (o_inds (slab_opts im)) garr te tm eps) /\
  forall argsort eigh eigsh inv dl s, sorts argsort -> diagonalises eigh -> exists s', run argsort eigh eigsh inv root dl slab_dev (slab_opts false) slab_k [] s = (s', Ok tt).
Proof.
  destruct slab_case as [root [H1 H2]]. exists root. split; [exact H1|]. split; [exact H2|].
  intros argsort eigh eigsh inv dl s Hs He. exact (slab_run argsort eigh eigsh inv root dl Hs He s).
Qed.
(** its quarter turn takes k = (1, 0) to (0, 1) *)
Example C147_turn_example : lattice_init (LatName "square") = Ok (cell slab_dev) /\ independent (lt_a1 (cell slab_dev)) (lt_a2 (cell slab_dev)) /\
  waves_of (cell slab_dev) (dv_tbt slab_dev) (3 / 10) (dv_rc slab_dev) /\
  each_layer (layer_usable slab_dev) slab_dev /\ linear_isometry quarter /\ closed_under quarter (dv_gvec slab_dev) /\
  each_layer (fun ly => invariant_on (difference_of (dv_gvec slab_dev)) quarter (transform slab_dev ly)) slab_dev /\
  Forall2 (fun k k' => (fst k' + 0, snd k') = quarter (fst k + 0, snd k)) slab_k [(0, 1)].
Proof. split; [exact square_lat|]. split; [exact slab_indep|]. split; [reflexivity|]. exact slab_turn. Qed.
(** thickness 14/5: two modes *)
Example C147_uniform_example : exists root, forall inv, inverts inv -> forall eps garr te tm k, In k slab_k -> eps_for thick_dev thick_opts eps -> RunProofs11.tables_for root thick_dev thick_opts slab_k k eps garr te tm ->
  unpatterned (List.length (dv_gvec thick_dev)) eps (build_einv inv thick_dev (o_only thick_opts)) /\
  present te tm (o_inds thick_opts) = [0%nat; 2%nat] /\
  slab_modes_at (dv_gvec thick_dev) k (o_dgx thick_opts) (o_inds thick_opts) garr te tm eps (d_list thick_dev).
Proof. exact thick_case. Qed.

(** C146 from the search to the bands, for gmode_compute = 'exact' without the shift
    delta_gabs: the modes a run uses at its plane waves are guided modes of the slab ... *)
Theorem C146_exact_modes root d o ks k e0 el ei garr te tm : let eps := e0 :: ei ++ [el] in let ds := map ly_d (pc_layers (dv_phc d)) in
  (forall pol g, finds_roots root (D22real pol g eps ds)) -> List.length ds = List.length ei -> ei <> [] -> Forall (fun e => 0 < e) eps ->
  0 < o_step o -> 0 < o_tol o < 1 -> (forall pol, off_lines pol e0 el ei ds) ->
  lower (o_compute o) = "exact"%string -> o_dgabs o = 0 -> resolved (dv_gvec d) k (o_dgx o) ->
  grid_for o (dv_gvec d) ks k garr /\ table_for root o Nat.even "TE" eps ds garr te /\ table_for root o Nat.odd "TM" eps ds garr tm ->
  steady root o Nat.even "TE" eps ds garr -> steady root o Nat.odd "TM" eps ds garr ->
  slab_modes_at (dv_gvec d) k (o_dgx o) (o_inds o) garr te tm eps ds.
Proof. exact (exact_modes root d o ks k e0 el ei garr te tm). Qed.
Print Assumptions C146_exact_modes.
(** ... so that every frequency that a run over layers without shapes stores is
    w sqrt E / 2 pi for a guided mode of frequency w and energy E, up to a multiple of
    the regulariser; [steady] is what the search must not miss *)
Theorem C146_exact_bands argsort eigh eigsh inv root d o ks an s args gmax : sorts argsort -> diagonalises eigh -> inverts inv ->
  lattice_init args = Ok (cell d) -> independent (lt_a1 (cell d)) (lt_a2 (cell d)) -> 0 <= gmax -> waves_of (cell d) (dv_tbt d) gmax (dv_rc d) -> dv_gvec d <> [] ->
  NoDup (dv_gvec d) -> (forall g g', In g (dv_gvec d) -> In g' (dv_gvec d) -> is_g0 (diff g g') -> g = g') ->
  let ds := map ly_d (pc_layers (dv_phc d)) in each_layer (fun ly => ly_shapes ly = [] /\ 0 < ly_epsavg ly) d -> Forall (fun x => 0 <= x) ds -> pc_layers (dv_phc d) <> [] ->
  o_solver o = "eigh"%string -> o_symm o = None -> o_im o = false -> o_sigma o = 0 -> g_einv s = None -> NoDup (o_inds o) -> o_epseff o = "average"%string ->
  lower (o_compute o) = "exact"%string -> o_dgabs o = 0 -> 0 < o_step o -> 0 < o_tol o < 1 ->
  let e0 := ly_epsavg (pc_clad_l (dv_phc d)) in let ei := map ly_epsavg (pc_layers (dv_phc d)) in let el := ly_epsavg (pc_clad_u (dv_phc d)) in let eps := e0 :: ei ++ [el] in
  (forall pol g, finds_roots root (D22real pol g eps ds)) -> (forall pol, off_lines pol e0 el ei ds) ->
  (forall k, In k ks -> resolved (dv_gvec d) k (o_dgx o) /\ forall garr, grid_for o (dv_gvec d) ks k garr ->
     steady root o Nat.even "TE" eps ds garr /\ steady root o Nat.odd "TM" eps ds garr) ->
  exists K, 0 <= K /\ forall dl s', 0 <= dl <= 1 -> run argsort eigh eigsh inv root dl d o ks an s = (s', Ok tt) ->
  forall ik k b, nth_error ks ik = Some k -> (b < o_numeig o)%nat -> exists m G w c A B E, In m (o_inds o) /\ In G (dv_gvec d) /\ 0 < w /\
    let g := wave_len G k (o_dgx o) in slab_solution (Nat.even m) g w eps ds c A B /\ is_energy (Nat.even m) g (List.length eps) ds c A B E /\
    let f := nth b (nth ik (g_freqs s') []) 0 in let f0 := w * sqrt E / (2 * PI) in Rabs (f * f - f0 * f0) <= K * dl /\ Rabs (f - f0) <= sqrt (K * dl).
Proof. exact (exact_bands argsort eigh eigsh inv root d o ks an s args gmax). Qed.
Print Assumptions C146_exact_bands.
(** the slab of thickness 14/5 meets the hypotheses *)
Example C146_exact_example : exists root, (forall pol g eps ds, finds_roots root (D22real pol g eps ds)) /\
  forall k, In k slab_k -> resolved (dv_gvec thick_dev) k (o_dgx thick_opts) /\ forall garr, grid_for thick_opts (dv_gvec thick_dev) slab_k k garr ->
    steady root thick_opts Nat.even "TE" [1; 4; 1] (d_list thick_dev) garr /\ steady root thick_opts Nat.odd "TM" [1; 4; 1] (d_list thick_dev) garr.
Proof. exact thick_steady. Qed.

(** Below the wave number 1/10^4 the claim fails: guided_modes searches at 1/10^4
    instead.  A slab of thickness 15000 at k = 0 with the default delta_gx = 1/10^15: the
    run uses a mode of frequency above 1/10^5, while every guided mode of the slab at
    that wave vector has a frequency below 1/10^15. *)
Theorem C146_short_waves_refuted : exists d o, each_layer (fun ly => ly_shapes ly = [] /\ 0 < ly_epsavg ly) d /\ o_compute o = "exact"%string /\ o_dgabs o = 0 /\ o_dgx o = / 10 ^ 15 /\
  (forall argsort eigh eigsh inv root dl s, sorts argsort -> diagonalises eigh -> exists s', run argsort eigh eigsh inv root dl d o [(0, 0)] [] s = (s', Ok tt)) /\
  forall root, (forall pol g eps ds, finds_roots root (D22real pol g eps ds)) -> forall eps garr te tm, eps_for d o eps -> 
    grid_for o (dv_gvec d) [(0, 0)] (0, 0) garr /\ table_for root o Nat.even "TE" eps (map ly_d (pc_layers (dv_phc d))) garr te /\ table_for root o Nat.odd "TM" eps (map ly_d (pc_layers (dv_phc d))) garr tm ->
    present te tm (o_inds o) = [0%nat] /\
    forall x, get_guided (List.length (dv_gvec d)) (gk_len (gk_data (dv_gvec d) (0, 0) (o_dgx o))) garr te tm eps 0 = Ok x ->
      md_ind x = [0%nat] /\ / 10 ^ 5 < md_om x 0 /\
      forall b w c A B, 0 < w -> slab_solution b (gk_len (gk_data (dv_gvec d) (0, 0) (o_dgx o)) 0) w eps (map ly_d (pc_layers (dv_phc d))) c A B -> w < / 10 ^ 15.
Proof. exact gamma_mode. Qed.
Print Assumptions C146_short_waves_refuted.
