(** Runs whose modes decay, and what the regulariser leaves of the symmetry and of the
    bands of unpatterned slabs (C147). *)
From Coq Require Import Lra Lia Permutation List String.
From Verif Require Import Py CBase LatticeModel LatticeSpec PhcModel PhcSpec RecipModel RecipSpec ShapesModel ShapesSpec SlabModel SlabSpec MatElModel MatElSpec MatElProofs3 RunModel RunSpec RunSpec2 RunProofs RunProofs7 RunProofs9 RunProofs11
  InvSpec GinvSpec GinvProofs3 GinvProofs9 OracProofs2 OracProofs3 SlabProofs8 PweSpec UnifSpec UnifProofs5 RegSpec RegProofs2 RegProofs3 RegProofs4 RegProofs5 RegProofs6.
Open Scope R_scope.
Open Scope list_scope.

Lemma found_decaying root d o ks k e0 el ei garr te tm : let eps := e0 :: ei ++ [el] in
  (forall pol g, finds_roots root (D22real pol g eps (d_list d))) -> List.length (d_list d) = List.length ei -> ei <> [] -> Forall (fun e => 0 < e) eps ->
  0 < o_step o -> 0 < o_tol o < 1 -> 0 <= o_dgabs o -> (forall pol, off_lines pol e0 el ei (d_list d)) ->
  RunProofs11.tables_for root d o ks k eps garr te tm ->
  (forall m oms cs, In m (o_inds o) -> entry te tm m = Some (oms, cs) -> / 10 ^ 4 <= nth (List.length garr - List.length oms) garr 0) ->
  (forall m oms cs, In m (o_inds o) -> entry te tm m = Some (oms, cs) -> nodes_decay eps garr oms cs).
Proof.
  intros eps HR Hl Hne HP Hs Ht Hd Off (G & T1 & T2) Fn m oms cs Hm En. specialize (Fn m oms cs Hm En).
  assert (HA := grid_ascending _ _ _ _ _ G Hd). unfold entry in En. destruct (Nat.even m) eqn:Ev.
  - destruct T1 as [[X _]|(n & rs & (m0 & _ & _ & Hn) & _ & E & _ & Tb)]; [rewrite (X m Hm) in Ev; discriminate|].
    exact (found_entry root true e0 el ei (d_list d) n (o_step o) (o_tol o) (HR "TE"%string) Hl Hne HP Hs Ht ltac:(lia) (Off "TE"%string) garr rs te _ oms cs E HA Tb En Fn).
  - destruct T2 as [[X _]|(n & rs & (m0 & _ & _ & Hn) & _ & E & _ & Tb)]; [|
    exact (found_entry root false e0 el ei (d_list d) n (o_step o) (o_tol o) (HR "TM"%string) Hl Hne HP Hs Ht ltac:(lia) (Off "TM"%string) garr rs tm _ oms cs E HA Tb En Fn)].
    specialize (X m Hm). unfold Nat.odd in X. rewrite Ev in X. discriminate X.
Qed.

(** exact modes: a mode present at every node reaches its first one *)
Lemma reaches_exact o gvec ks k garr te tm m : grid_for o gvec ks k garr -> lower (o_compute o) = "exact"%string -> 0 <= o_dgabs o ->
  (forall oms cs, entry te tm m = Some (oms, cs) -> List.length oms = List.length garr) -> reaches_node gvec k (o_dgx o) garr te tm m.
Proof.
  intros [(_ & l & P & A & L)|(X & _)] Hc Hd Hf i oms cs [Hi _] En; [|rewrite Hc in X; discriminate X]. rewrite (Hf oms cs En), Nat.sub_diag. destruct L as [L1 L2].
  assert (Ig : In (gk_len (gk_data gvec k (o_dgx o)) i) l).
  { eapply Permutation_in; [apply Permutation_sym; exact P|]. apply in_map_iff. exists (nth i gvec (0, 0)). split; [reflexivity|apply nth_In; exact Hi]. }
  apply (In_nth _ _ 0) in Ig. destruct Ig as (j & Hj & <-). assert (nth 0 l 0 <= nth j l 0) by (destruct j; [lra|apply A; lia]).
  rewrite L2 by lia. destruct (Nat.eqb _ _); lra.
Qed.

Lemma slab_decaying gvec k dgx inds garr te tm eps ds : slab_modes_at gvec k dgx inds garr te tm eps ds -> decaying_at gvec k dgx inds garr te tm eps.
Proof. intros [H _] m x Hm E r Hr. destruct (H m x Hm E r Hr) as (_ & _ & S). split; apply S. Qed.

Lemma reg_symmetry argsort eigh eigsh inv root : sorts argsort -> diagonalises eigh -> eigh_ascending eigh -> inverts inv ->
  forall args gmax d M o ks ks' an s, lattice_init args = Ok (cell d) -> independent (lt_a1 (cell d)) (lt_a2 (cell d)) -> 0 <= gmax ->
  waves_of (cell d) (dv_tbt d) gmax (dv_rc d) -> each_layer (layer_usable d) d ->
  linear_isometry M -> closed_under M (dv_gvec d) -> each_layer (fun ly => invariant_on (difference_of (dv_gvec d)) M (transform d ly)) d ->
  Forall2 (fun k k' => (fst k' + o_dgx o, snd k') = M (fst k + o_dgx o, snd k)) ks ks' ->
  (lower (o_compute o) = "interp"%string -> map len ks' = map len ks) -> o_solver o = "eigh"%string -> o_symm o = None -> g_einv s = None ->
  o_im o = false -> o_sigma o = 0 -> dv_gvec d <> [] -> Forall (fun x => 0 <= x) (d_list d) ->
  (forall eps garr te tm k, In k ks -> eps_for d o eps -> RunProofs11.tables_for root d o ks k eps garr te tm -> decaying_at (dv_gvec d) k (o_dgx o) (o_inds o) garr te tm eps) ->
  (forall eps garr te tm k, In k ks' -> eps_for d o eps -> RunProofs11.tables_for root d o ks' k eps garr te tm -> decaying_at (dv_gvec d) k (o_dgx o) (o_inds o) garr te tm eps) ->
  exists K, 0 <= K /\ forall dl, 0 <= dl <= 1 ->
    let r := run argsort eigh eigsh inv root dl d o ks an s in let r' := run argsort eigh eigsh inv root dl d o ks' an s in
    snd r' = snd r /\
    (snd r = Ok tt -> forall ik b, (ik < List.length ks)%nat -> (b < o_numeig o)%nat ->
      let f := nth b (nth ik (g_freqs (fst r)) []) 0 in let f' := nth b (nth ik (g_freqs (fst r')) []) 0 in
      Rabs (f' * f' - f * f) <= K * dl).
Proof.
  intros Hs He Ha Hi args gmax d M o ks ks' an s H1 H2 H3 H4 H5 H6 H7 H8 F2 Hin So Sy Ni Im Sg Hg Hd D1 D2.
  destruct (symmetry_run argsort eigh eigsh inv root He Ha Hi args gmax d M o ks ks' an s H1 H2 H3 H4 H5 H6 H7 H8 F2 Hin So Sy Ni) as [Fe Oe]. cbv zeta in Fe, Oe. specialize (Oe Im).
  destruct (regularised_run argsort eigh eigsh inv root d o ks an s Hs He So Sy Sg Hg Hd D1) as (K1 & P1 & Q1).
  destruct (regularised_run argsort eigh eigsh inv root d o ks' an s Hs He So Sy Sg Hg Hd D2) as (K2 & P2 & Q2).
  exists (K1 + K2). split; [lra|]. intros dl Hdl. cbv zeta. destruct (Q1 dl Hdl) as [A1 B1]. destruct (Q2 dl Hdl) as [A2 B2]. specialize (A1 Im Ni). specialize (A2 Im Ni).
  split; [congruence|]. intros Ok1 ik b Hik Hb. assert (L : List.length ks' = List.length ks) by (clear -F2; induction F2; cbn [List.length]; auto).
  destruct (B1 ltac:(congruence) Ok1 ik Hik) as (_ & _ & C1). destruct (B2 ltac:(congruence) ltac:(congruence) ik ltac:(lia)) as (_ & _ & C2).
  destruct (C1 b Hb) as [E1 _]. destruct (C2 b Hb) as [E2 _]. rewrite Fe in E2. apply Rcomplements.Rabs_le_between in E1, E2. apply Rabs_le. lra.
Qed.

Lemma reg_uniform argsort eigh eigsh inv root d o ks an s : sorts argsort -> diagonalises eigh -> o_solver o = "eigh"%string -> o_symm o = None -> o_im o = false -> o_sigma o = 0 -> g_einv s = None ->
  dv_gvec d <> [] -> NoDup (o_inds o) -> Forall (fun x => 0 <= x) (d_list d) ->
  (forall eps garr te tm k, In k ks -> eps_for d o eps -> RunProofs11.tables_for root d o ks k eps garr te tm ->
     unpatterned (List.length (dv_gvec d)) eps (build_einv inv d (o_only o)) /\ slab_modes_at (dv_gvec d) k (o_dgx o) (o_inds o) garr te tm eps (d_list d)) ->
  exists K, 0 <= K /\ forall dl s', 0 <= dl <= 1 -> run argsort eigh eigsh inv root dl d o ks an s = (s', Ok tt) ->
  forall ik k b, nth_error ks ik = Some k -> (b < o_numeig o)%nat -> exists eps garr te tm m x r E, let g := gk_len (gk_data (dv_gvec d) k (o_dgx o)) in
    eps_for d o eps /\ RunProofs11.tables_for root d o ks k eps garr te tm /\
    In m (present te tm (o_inds o)) /\ get_guided (List.length (dv_gvec d)) g garr te tm eps m = Ok x /\ (r < List.length (md_ind x))%nat /\
    is_energy (Nat.even m) (g (md_g x r)) (List.length eps) (d_list d) (fun il => md_chi x il r) (fun il => md_A x il r) (fun il => md_B x il r) E /\
    let f := nth b (nth ik (g_freqs s') []) 0 in let f0 := md_om x r * sqrt E / (2 * PI) in Rabs (f * f - f0 * f0) <= K * dl /\ Rabs (f - f0) <= sqrt (K * dl).
Proof.
  intros Hs He So Sy Im Sg Ni Hg Hn Hd U.
  destruct (regularised_run argsort eigh eigsh inv root d o ks an s Hs He So Sy Sg Hg Hd) as (K & P & Q).
  { intros eps garr te tm k H1 H2 H3. eapply slab_decaying. apply (U eps garr te tm k H1 H2 H3). }
  exists K. split; [exact P|]. intros dl s' Hdl Rn ik k b Hk Hb. destruct (Q dl Hdl) as [A B]. specialize (A Im Ni). rewrite Rn in A, B. cbn [fst snd] in A, B.
  destruct (run argsort eigh eigsh inv root 0 d o ks an s) as [s0 r0] eqn:R0. cbn [fst snd] in A, B. subst r0.
  assert (Hik : (ik < List.length ks)%nat) by (apply nth_error_Some; congruence). destruct (B eq_refl eq_refl ik Hik) as (L0 & _ & C). destruct (C b Hb) as [C1 C2].
  destruct (unif_run argsort eigh eigsh inv root d o ks an s s0 Hs He So Sy R0 Hg Hn Hd ik k Hk) as (eps & einv & garr & te & tm & E1 & E2 & E3 & E4).
  destruct (U eps garr te tm k (nth_error_In _ _ Hk) E1 E3) as [U1 U2].
  assert (einv = build_einv inv d (o_only o)) as ->.
  { rewrite (OracProofs3.run_einv inv root 0 argsort eigh eigsh d o ks an s s0 einv R0 E2), Ni. reflexivity. }
  destruct (E4 U1 U2 (nth b (nth ik (g_freqs s0) []) 0) ltac:(apply nth_In; lia)) as (m & x & r & E & F1 & F2 & F3 & F4 & F5).
  exists eps, garr, te, tm, m, x, r, E. cbv zeta. repeat (split; [assumption|]). rewrite <- F5. split; assumption.
Qed.

(** the slab of RunProofs9 with a root finder *)
Lemma slab_case : exists root, (forall pol g eps ds, finds_roots root (D22real pol g eps ds)) /\
  forall im ks eps garr te tm k, fst k * fst k + snd k * snd k = 1 -> eps_for slab_dev (slab_opts im) eps -> RunProofs11.tables_for root slab_dev (slab_opts im) ks k eps garr te tm ->
    (forall m oms cs, In m (o_inds (slab_opts im)) -> entry te tm m = Some (oms, cs) -> nodes_decay eps garr oms cs) /\
    decaying_at (dv_gvec slab_dev) k (o_dgx (slab_opts im)) (o_inds (slab_opts im)) garr te tm eps.
Proof.
  destruct finds_roots_exists as [root HR]. exists root. split; [exact HR|]. intros im ks eps garr te tm k Hk He T.
  assert (eps = 1 :: [4] ++ [1]) as ->.
  { destruct He as [(_ & ->)|[(X & _)|(X & _)]]; [|discriminate X|discriminate X]. reflexivity. }
  assert (Dl : d_list slab_dev = [3 / 2]) by apply slab_d.
  assert (Gr : garr = [1]).
  { destruct T as ([(_ & l & P & _ & L1 & L2)|(X & _)] & _ & _); [|discriminate X]. rewrite slab_g in P. cbn [map slab_opts o_dgx o_dgabs] in P, L2.
    apply Permutation_sym, Permutation_length_1_inv in P. subst l. destruct garr as [|g [|? ?]]; try discriminate L1. specialize (L2 0%nat ltac:(cbn; lia)). cbn in L2. rewrite L2.
    unfold wave_len. cbn [fst snd]. replace ((0 + fst k + 0) * (0 + fst k + 0) + (0 + snd k) * (0 + snd k)) with 1 by (rewrite <- Hk; ring). rewrite sqrt_1. reflexivity. }
  assert (Le : forall m oms cs, entry te tm m = Some (oms, cs) -> List.length oms = List.length garr).
  { intros m oms cs En. pose proof (tables_len root slab_dev (slab_opts im) ks k _ garr te tm T m oms cs En) as X. rewrite Gr in X |- *. cbn [List.length] in X |- *. lia. }
  assert (Nd : forall m oms cs, In m (o_inds (slab_opts im)) -> entry te tm m = Some (oms, cs) -> nodes_decay (1 :: [4] ++ [1]) garr oms cs).
  { apply (found_decaying root slab_dev (slab_opts im) ks k 1 1 [4] garr te tm).
    - intros; apply HR.
    - rewrite Dl. reflexivity.
    - discriminate.
    - cbn [app]. repeat constructor; lra.
    - cbn; lra.
    - cbn; lra.
    - cbn; lra.
    - intros pol. left. reflexivity.
    - exact T.
    - intros m oms cs _ En. rewrite (Le m oms cs En), Nat.sub_diag, Gr. cbn [nth]. lra. }
  split; [exact Nd|]. apply decaying_nodes; [cbn; lra|cbn; lra|exact Nd|]. intros m _. eapply reaches_exact; [apply T|reflexivity|cbn; lra|]. intros oms cs. apply Le.
Qed.
