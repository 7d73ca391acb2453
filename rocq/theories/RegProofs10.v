(** Runs with modes computed at every plane wave, unpatterned layers (C146). *)
From Coq Require Import Lra Lia Permutation List String.
From Verif Require Import Py CBase LatticeModel LatticeSpec PhcModel PhcSpec RecipModel RecipSpec ShapesModel ShapesSpec SlabModel SlabSpec SlabProofs6 SlabProofs SlabProofs2 SlabProofs3 SlabProofs4 SlabProofs9 MatElModel MatElSpec MatElProofs3 RunModel RunSpec RunSpec2 RunProofs RunProofs9 RunProofs11
  InvSpec GinvSpec OracProofs2 OrthProofs2 OrthProofs3 PweSpec UnifSpec UnifProofs4 UnifProofs5 UnifProofs6 RegSpec RegSpec2 RegProofs6 RegProofs7 RegProofs8 RegProofs9.
Open Scope R_scope.
Open Scope list_scope.

Lemma exact_bands argsort eigh eigsh inv root d o ks an s args gmax : sorts argsort -> diagonalises eigh -> inverts inv ->
  lattice_init args = Ok (cell d) -> independent (lt_a1 (cell d)) (lt_a2 (cell d)) -> 0 <= gmax -> waves_of (cell d) (dv_tbt d) gmax (dv_rc d) -> dv_gvec d <> [] ->
  NoDup (dv_gvec d) -> (forall g g', In g (dv_gvec d) -> In g' (dv_gvec d) -> is_g0 (diff g g') -> g = g') ->
  each_layer (fun ly => ly_shapes ly = [] /\ 0 < ly_epsavg ly) d -> Forall (fun x => 0 <= x) (d_list d) -> pc_layers (dv_phc d) <> [] ->
  o_solver o = "eigh"%string -> o_symm o = None -> o_im o = false -> o_sigma o = 0 -> g_einv s = None -> NoDup (o_inds o) -> o_epseff o = "average"%string ->
  lower (o_compute o) = "exact"%string -> o_dgabs o = 0 -> 0 < o_step o -> 0 < o_tol o < 1 ->
  let e0 := ly_epsavg (pc_clad_l (dv_phc d)) in let ei := map ly_epsavg (pc_layers (dv_phc d)) in let el := ly_epsavg (pc_clad_u (dv_phc d)) in let eps := e0 :: ei ++ [el] in
  (forall pol g, finds_roots root (D22real pol g eps (d_list d))) -> (forall pol, off_lines pol e0 el ei (d_list d)) ->
  (forall k, In k ks -> resolved (dv_gvec d) k (o_dgx o) /\ forall garr, grid_for o (dv_gvec d) ks k garr ->
     steady root o Nat.even "TE" eps (d_list d) garr /\ steady root o Nat.odd "TM" eps (d_list d) garr) ->
  exists K, 0 <= K /\ forall dl s', 0 <= dl <= 1 -> run argsort eigh eigsh inv root dl d o ks an s = (s', Ok tt) ->
  forall ik k b, nth_error ks ik = Some k -> (b < o_numeig o)%nat -> exists m G w c A B E, In m (o_inds o) /\ In G (dv_gvec d) /\ 0 < w /\
    let g := wave_len G k (o_dgx o) in slab_solution (Nat.even m) g w eps (d_list d) c A B /\ is_energy (Nat.even m) g (List.length eps) (d_list d) c A B E /\
    let f := nth b (nth ik (g_freqs s') []) 0 in let f0 := w * sqrt E / (2 * PI) in Rabs (f * f - f0 * f0) <= K * dl /\ Rabs (f - f0) <= sqrt (K * dl).
Proof.
  intros Hs He Hi HL Hin Hg W Gn ND Sp EP Hd Ln So Sy Im Sg Ni Hn Ef Hc Dg St Tl e0 ei el eps HR Off HK.
  assert (Ue : forall eps', eps_for d o eps' -> eps' = eps). { intros eps' [(_ & ->)|[(X & _)|(X & _)]]; [reflexivity|rewrite Ef in X; discriminate X|rewrite Ef in X; discriminate X]. }
  assert (Um : eps = map ly_epsavg (all_layers (dv_phc d))) by (unfold eps, ei, all_layers; cbn [map]; rewrite map_app; reflexivity).
  assert (U : forall eps' garr te tm k, In k ks -> eps_for d o eps' -> RunProofs11.tables_for root d o ks k eps' garr te tm ->
     unpatterned (List.length (dv_gvec d)) eps' (build_einv inv d (o_only o)) /\ slab_modes_at (dv_gvec d) k (o_dgx o) (o_inds o) garr te tm eps' (d_list d)).
  { intros eps' garr te tm k Ik E1 T. rewrite (Ue _ E1) in *. destruct (HK k Ik) as [Rs Sd]. destruct (Sd garr (proj1 T)) as [S1 S2]. split.
    - rewrite Um. exact (plain_einv inv (o_only o) args gmax d Hi HL Hin Hg W EP ND Sp).
    - apply (exact_modes root d o ks k e0 el ei garr te tm); auto.
      + unfold d_list, ei. rewrite !map_length. reflexivity.
      + unfold ei. intros X. apply map_eq_nil in X. contradiction.
      + destruct EP as (P1 & P2 & P3). constructor; [apply P1|]. apply Forall_app. split; [|constructor; [apply P3|constructor]].
        unfold ei. rewrite Forall_map. eapply Forall_impl; [|exact P2]. intros a [_ X]. exact X. }
  destruct (reg_uniform argsort eigh eigsh inv root d o ks an s Hs He So Sy Im Sg Ni Gn Hn Hd U) as (K & K0 & Q). exists K. split; [exact K0|].
  intros dl s' Hdl Rn ik k b Hk Hb. destruct (Q dl s' Hdl Rn ik k b Hk Hb) as (eps' & garr & te & tm & m & x & r & E & E1 & T & Hm & Hx & Hr & En & F).
  assert (Ik := nth_error_In _ _ Hk). destruct (U eps' garr te tm k Ik E1 T) as [_ [S _]]. rewrite (Ue _ E1) in *. destruct (S m x Hm Hx r Hr) as (_ & W0 & Sol). cbn [fst snd] in W0, Sol.
  assert (Wi : (md_g x r < List.length (dv_gvec d))%nat).
  { unfold get_guided in Hx. destruct (nth_error (if Nat.even m then te else tm) _) as [[oms cs]|]; [|discriminate Hx]. cbv zeta in Hx. destruct (last_n _ _) as [|g0 gs]; [discriminate Hx|].
    match type of Hx with Ok ?y = _ => assert (Y : x = y) by congruence end. rewrite Y in Hr |- *. unfold md_g. cbn [md_ind] in *.
    assert (I := nth_In _ 0%nat Hr). unfold argwhere_gt in I. apply filter_In in I. destruct I as [I1 I2]. apply in_seq in I1. exact (proj2 I1). }
  exists m, (nth (md_g x r) (dv_gvec d) (0, 0)), (md_om x r), (fun il => md_chi x il r), (fun il => md_A x il r), (fun il => md_B x il r), E.
  split; [apply filter_In in Hm; apply Hm|]. split; [apply nth_In; exact Wi|]. split; [exact W0|]. cbv zeta. split; [exact Sol|]. split; [exact En|exact F].
Qed.

(** the slab of [thick_case] *)
Lemma ex2_found root : (forall pol g eps ds, finds_roots root (D22real pol g eps ds)) -> exists w1 w2 co1 co2,
  guided_mode_given_g root "TE" 1 [1; 4; 1] [14 / 5] 2 None None (7 / 40) (1 / 10) = Ok ([w1; w2], [co1; co2]) /\
  chi w1 1 4 <> RtoC 0 /\ chi w2 1 4 <> RtoC 0 /\ snd (hd (RtoC 0, RtoC 0) co1) <> RtoC 0 /\ snd (hd (RtoC 0, RtoC 0) co2) <> RtoC 0.
Proof.
  intros HR'. assert (HR := HR' "TE"%string 1 [1; 4; 1] [14 / 5]).
  destruct (ex2_search root) as [cs [E L]]. destruct cs as [|co1 [|co2 [|? ?]]]; try discriminate L.
  pose proof ex2_low as Q1. pose proof ex2_mid as Q2. pose proof ex2_high as Q3.
  destruct (HR (11 / 20) (29 / 40)) as [B1 _]; [lra|rewrite !ex2_D22; nra|].
  destruct (HR (29 / 40) (9 / 10)) as [B2 _]; [lra|rewrite !ex2_D22; nra|].
  set (w1 := root _ (11 / 20) _) in *. set (w2 := root _ (29 / 40) _) in *.
  exists w1, w2, co1, co2. split; [exact E|].
  assert (X : forall w, 11 / 20 < w < 9 / 10 -> chi w 1 4 <> RtoC 0).
  { intros w Hw. rewrite chi_ge by nra. apply RtoC_neq0, Rgt_not_eq, sqrt_lt_R0. nra. }
  assert (Y : forall w co, In (w, co) [(w1, co1); (w2, co2)] -> 11 / 20 < w < 9 / 10 -> snd (hd (RtoC 0, RtoC 0) co) <> RtoC 0).
  { intros w co Hin Hw.
    destruct (returned_raw root true 1 1 1 [4] [14 / 5] 2 None None (7 / 40) (1 / 10) [w1; w2] [co1; co2] w co) as [N [mid [A [Hco [Lm [HN MA]]]]]]; auto.
    - discriminate.
    - repeat constructor; lra.
    - lra.
    - lra.
    - nra.
    - nra.
    - intros _. repeat constructor. nra.
    - destruct mid as [|[a b] [|? ?]]; try discriminate Lm.
      assert (NZ : N <> RtoC 0) by (apply (ex2_norm w a b A N Hw); auto).
      rewrite Hco. cbn [map hd divs fst snd]. intros Z.
      assert (SZ : csqrt N <> RtoC 0) by (intros S0; apply NZ, csqrt_zero, S0).
      assert (U : RtoC 1 = (RtoC 1 / csqrt N * csqrt N)%C) by (field; auto). rewrite Z, Cmult_0_l in U. injection U. lra. }
  split; [apply X; lra|]. split; [apply X; lra|]. split; [apply (Y w1 co1)|apply (Y w2 co2)]; cbn; auto; lra.
Qed.

Lemma thick_steady : exists root, (forall pol g eps ds, finds_roots root (D22real pol g eps ds)) /\
  forall k, In k slab_k -> resolved (dv_gvec thick_dev) k (o_dgx thick_opts) /\ forall garr, grid_for thick_opts (dv_gvec thick_dev) slab_k k garr ->
    steady root thick_opts Nat.even "TE" [1; 4; 1] (d_list thick_dev) garr /\ steady root thick_opts Nat.odd "TM" [1; 4; 1] (d_list thick_dev) garr.
Proof.
  destruct finds_roots_exists as [root HR]. exists root. split; [exact HR|]. intros k [<-|[]].
  assert (Wl : wave_len (0, 0) (1, 0) 0 = 1). { unfold wave_len. cbn [fst snd]. replace ((0 + 1 + 0) * (0 + 1 + 0) + (0 + 0) * (0 + 0)) with 1 by ring. apply sqrt_1. }
  split.
  { intros G HG. rewrite thick_g in *. destruct HG as [<-|[]]. cbn [thick_opts o_dgx]. rewrite Wl. split; [lra|]. intros G' [<-|[]]. left. congruence. }
  intros garr Hgr. rewrite thick_d.
  assert (garr = [1]) as ->.
  { destruct Hgr as [(_ & l & P & _ & L1 & L2)|(X & _)]; [|discriminate X]. rewrite thick_g in P. cbn [map thick_opts o_dgx o_dgabs] in P, L2.
    apply Permutation_sym, Permutation_length_1_inv in P. subst l. destruct garr as [|g [|? ?]]; try discriminate L1. specialize (L2 0%nat ltac:(cbn; lia)). cbn [nth List.length Nat.add Nat.eqb] in L2. rewrite L2, Wl. reflexivity. }
  split.
  - intros n rs (m & Hm & _ & En) Mx Gm. destruct (ex2_found root HR) as (w1 & w2 & co1 & co2 & G & _ & _ & B1 & B2).
    assert (n = 2%nat) as ->. { specialize (Mx 2%nat ltac:(right; left; reflexivity) eq_refl). cbn in Mx. destruct Hm as [<-|[<-|[]]]; cbn in En; lia. }
    assert (rs = [([w1; w2], [co1; co2])]) as ->.
    { unfold guided_modes in Gm. cbn [guided_loop thick_opts o_step o_tol] in Gm. unfold guided_step in Gm. cbv zeta in Gm.
      replace (Rmax 1 (/ 10 ^ 4)) with 1 in Gm by (symmetry; apply Rmax_left; lra).
      assert (I : rmaxl (map sqrt (SlabModel.inner [1; 4; 1])) = Ok (sqrt 4)) by reflexivity. rewrite I in Gm. cbn [bind hd last] in Gm.
      assert (Db : guided_mode_given_g root "TE" 1 [1; 4; 1] [14 / 5] 2 None None (7 / 40) (1 / 10) = guided_mode_given_g root "TE" 1 [1; 4; 1] [14 / 5] 2 (Some (1 / sqrt 4)) (Some (1 / sqrt (Rmax 1 1))) (7 / 40) (1 / 10)) by reflexivity.
      rewrite <- Db, G in Gm. cbn [bind] in Gm. injection Gm as <-. reflexivity. }
    split.
    + intros i j [Hij Hj]. cbn [List.length] in Hj. assert (i = 0%nat /\ j = 0%nat) as [-> ->] by lia. lia.
    + intros r co [<-|[]] [<-|[<-|[]]]; assumption.
  - intros n rs (m & Hm & Od & _). destruct Hm as [<-|[<-|[]]]; discriminate Od.
Qed.
