(** Two unpatterned slabs as examples for C147. *)
From Coq Require Import Lra Lia Permutation List String.
From Verif Require Import Py CBase LatticeModel LatticeSpec PhcModel PhcSpec RecipModel RecipSpec ShapesModel ShapesSpec SlabModel SlabSpec SlabProofs6 MatElModel MatElSpec MatElProofs3 RunModel RunSpec RunSpec2 RunProofs RunProofs9 RunProofs11
  InvSpec InvProofs7 GinvSpec GinvProofs4 GinvProofs9 OracProofs2 OrthProofs3 PweSpec UnifSpec UnifProofs4 UnifProofs5 UnifProofs6 RegSpec RegProofs6 RegProofs7.
Open Scope R_scope.
Open Scope list_scope.

Lemma square_lat : lattice_init (LatName "square") = Ok slab_lat.
Proof.
  unfold lattice_init, slab_lat. cbn [parse_input String.eqb Ascii.eqb Bool.eqb bind]. pose proof PI_RGT_0.
  unfold scal_div3, cross3, dot3, norm3, xy. cbn. f_equal. f_equal; try (f_equal; field; lra).
  - match goal with |- sqrt ?x = _ => replace x with 1 by ring end. apply sqrt_1.
  - match goal with |- sqrt ?x = _ => replace x with ((4 * PI * PI) * (4 * PI * PI)) by field end. apply sqrt_square. nra.
Qed.
Lemma slab_indep : independent (lt_a1 slab_lat) (lt_a2 slab_lat).
Proof. unfold independent, det. cbn. intros X. lra. Qed.
Lemma slab_layers : each_layer (fun ly => ly_shapes ly = [] /\ 0 < ly_epsavg ly) slab_dev.
Proof. split; [|split]; [|apply Forall_cons; [|apply Forall_nil]|]; (split; [reflexivity|]); [change (0 < 1)|change (0 < 4)|change (0 < 1)]; lra. Qed.
Lemma slab_sep (d : dev) : dv_gvec d = [(0, 0)] -> NoDup (dv_gvec d) /\ forall g g', In g (dv_gvec d) -> In g' (dv_gvec d) -> is_g0 (diff g g') -> g = g'.
Proof. intros ->. split; [constructor; [intros []|constructor]|]. intros g g' [<-|[]] [<-|[]] _. reflexivity. Qed.

(** a quarter turn of the slab of [slab_case] *)
Definition quarter (u : R * R) : R * R := (- snd u, fst u).
Lemma slab_turn : each_layer (layer_usable slab_dev) slab_dev /\ linear_isometry quarter /\ closed_under quarter (dv_gvec slab_dev) /\
  each_layer (fun ly => invariant_on (difference_of (dv_gvec slab_dev)) quarter (transform slab_dev ly)) slab_dev /\
  Forall2 (fun k k' => (fst k' + 0, snd k') = quarter (fst k + 0, snd k)) slab_k [(0, 1)].
Proof.
  destruct (slab_sep slab_dev slab_g) as [ND Sp]. split.
  { destruct slab_layers as (A & B & Cc). assert (Q : forall ly, ly_shapes ly = [] /\ 0 < ly_epsavg ly -> layer_usable slab_dev ly) by (intros ly [X Y]; apply plain_usable; auto).
    split; [apply Q, A|]. split; [|apply Q, Cc]. eapply Forall_impl; [|exact B]. exact Q. }
  split; [split; intros u v; unfold LatticeSpec.inner, quarter; cbn [fst snd]; [f_equal; ring|ring]|].
  split; [intros g Hg; rewrite slab_g in *; destruct Hg as [<-|[]]; left; unfold quarter; cbn [fst snd]; f_equal; ring|].
  split; [|constructor; [unfold quarter; cbn [fst snd]; f_equal; ring|constructor]].
  assert (I : forall F : R * R -> C, invariant_on (difference_of (dv_gvec slab_dev)) quarter F).
  { intros F g (u & v & Hu & Hv & ->). rewrite slab_g in Hu, Hv. destruct Hu as [<-|[]], Hv as [<-|[]]. f_equal. unfold quarter, diff. cbn [fst snd]. f_equal; ring. }
  split; [apply I|]. split; [|apply I]. apply Forall_forall. intros; apply I.
Qed.

(** thickness 14/5: two TE modes at k = (1, 0) *)
Definition thick_phc : phc := fst (add_layer (phc_init slab_lat 1 1) (14 / 5) 4 "shapes").
Definition thick_dev : dev := Dev thick_phc true (recip_tbt slab_lat (3 / 10)) None.
Definition thick_opts : opts := Opts "exact" [0%nat; 2%nat] 100 (7 / 40) (1 / 10) 2 false "eigh" 0 "average" None (1 / 10 ^ 8) 0 0 false false.
Lemma thick_g : dv_gvec thick_dev = [(0, 0)].
Proof. exact slab_g. Qed.
Lemma thick_d : d_list thick_dev = [14 / 5].
Proof. unfold d_list. change (map ly_d (pc_layers (dv_phc thick_dev))) with [0 + 14 / 5 - 0]. f_equal. lra. Qed.
Lemma thick_unpatterned inv only : inverts inv -> unpatterned 1 [1; 4; 1] (build_einv inv thick_dev only).
Proof.
  intros Hi. destruct (slab_sep thick_dev thick_g) as [ND Sp].
  pose proof (plain_einv inv only (LatName "square") (3 / 10) thick_dev Hi square_lat slab_indep ltac:(lra) eq_refl) as P. rewrite thick_g in P. apply P.
  - split; [|split]; [|apply Forall_cons; [|apply Forall_nil]|]; (split; [reflexivity|]); [change (0 < 1)|change (0 < 4)|change (0 < 1)]; lra.
  - rewrite <- thick_g. exact ND.
  - rewrite <- thick_g. exact Sp.
Qed.

Lemma one_guided' (te : gtable) eps m w c x : nth_error (if Nat.even m then te else []) (m / 2) = Some ([w], [c]) ->
  get_guided 1 (gk_len (gk_data [(0, 0)] (1, 0) 0)) [1] te [] eps m = Ok x ->
  md_ind x = [0%nat] /\ (forall i, i = 0%nat -> md_g x i = 0%nat /\ md_om x i = w /\ (forall il, md_chi x il i = chi w 1 (nth il eps 0)) /\
    (forall il, md_A x il i = fst (c il)) /\ forall il, md_B x il i = snd (c il)).
Proof.
  intros E. unfold get_guided. rewrite E. cbn [List.length last_n skipn Nat.sub].
  assert (I : argwhere_gt 1 (gk_len (gk_data [(0, 0)] (1, 0) 0)) (1 - / 10 ^ 10) = [0%nat]).
  { unfold argwhere_gt. cbn [seq filter]. rewrite one_len. assert (0 < / 10 ^ 10) by (apply Rinv_0_lt_compat, pow_lt; lra). rewrite (proj2 (Rltb_true _ _)) by lra. reflexivity. }
  cbn [skipn]. rewrite I. match goal with |- Ok ?y = _ -> _ => intros X; assert (Y : x = y) by congruence; rewrite Y; clear X Y end. cbn [md_ind]. split; [reflexivity|]. intros i ->. unfold md_g. cbn [md_ind md_om md_chi md_A md_B nth]. rewrite one_len.
  assert (J : forall y, interp 1 [1] [y] = y). { intros y. unfold interp. cbn [combine]. destruct (Rltb 1 1); reflexivity. }
  cbn [map]. split; [reflexivity|]. rewrite J. cbn [fst RtoC]. split; [reflexivity|]. split; [reflexivity|]. split; intros il; rewrite J; reflexivity.
Qed.

Lemma thick_case : exists root, forall inv, inverts inv -> forall eps garr te tm k, In k slab_k -> eps_for thick_dev thick_opts eps -> RunProofs11.tables_for root thick_dev thick_opts slab_k k eps garr te tm ->
  unpatterned (List.length (dv_gvec thick_dev)) eps (build_einv inv thick_dev (o_only thick_opts)) /\
  present te tm (o_inds thick_opts) = [0%nat; 2%nat] /\
  slab_modes_at (dv_gvec thick_dev) k (o_dgx thick_opts) (o_inds thick_opts) garr te tm eps (d_list thick_dev).
Proof.
  destruct ex2_two as (root & HR & w1 & w2 & co1 & co2 & G & X1 & X2 & B1 & B2).
  destruct (given_g_window root true 1 1 1 [4] [14 / 5] 2 (7 / 40) (1 / 10) HR eq_refl ltac:(discriminate) ltac:(repeat constructor; lra) ltac:(lra) ltac:(lra) ltac:(lra)) as [mm [oms' [cs' [_ [_ [E [L [SP [WW _]]]]]]]]].
  cbn [app] in E. rewrite G in E. injection E as <- <-.
  assert (Wn : w1 <> w2). { destruct SP as [_ [INC _]]. apply Rlt_not_eq. apply (INC 0%nat 1%nat). cbn. lia. }
  assert (So : forall w co, In (w, co) [(w1, co1); (w2, co2)] -> chi w 1 4 <> RtoC 0 -> snd (hd (RtoC 0, RtoC 0) co) <> RtoC 0 -> 0 < w /\
    slab_solution true 1 w [1; 4; 1] [14 / 5] (fun il => chi w 1 (nth il [1; 4; 1] 0)) (fun il => fst (nth il co (RtoC 0, RtoC 0))) (fun il => snd (nth il co (RtoC 0, RtoC 0)))).
  { intros w co Hin HX HB. destruct (WW w) as [Q1 [[e [Q2 Q3]] [Q4 Q5]]].
    { destruct Hin as [X|[X|[]]]; injection X as <- <-; cbn; auto. }
    split; [exact Q1|]. destruct Q2 as [<-|[]].
    refine (searched_solution root true 1 1 1 [4] [14 / 5] 2 None None (7 / 40) (1 / 10) [w1; w2] [co1; co2] w co HR eq_refl _ _ G _ Hin Q1 Q4 Q5 _ _ HB).
    - discriminate.
    - repeat constructor; lra.
    - lra.
    - intros _. constructor; [exact Q3|constructor].
    - constructor; [exact HX|constructor]. }
  destruct (So w1 co1 ltac:(left; reflexivity) X1 B1) as [P1 S1]. destruct (So w2 co2 ltac:(right; left; reflexivity) X2 B2) as [P2 S2].
  exists root. intros inv Hi eps garr te tm k [<-|[]] He T.
  assert (eps = [1; 4; 1]) as -> by (destruct He as [(_ & ->)|[(X & _)|(X & _)]]; [reflexivity|discriminate X|discriminate X]).
  assert (garr = [1]) as ->.
  { destruct T as ([(_ & l & P & _ & L1 & L2)|(X & _)] & _ & _); [|discriminate X]. rewrite thick_g in P. cbn [map thick_opts o_dgx o_dgabs] in P, L2.
    apply Permutation_sym, Permutation_length_1_inv in P. subst l. destruct garr as [|g [|? ?]]; try discriminate L1. specialize (L2 0%nat ltac:(cbn; lia)). cbn in L2. rewrite L2.
    unfold wave_len. cbn [fst snd]. replace ((0 + 1 + 0) * (0 + 1 + 0) + (0 + 0) * (0 + 0)) with 1 by ring. rewrite sqrt_1. reflexivity. }
  destruct T as (_ & T1 & T2). rewrite thick_d in *.
  assert (tm = []) as ->. { destruct T2 as [[_ X]|(n & rs & (m & Hm & Od & _) & _)]; [exact X|]. destruct Hm as [<-|[<-|[]]]; discriminate Od. }
  destruct T1 as [[X _]|(n & rs & (m & Hm & _ & En) & Mx & Gm & Lr & Tb)]; [specialize (X 0%nat (or_introl eq_refl)); discriminate X|].
  assert (n = 2%nat) as ->. { specialize (Mx 2%nat ltac:(right; left; reflexivity) eq_refl). cbn in Mx. destruct Hm as [<-|[<-|[]]]; cbn in En; lia. }
  assert (rs = [([w1; w2], [co1; co2])]) as ->.
  { unfold guided_modes in Gm. cbn [guided_loop thick_opts o_step o_tol] in Gm. unfold guided_step in Gm. cbv zeta in Gm.
    replace (Rmax 1 (/ 10 ^ 4)) with 1 in Gm by (symmetry; apply Rmax_left; lra).
    assert (I : rmaxl (map sqrt (SlabModel.inner [1; 4; 1])) = Ok (sqrt 4)) by reflexivity. rewrite I in Gm. cbn [bind hd last] in Gm.
    assert (Db : guided_mode_given_g root "TE" 1 [1; 4; 1] [14 / 5] 2 None None (7 / 40) (1 / 10) = guided_mode_given_g root "TE" 1 [1; 4; 1] [14 / 5] 2 (Some (1 / sqrt 4)) (Some (1 / sqrt (Rmax 1 1))) (7 / 40) (1 / 10)) by reflexivity.
    rewrite <- Db, G in Gm. cbn [bind] in Gm. injection Gm as <-. reflexivity. }
  assert (T0 := Tb 0%nat). assert (T1 := Tb 1%nat). cbn [map fst snd mth skipn firstn List.concat app] in T0, T1.
  destruct (nth_error te 0) as [[om0 cs0]|] eqn:N0; [|specialize (T0 _ (or_introl eq_refl)); cbn in T0; lia].
  destruct (nth_error te 1) as [[om1 cs1]|] eqn:N1; [|specialize (T1 _ (or_introl eq_refl)); cbn in T1; lia].
  destruct T0 as (_ & -> & L0 & C0). destruct T1 as (_ & -> & L1 & C1). cbn [List.length] in L0, L1.
  destruct cs0 as [|c0 [|? ?]]; try discriminate L0. destruct cs1 as [|c1 [|? ?]]; try discriminate L1.
  specialize (C0 0%nat). specialize (C1 0%nat). cbn [nth List.length] in C0, C1.
  split; [rewrite thick_g; apply thick_unpatterned; exact Hi|].
  assert (Pr : present te [] [0%nat; 2%nat] = [0%nat; 2%nat]).
  { unfold present, entry. cbn [filter Nat.even]. change (0 / 2)%nat with 0%nat. change (2 / 2)%nat with 1%nat. rewrite N0, N1. reflexivity. }
  split; [exact Pr|]. rewrite thick_g. cbn [thick_opts o_dgx o_inds].
  assert (S1' : slab_solution true 1 w1 [1; 4; 1] [14 / 5] (fun il => chi w1 1 (nth il [1; 4; 1] 0)) (fun il => fst (c0 il)) (fun il => snd (c0 il))).
  { destruct S1. constructor; auto; cbv beta; intros; rewrite !C0 by lia; auto. }
  assert (S2' : slab_solution true 1 w2 [1; 4; 1] [14 / 5] (fun il => chi w2 1 (nth il [1; 4; 1] 0)) (fun il => fst (c1 il)) (fun il => snd (c1 il))).
  { destruct S2. constructor; auto; cbv beta; intros; rewrite !C1 by lia; auto. }
  assert (Q1 : forall x, get_guided 1 (gk_len (gk_data [(0, 0)] (1, 0) 0)) [1] te [] [1; 4; 1] 0 = Ok x -> _) by (intros x; exact (one_guided' te [1; 4; 1] 0 w1 c0 x N0)).
  assert (Q2 : forall x, get_guided 1 (gk_len (gk_data [(0, 0)] (1, 0) 0)) [1] te [] [1; 4; 1] 2 = Ok x -> _) by (intros x; exact (one_guided' te [1; 4; 1] 2 w2 c1 x N1)).
  split; rewrite Pr.
  - intros m0 x Hm0 Hx r Hr. destruct Hm0 as [<-|[<-|[]]].
    + destruct (Q1 x Hx) as [I Q]. rewrite I in Hr. cbn in Hr. destruct (Q r ltac:(lia)) as (A1 & A2 & A3 & A4 & A5).
      unfold solves. cbn [fst snd]. rewrite A1, A2, one_len. split; [lra|]. split; [exact P1|].
      destruct S1'. constructor; auto; cbv beta; intros; rewrite ?A3, ?A4, ?A5; auto.
    + destruct (Q2 x Hx) as [I Q]. rewrite I in Hr. cbn in Hr. destruct (Q r ltac:(lia)) as (A1 & A2 & A3 & A4 & A5).
      unfold solves. cbn [fst snd]. rewrite A1, A2, one_len. split; [lra|]. split; [exact P2|].
      destruct S2'. constructor; auto; cbv beta; intros; rewrite ?A3, ?A4, ?A5; auto.
  - intros m0 x m' x' Hm0 Hm' Hne _ Hx Hx' r r' Hr Hr' _.
    destruct Hm0 as [<-|[<-|[]]], Hm' as [<-|[<-|[]]]; try congruence.
    + destruct (Q1 x Hx) as [I Q]. destruct (Q2 x' Hx') as [I' Q'].
      rewrite I in Hr. rewrite I' in Hr'. cbn in Hr, Hr'. destruct (Q r ltac:(lia)) as (_ & -> & _). destruct (Q' r' ltac:(lia)) as (_ & -> & _). exact Wn.
    + destruct (Q2 x Hx) as [I Q]. destruct (Q1 x' Hx') as [I' Q'].
      rewrite I in Hr. rewrite I' in Hr'. cbn in Hr, Hr'. destruct (Q r ltac:(lia)) as (_ & -> & _). destruct (Q' r' ltac:(lia)) as (_ & -> & _). congruence.
Qed.
