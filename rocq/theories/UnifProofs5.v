(** Spectrum and reported bands of unpatterned layers; an example. *)
From Coq Require Import Permutation List.
From Verif Require Import Py CBase LatticeModel PhcModel RecipModel SlabModel SlabSpec MatElModel MatElSpec MatElProofs MatElProofs2 MatElProofs3 RecipSpec RunModel RunSpec RunSpec2 RunProofs5 RunProofs11 PweProofs PweProofs3
  SlabProofs6 OrthProofs2 OrthProofs3 UnifSpec UnifProofs3 UnifProofs4.
Open Scope string_scope.
Open Scope list_scope.
Open Scope R_scope.

Lemma diag_spectrum n A ls V : (forall P Q, (P < n)%nat -> (Q < n)%nat -> P <> Q -> A P Q = RtoC 0) -> (forall P, (P < n)%nat -> A P P = RtoC (fst (A P P))) ->
  eigensystem n A ls V -> Permutation ls (map (fun P => fst (A P P)) (seq 0 n)).
Proof.
  intros H0 H1 HE. set (l := map _ _). assert (L : List.length l = n) by (unfold l; rewrite map_length, seq_length; reflexivity).
  apply (diagonal_eigs l A ls V); [|rewrite L; exact HE]. rewrite L. intros i j Hi Hj.
  destruct (Nat.eqb_spec i j) as [<-|Hne]; [|apply H0; auto].
  rewrite (H1 i Hi). f_equal. unfold l. rewrite (nth_indep _ 0 ((fun P => fst (A P P)) 0%nat)) by (rewrite map_length, seq_length; exact Hi).
  rewrite (map_nth (fun P => fst (A P P))), seq_nth by exact Hi. reflexivity.
Qed.

Lemma unif_spectrum gvec k dgx inds garr (te tm : gtable) eps ds einv M :
  let d := gk_data gvec k dgx in
  (forall m oms cs, entry te tm m = Some (oms, cs) -> (0 < List.length oms <= List.length garr)%nat) ->
  NoDup inds -> unpatterned (List.length gvec) eps einv -> List.Forall (fun x => 0 <= x) ds ->
  slab_modes_at gvec k dgx inds garr te tm eps ds ->
  construct_mat 0 gvec k dgx inds garr te tm eps ds einv = Ok M ->
  exists ls0, (forall ls V, eigensystem (nr M) (ent M) ls V -> Permutation ls ls0) /\
  forall l, In l ls0 <-> exists m x r E, In m (present te tm inds) /\ get_guided (List.length gvec) (gk_len d) garr te tm eps m = Ok x /\
    (r < List.length (md_ind x))%nat /\
    is_energy (Nat.even m) (gk_len d (md_g x r)) (List.length eps) ds (fun il => md_chi x il r) (fun il => md_A x il r) (fun il => md_B x il r) E /\ 0 <= E /\
    l = md_om x r * md_om x r * E.
Proof.
  intros d Ht Hn Hu Hds [Hs Hd] HM.
  assert (He : exists m, In m inds /\ entry te tm m <> None).
  { destruct (present te tm inds) as [|m t] eqn:E.
    - exfalso. assert (X : forall m, In m inds -> entry te tm m = None).
      { intros m Hm. destruct (entry te tm m) eqn:Ee; [|reflexivity]. assert (Y : In m (present te tm inds)).
        { unfold present. apply filter_In. split; [exact Hm|]. rewrite Ee. reflexivity. }
        rewrite E in Y. destruct Y. }
      rewrite (no_mode 0 gvec k dgx inds garr te tm eps ds einv X) in HM. discriminate.
    - exists m. assert (Y : In m (present te tm inds)) by (rewrite E; left; reflexivity). unfold present in Y. apply filter_In in Y. destruct Y as [Y1 Y2].
      split; [exact Y1|]. destruct (entry te tm m); [discriminate|discriminate]. }
  destruct (unif_matrix gvec k dgx inds garr te tm eps ds einv Ht He Hn Hu Hds Hs Hd) as (ms & M' & E' & Hms & Hf & N1 & N2 & H0 & H1).
  rewrite HM in E'. injection E' as <-. fold d in Hf, H1. set (sz := map (fun x : nat * gmode => List.length (md_ind (snd x))) ms) in *.
  assert (Lsz : List.length sz = List.length ms) by apply map_length.
  assert (Nsz : forall p, (p < List.length ms)%nat -> nth p sz 0%nat = List.length (md_ind (snd (nth p ms dgm)))).
  { intros p Hp. unfold sz. rewrite (nth_indep _ 0%nat ((fun x : nat * gmode => List.length (md_ind (snd x))) dgm)) by (rewrite map_length; exact Hp).
    apply (map_nth (fun x : nat * gmode => List.length (md_ind (snd x)))). }
  exists (map (fun P => fst (ent M P P)) (seq 0 (nr M))). split.
  - intros ls V HE. apply (diag_spectrum _ _ _ V); auto. intros P HP. rewrite N1 in HP. destruct (off_inv sz P HP) as (p & r & Hp & Hr & ->). rewrite Lsz in Hp.
    destruct (H1 p r Hp Hr) as (E & _ & _ & ->). reflexivity.
  - intros l. split.
    + intros Hl. apply in_map_iff in Hl. destruct Hl as (P & <- & HP). apply in_seq in HP. rewrite N1 in HP. destruct (off_inv sz P ltac:(lia)) as (p & r & Hp & Hr & ->). rewrite Lsz in Hp.
      destruct (H1 p r Hp Hr) as (E & E1 & E2 & ->). exists (fst (nth p ms dgm)), (snd (nth p ms dgm)), r, E.
      split; [rewrite <- Hms; apply in_map, nth_In, Hp|]. split; [rewrite List.Forall_forall in Hf; apply Hf, nth_In, Hp|].
      split; [rewrite <- Nsz; auto|]. split; [exact E1|]. split; [exact E2|]. reflexivity.
    + intros (m & x & r & E & Hm & Hg & Hr & HE & HE0 & ->). rewrite <- Hms in Hm. apply in_map_iff in Hm. destruct Hm as (a & <- & Ha).
      pose proof Ha as Ha'. rewrite List.Forall_forall in Hf. specialize (Hf a Ha). cbv beta in Hf. rewrite Hg in Hf. injection Hf as ->.
      destruct (In_nth ms a dgm Ha') as (p & Hp & Ep). rewrite <- Ep in Hr, HE |- *.
      assert (Hr' : (r < nth p sz 0)%nat) by (rewrite Nsz; auto).
      destruct (H1 p r Hp Hr') as (E' & E1 & E2 & E3).
      rewrite (energy_unique _ _ _ _ _ _ _ _ _ HE E1). apply in_map_iff. exists (offset sz p + r)%nat. split; [rewrite E3; reflexivity|].
      apply in_seq. rewrite N1. pose proof (off_lt sz p r). lia.
Qed.

Lemma tab_lengths rs tab m oms cs : tabulates rs tab -> nth_error tab m = Some (oms, cs) -> (0 < List.length oms <= List.length rs)%nat.
Proof.
  intros H E. specialize (H m). rewrite E in H. destruct H as ((r & Hr & Hm) & -> & _). split.
  - clear E. induction rs as [|r' rs IH]; [destruct Hr|]. cbn [map List.concat]. rewrite app_length. destruct Hr as [->|Hr]; [|specialize (IH Hr); lia].
    unfold mth. assert (0 < List.length (firstn 1 (skipn m (fst r))))%nat by (rewrite firstn_length, skipn_length; lia). lia.
  - clear. induction rs as [|r' rs IH]; [cbn; lia|]. cbn [map List.concat List.length]. rewrite app_length.
    assert (List.length (mth m (fst r')) <= 1)%nat by (unfold mth; rewrite firstn_length; lia). lia.
Qed.
Lemma tables_len root d o ks k eps garr te tm : tables_for root d o ks k eps garr te tm ->
  forall m oms cs, entry te tm m = Some (oms, cs) -> (0 < List.length oms <= List.length garr)%nat.
Proof.
  intros (_ & T1 & T2) m oms cs. unfold entry.
  assert (X : forall par pol tab, table_for root o par pol eps (d_list d) garr tab -> forall i, nth_error tab i = Some (oms, cs) -> (0 < List.length oms <= List.length garr)%nat).
  { intros par pol tab [[_ ->]|(n & rs & _ & _ & _ & <- & T)] i Hi; [destruct i; discriminate|]. eapply tab_lengths; eauto. }
  destruct (Nat.even m); eapply X; eauto.
Qed.

Lemma unif_run argsort eigh eigsh inv root d o ks an s s' : sorts argsort -> diagonalises eigh -> o_solver o = "eigh" -> o_symm o = None ->
  run argsort eigh eigsh inv root 0 d o ks an s = (s', Ok tt) -> dv_gvec d <> [] -> NoDup (o_inds o) ->
  List.Forall (fun x => 0 <= x) (map ly_d (pc_layers (dv_phc d))) ->
  forall ik k, nth_error ks ik = Some k -> exists eps einv garr te tm,
    eps_for d o eps /\ g_einv s' = Some einv /\ tables_for root d o ks k eps garr te tm /\
    (unpatterned (List.length (dv_gvec d)) eps einv ->
     slab_modes_at (dv_gvec d) k (o_dgx o) (o_inds o) garr te tm eps (map ly_d (pc_layers (dv_phc d))) ->
     forall f, In f (nth ik (g_freqs s') []) -> exists m x r E, let g := gk_len (gk_data (dv_gvec d) k (o_dgx o)) in
       In m (present te tm (o_inds o)) /\ get_guided (List.length (dv_gvec d)) g garr te tm eps m = Ok x /\ (r < List.length (md_ind x))%nat /\
       is_energy (Nat.even m) (g (md_g x r)) (List.length eps) (map ly_d (pc_layers (dv_phc d)))
         (fun il => md_chi x il r) (fun il => md_A x il r) (fun il => md_B x il r) E /\
       f = md_om x r * sqrt E / (2 * PI)).
Proof.
  intros Hs He E1 E2 H Hg Hn Hd ik k Hk.
  destruct (C38_run argsort eigh eigsh inv root 0 Hs d o ks an s s' He E1 E2 H) as (_ & _ & Q).
  destruct (Q ik k Hk) as (eps & einv & te & tm & mat & ls & V & idx & M1 & M2 & M3 & M4).
  destruct (matrix_tables root 0 d o ks eps einv k te tm mat) as (T1 & garr & T2 & T3); [intros ->; destruct ik; discriminate|exact Hg|exact M1|].
  exists eps, einv, garr, te, tm. split; [exact T1|]. split; [exact M2|]. split; [exact T2|].
  intros Hu Hm f Hf.
  destruct (unif_spectrum _ _ _ _ _ _ _ _ _ _ _ (tables_len _ _ _ _ _ _ _ _ _ T2) Hn Hu Hd Hm T3) as (ls0 & P & S).
  destruct M3 as (EV & EF & _). rewrite EF in Hf. apply in_map_iff in Hf. destruct Hf as (j & <- & Hj).
  assert (Hjn : (j < List.length ls)%nat). { destruct EV as [-> _]. destruct M4 as (_ & _ & X & _). apply X, Hj. }
  assert (HI : In (nth j ls 0) ls0) by (eapply Permutation_in; [apply (P ls V EV)|apply nth_In, Hjn]).
  apply S in HI. destruct HI as (m & x & r & E & A1 & A2 & A3 & A4 & A5 & A6).
  exists m, x, r, E. cbv zeta. split; [exact A1|]. split; [exact A2|]. split; [exact A3|]. split; [exact A4|].
  unfold freq_of. rewrite A6. destruct Hm as [Hm _]. destruct (Hm m x A1 A2 r A3) as (_ & W & _). cbn [snd] in W.
  f_equal. assert (0 <= md_om x r * md_om x r) by nra. rewrite Rabs_right by (apply Rle_ge, Rmult_le_pos; auto).
  rewrite sqrt_mult by auto. rewrite sqrt_square by lra. reflexivity.
Qed.

(** ** two modes of a slab at one plane wave *)
Definition at_layer (co : list (C * C)) : nat -> C * C := fun il => nth il co (RtoC 0, RtoC 0).
Definition ex_einv (eps : list R) : nat -> cmat := fun il i j => if Nat.eqb i j then RtoC (/ nth il eps 0) else RtoC 0.

Lemma one_len : gk_len (gk_data [(0, 0)] (1, 0) 0) 0%nat = 1.
Proof. cbn. replace ((0 + 1 + 0) * (0 + 1 + 0) + (0 + 0) * (0 + 0)) with (1 * 1) by ring. apply sqrt_square. lra. Qed.
Lemma one_guided (te : gtable) eps m w co x : nth_error (if Nat.even m then te else []) (m / 2) = Some ([w], [at_layer co]) ->
  get_guided 1 (gk_len (gk_data [(0, 0)] (1, 0) 0)) [1] te [] eps m = Ok x ->
  md_ind x = [0%nat] /\ (forall i, i = 0%nat -> md_g x i = 0%nat /\ md_om x i = w /\ (forall il, md_chi x il i = chi w 1 (nth il eps 0)) /\
    (forall il, md_A x il i = fst (nth il co (RtoC 0, RtoC 0))) /\ forall il, md_B x il i = snd (nth il co (RtoC 0, RtoC 0))).
Proof.
  intros E. unfold get_guided. rewrite E. cbn [List.length last_n skipn Nat.sub].
  assert (I : argwhere_gt 1 (gk_len (gk_data [(0, 0)] (1, 0) 0)) (1 - / 10 ^ 10) = [0%nat]).
  { unfold argwhere_gt. cbn [seq filter]. rewrite one_len. assert (0 < / 10 ^ 10) by (apply Rinv_0_lt_compat, pow_lt; lra). rewrite (proj2 (Rltb_true _ _)) by lra. reflexivity. }
  cbn [skipn]. rewrite I. match goal with |- Ok ?y = _ -> _ => intros X; assert (Y : x = y) by congruence; rewrite Y; clear X Y end. cbn [md_ind]. split; [reflexivity|]. intros i ->. unfold md_g. cbn [md_ind md_om md_chi md_A md_B nth]. rewrite one_len.
  assert (J : forall y, interp 1 [1] [y] = y). { intros y. unfold interp. cbn [combine]. destruct (Rltb 1 1); reflexivity. }
  cbn [map]. split; [reflexivity|]. rewrite J. cbn [fst RtoC]. split; [reflexivity|]. split; [reflexivity|]. split; intros il; rewrite J; reflexivity.
Qed.

Lemma ex_slab : exists w1 w2 co1 co2,
  let te := [([w1], [at_layer co1]); ([w2], [at_layer co2])] in let eps := [1; 4; 1] in
  w1 <> w2 /\ unpatterned 1 eps (ex_einv eps) /\
  (forall m oms cs, entry te [] m = Some (oms, cs) -> (0 < List.length oms <= List.length [1])%nat) /\
  present te [] [0%nat; 2%nat] = [0%nat; 2%nat] /\
  slab_modes_at [(0, 0)] (1, 0) 0 [0%nat; 2%nat] [1] te [] eps [14 / 5].
Proof.
  destruct ex2_two as (root & HR & w1 & w2 & co1 & co2 & G & X1 & X2 & B1 & B2).
  destruct (given_g_window root true 1 1 1 [4] [14 / 5] 2 (7 / 40) (1 / 10) HR eq_refl ltac:(discriminate) ltac:(repeat constructor; lra) ltac:(lra) ltac:(lra) ltac:(lra)) as [mm [oms' [cs' [_ [_ [E [L [SP [WW _]]]]]]]]].
  cbn [app] in E. rewrite G in E. injection E as <- <-.
  exists w1, w2, co1, co2. cbv zeta.
  assert (Wn : w1 <> w2). { destruct SP as [_ [INC _]]. apply Rlt_not_eq. apply (INC 0%nat 1%nat). cbn. lia. }
  split; [exact Wn|].
  assert (So : forall w co, In (w, co) [(w1, co1); (w2, co2)] -> chi w 1 4 <> RtoC 0 -> snd (hd (RtoC 0, RtoC 0) co) <> RtoC 0 -> 0 < w /\
    slab_solution true 1 w [1; 4; 1] [14 / 5] (fun il => chi w 1 (nth il [1; 4; 1] 0)) (fun il => fst (nth il co (RtoC 0, RtoC 0))) (fun il => snd (nth il co (RtoC 0, RtoC 0)))).
  { intros w co Hin HX HB. destruct (WW w) as [Q1 [[e [Q2 Q3]] [Q4 Q5]]].
    { destruct Hin as [X|[X|[]]]; injection X as <- <-; cbn; auto. }
    split; [exact Q1|]. destruct Q2 as [<-|[]].
    refine (searched_solution root true 1 1 1 [4] [14 / 5] 2 None None (7 / 40) (1 / 10) [w1; w2] [co1; co2] w co HR eq_refl _ _ G _ Hin Q1 Q4 Q5 _ _ HB).
    - discriminate.
    - repeat constructor; lra.
    - lra.
    - intros _. constructor; [exact Q3|constructor].
    - constructor; [exact HX|constructor]. }
  destruct (So w1 co1 ltac:(left; reflexivity) X1 B1) as [P1 S1]. destruct (So w2 co2 ltac:(right; left; reflexivity) X2 B2) as [P2 S2].
  split; [intros il i j _ _ _; reflexivity|].
  split; [intros m oms cs; unfold entry; destruct (Nat.even m); [|destruct (m / 2)%nat; discriminate]; destruct (m / 2)%nat as [|[|q]]; cbn [nth_error]; [| |destruct q; discriminate]; intros X; injection X as <- <-; cbn; lia|].
  split; [reflexivity|]. split.
  - intros m x Hm Hx r Hr. destruct Hm as [<-|[<-|[]]].
    + destruct (one_guided [([w1], [at_layer co1]); ([w2], [at_layer co2])] [1; 4; 1] 0 w1 co1 x eq_refl Hx) as [I Q]. rewrite I in Hr. cbn in Hr. destruct (Q r ltac:(lia)) as (A1 & A2 & A3 & A4 & A5).
      unfold solves. cbn [fst snd]. rewrite A1, A2, one_len. split; [lra|]. split; [exact P1|]. 
      destruct S1. constructor; auto; cbv beta; intros; rewrite ?A3, ?A4, ?A5; auto.
    + destruct (one_guided [([w1], [at_layer co1]); ([w2], [at_layer co2])] [1; 4; 1] 2 w2 co2 x eq_refl Hx) as [I Q]. rewrite I in Hr. cbn in Hr. destruct (Q r ltac:(lia)) as (A1 & A2 & A3 & A4 & A5).
      unfold solves. cbn [fst snd]. rewrite A1, A2, one_len. split; [lra|]. split; [exact P2|].
      destruct S2. constructor; auto; cbv beta; intros; rewrite ?A3, ?A4, ?A5; auto.
  - intros m x m' x' Hm Hm' Hne _ Hx Hx' r r' Hr Hr' _.
    destruct Hm as [<-|[<-|[]]], Hm' as [<-|[<-|[]]]; try congruence.
    + destruct (one_guided [([w1], [at_layer co1]); ([w2], [at_layer co2])] [1; 4; 1] 0 w1 co1 x eq_refl Hx) as [I Q]. destruct (one_guided [([w1], [at_layer co1]); ([w2], [at_layer co2])] [1; 4; 1] 2 w2 co2 x' eq_refl Hx') as [I' Q'].
      rewrite I in Hr. rewrite I' in Hr'. cbn in Hr, Hr'. destruct (Q r ltac:(lia)) as (_ & -> & _). destruct (Q' r' ltac:(lia)) as (_ & -> & _). exact Wn.
    + destruct (one_guided [([w1], [at_layer co1]); ([w2], [at_layer co2])] [1; 4; 1] 2 w2 co2 x eq_refl Hx) as [I Q]. destruct (one_guided [([w1], [at_layer co1]); ([w2], [at_layer co2])] [1; 4; 1] 0 w1 co1 x' eq_refl Hx') as [I' Q'].
      rewrite I in Hr. rewrite I' in Hr'. cbn in Hr, Hr'. destruct (Q r ltac:(lia)) as (_ & -> & _). destruct (Q' r' ltac:(lia)) as (_ & -> & _). congruence.
Qed.
