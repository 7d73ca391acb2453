(** Layers without shapes have the inverse permittivity 1/eps. *)
From Coq Require Import Permutation List.
From Verif Require Import Py CBase LatticeModel LatticeSpec LatticeProofs PhcModel PhcSpec PhcProofs3 RecipModel RecipSpec RecipProofs SlabModel MatElModel MatElSpec RunModel RunSpec InvSpec GinvSpec GinvProofs GinvProofs2 GinvProofs3 GinvProofs6 PweSpec PweProofs PweProofs3 UnifSpec.
Open Scope list_scope.
Open Scope R_scope.

Lemma plain_real d ly g : ly_shapes ly = [] -> snd (transform d ly g) = 0.
Proof.
  intros P. unfold transform. destruct (near_zero g) eqn:E.
  - rewrite layer_ft_zero by (apply near_zero_iff; exact E). reflexivity.
  - rewrite layer_ft_nonzero by (intros Z; apply near_zero_iff in Z; congruence). rewrite P. cbn. ring.
Qed.
Lemma g0_opp g : is_g0 (opp g) <-> is_g0 g.
Proof. unfold is_g0, opp. cbn [fst snd]. rewrite !Rabs_Ropp. tauto. Qed.
Lemma plain_matrix d ly : ly_shapes ly = [] -> NoDup (dv_gvec d) -> (forall g g', In g (dv_gvec d) -> In g' (dv_gvec d) -> is_g0 (diff g g') -> g = g') ->
  let gs := dv_gvec d in forall i j, (i < List.length gs)%nat -> (j < List.length gs)%nat ->
  transform d ly (diff (nth i gs (0, 0)) (nth j gs (0, 0))) = if Nat.eqb i j then RtoC (ly_epsavg ly) else RtoC 0.
Proof.
  intros P ND Hsep gs i j Hi Hj. unfold transform. destruct (Nat.eqb_spec i j) as [<-|Ne].
  - apply layer_ft_zero. unfold is_g0, diff. cbn [fst snd]. rewrite !Rminus_diag_eq, !Rabs_R0, Rplus_0_r by reflexivity. apply Rinv_0_lt_compat, pow_lt. lra.
  - rewrite layer_ft_nonzero; [rewrite P; cbn [map clsum fold_right]; unfold Cdiv; ring|].
    intros Z. apply Ne. apply (proj1 (NoDup_nth gs (0, 0)) ND); auto. apply Hsep; auto; apply nth_In; auto.
Qed.
Lemma plain_usable d ly : ly_shapes ly = [] -> 0 < ly_epsavg ly -> NoDup (dv_gvec d) ->
  (forall g g', In g (dv_gvec d) -> In g' (dv_gvec d) -> is_g0 (diff g g') -> g = g') -> layer_usable d ly.
Proof.
  intros P P2 ND Hsep. split; [|split].
  - intros g. pose proof (plain_real d ly g P) as R1. pose proof (plain_real d ly (opp g) P) as R2.
    apply Ceq; [|unfold Cconj; cbn [snd]; rewrite R1, R2; ring]. cbn [Cconj fst]. unfold transform. destruct (near_zero g) eqn:E.
    + assert (is_g0 g) by (apply near_zero_iff; exact E). rewrite !layer_ft_zero; auto. apply g0_opp. auto.
    + assert (~ is_g0 g) by (intros Z; apply near_zero_iff in Z; congruence). rewrite !layer_ft_nonzero; auto; [rewrite P; reflexivity|]. rewrite g0_opp. auto.
  - eexists. apply delta_inverse with (c := ly_epsavg ly); [lra|]. apply plain_matrix; auto.
  - intros _ g h _ _. left. apply plain_real. exact P.
Qed.

Lemma plain_einv inv only args gmax d : inverts inv -> lattice_init args = Ok (cell d) -> independent (lt_a1 (cell d)) (lt_a2 (cell d)) -> 0 <= gmax ->
  waves_of (cell d) (dv_tbt d) gmax (dv_rc d) ->
  each_layer (fun ly => ly_shapes ly = [] /\ 0 < ly_epsavg ly) d ->
  NoDup (dv_gvec d) -> (forall g g', In g (dv_gvec d) -> In g' (dv_gvec d) -> is_g0 (diff g g') -> g = g') ->
  unpatterned (List.length (dv_gvec d)) (map ly_epsavg (all_layers (dv_phc d))) (build_einv inv d only).
Proof.
  intros HI HL Ha Hg W EP ND Hsep il i j Hil Hi Hj.
  assert (EU : each_layer (layer_usable d) d).
  { destruct EP as (E1 & E2 & E3). assert (Q : forall ly, ly_shapes ly = [] /\ 0 < ly_epsavg ly -> layer_usable d ly) by (intros ly [A B]; apply plain_usable; auto).
    split; [auto|]. split; [|auto]. eapply Forall_impl; [|eassumption]. exact Q. }
  destruct (einv_form inv only args gmax d il HI HL Ha Hg W EU) as (F & HF & _ & X). cbv zeta in X.
  set (ly := nth il (all_layers (dv_phc d)) (pc_clad_l (dv_phc d))) in *.
  assert (Ely : nth il (map ly_epsavg (all_layers (dv_phc d))) 0 = ly_epsavg ly).
  { rewrite (nth_indep _ 0 (ly_epsavg (pc_clad_l (dv_phc d)))) by exact Hil. apply map_nth. }
  destruct (forall_nth _ _ _ il (each_all _ _ EP) (proj1 EP)) as (P1 & P2). fold ly in P1, P2. rewrite Ely.
  assert (Z0 : is_g0 (0, 0)). { unfold is_g0. cbn [fst snd]. rewrite Rabs_R0, Rplus_0_r. apply Rinv_0_lt_compat, pow_lt. lra. }
  assert (O0 : opp (0, 0) = (0, 0)) by (unfold opp; cbn [fst snd]; f_equal; ring).
  assert (F0 : F (0, 0) = RtoC (ly_epsavg ly)).
  { destruct HF as [<-|[<-|[]]]; cbv beta; rewrite ?O0; apply layer_ft_zero; exact Z0. }
  assert (FN : forall g, ~ is_g0 g -> ~ is_g0 (opp g) -> F g = RtoC 0).
  { intros g N1 N2. destruct HF as [<-|[<-|[]]]; cbv beta; unfold transform; rewrite layer_ft_nonzero by auto; rewrite P1; cbn [map clsum fold_right]; unfold Cdiv; ring. }
  assert (N0 : RtoC (ly_epsavg ly) <> RtoC 0) by (intros E; apply (f_equal fst) in E; cbn [fst RtoC] in E; lra).
  destruct X as [X|(A & _ & HA & X)]; rewrite (X i j Hi Hj).
  - rewrite F0. destruct (Nat.eqb i j); unfold Cdiv; [rewrite <- RtoC_inv by lra; ring|ring].
  - pose proof (delta_inverse (List.length (dv_gvec d)) (ly_epsavg ly) A ltac:(lra)) as D.
    assert (HD : forall i j, (i < List.length (dv_gvec d))%nat -> (j < List.length (dv_gvec d))%nat -> A i j = if Nat.eqb i j then RtoC (ly_epsavg ly) else RtoC 0).
    { intros a b La Lb. rewrite HA by auto. destruct (Nat.eqb_spec a b) as [<-|Ne].
      - rewrite <- F0. f_equal. unfold diff. f_equal; ring.
      - apply FN.
        + intros Z. apply Ne. apply (proj1 (NoDup_nth (dv_gvec d) (0, 0)) ND); auto. apply Hsep; auto; apply nth_In; auto.
        + intros Z. apply Ne. apply (proj1 (NoDup_nth (dv_gvec d) (0, 0)) ND); auto. apply Hsep; try (apply nth_In; auto).
          unfold is_g0, opp, diff in *. cbn [fst snd] in *. rewrite !Rabs_Ropp in Z. exact Z. }
    specialize (D HD). exact (inverse_unique _ _ _ _ (HI _ _ (ex_intro _ _ D)) D i j Hi Hj).
Qed.
