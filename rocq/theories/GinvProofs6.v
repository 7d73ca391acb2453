(** The inverse permittivities of one device: Hermitian, and unchanged by the
    operations that leave the crystal unchanged. *)
From Coq Require Import Permutation List.
From Verif Require Import Py CBase LatticeModel LatticeSpec LatticeProofs PhcModel PhcSpec RecipModel RecipSpec RecipProofs RecipProofs2 RecipProofs3 RecipProofs4 RecipProofs5 MatElModel RunModel RunSpec PweSpec PweProofs PweProofs3 InvSpec InvProofs InvProofs2 InvProofs3 GinvSpec GinvProofs2 GinvProofs3.
Open Scope R_scope.
Open Scope list_scope.

Lemma abs_t0 args L gmax fuel rc f : lattice_init args = Ok L -> independent (lt_a1 L) (lt_a2 L) -> 0 <= gmax -> recip_abs fuel L gmax = Some (Ok rc) ->
  conj_symmetric f -> (0 < List.length (rc_g rc))%nat -> nth (argmin (map norm2 (G1_abs rc))) (T1_abs L f rc) (RtoC 0) = f (0, 0) /\
  forall i j, (i < List.length (rc_g rc))%nat -> (j < List.length (rc_g rc))%nat -> eps_mat_abs L f rc i j = f (diff (nth j (rc_g rc) (0, 0)) (nth i (rc_g rc) (0, 0))).
Proof.
  intros HL Ha Hg HR Hf P. pose proof (indep_recip _ _ HL Ha) as Hb. set (gs := rc_g rc) in *. set (n := List.length gs) in *.
  destruct (recip_abs_form L gmax Hg Hb) as (n1 & n2 & k & _ & _ & _ & _ & _ & F & _).
  destruct (F _ _ HR) as (rc' & E & G & I & _). injection E as E. subst rc'.
  pose proof (abs_g_len _ _ _ G) as GL. fold gs n in GL.
  assert (EN : forall i j, (i < n)%nat -> (j < n)%nat -> nth (i * n + j) (T1_abs L f rc) (RtoC 0) = f (diff (nth j gs (0, 0)) (nth i gs (0, 0)))).
  { intros a b Ia Ib. pose proof (abs_entry L f rc _ G I Hf a b) as AE. rewrite <- GL in AE. apply AE; auto. }
  split; [|intros; unfold eps_mat_abs; fold gs n; apply EN; auto].
  assert (A0 : argmin (map norm2 (G1_abs rc)) = 0%nat).
  { assert (HD : exists t, G1_abs rc = (0, 0) :: t).
    { unfold G1_abs, grid_diff. fold gs. assert (GN : gs <> []) by (intros ZZ; unfold n in P; rewrite ZZ in P; simpl in P; lia). destruct gs as [|g l]; [congruence|]. cbn [flat_map map app]. eexists. f_equal. unfold RecipModel.vsub. f_equal; ring. }
    destruct HD as (t0 & ->). cbn [map argmin]. rewrite norm2_len, (len_val 0 0 0) by lra.
    assert (AF : forall l b, (forall x, In x l -> 0 <= x) -> argmin_from 0 0 b l = 0%nat).
    { induction l as [|x l IH]; intros b Hx; auto. cbn [argmin_from]. rewrite (proj2 (Rltb_false x 0)); [apply IH; intros; apply Hx; right; auto|].
      specialize (Hx x (or_introl eq_refl)). lra. }
    apply AF. intros x Hx. apply in_map_iff in Hx. destruct Hx as (g & <- & _). rewrite norm2_len. apply len_pos. }
  rewrite A0. change 0%nat with (0 * n + 0)%nat. rewrite EN by auto. f_equal. unfold diff. f_equal; ring.
Qed.
Lemma conj_zero f : conj_symmetric f -> snd (f (0, 0)) = 0.
Proof. intros H. pose proof (H (0, 0)) as E. unfold opp in E. cbn [fst snd] in E. rewrite Ropp_0 in E. apply (f_equal snd) in E. unfold Cconj in E. cbn [snd] in E. lra. Qed.
Lemma conj_opp f : conj_symmetric f -> conj_symmetric (fun g => f (opp g)).
Proof. intros H g. apply (H (opp g)). Qed.

(** the three forms of one layer's inverse permittivity *)
Lemma einv_form inv only args gmax d il : inverts inv -> lattice_init args = Ok (cell d) -> independent (lt_a1 (cell d)) (lt_a2 (cell d)) -> 0 <= gmax ->
  waves_of (cell d) (dv_tbt d) gmax (dv_rc d) -> each_layer (layer_usable d) d ->
  let n := List.length (dv_gvec d) in let gs := dv_gvec d in let e := build_einv inv d only il in
  exists F, In F [transform d (nth il (all_layers (dv_phc d)) (pc_clad_l (dv_phc d))); fun g => transform d (nth il (all_layers (dv_phc d)) (pc_clad_l (dv_phc d))) (opp g)] /\
  conj_symmetric F /\ ((forall i j, (i < n)%nat -> (j < n)%nat -> e i j = Cdiv (if Nat.eqb i j then RtoC 1 else RtoC 0) (F (0, 0))) \/
   (exists A, (exists B, is_inverse n A B) /\ (forall i j, (i < n)%nat -> (j < n)%nat -> A i j = F (diff (nth i gs (0, 0)) (nth j gs (0, 0)))) /\
     forall i j, (i < n)%nat -> (j < n)%nat -> e i j = inv n A i j)).
Proof.
  intros HI HL Ha Hg W EU n gs e. destruct (forall_nth _ _ _ il (each_all _ _ EU) (proj1 EU)) as (C1 & I1 & N1).
  set (ly := nth il (all_layers (dv_phc d)) (pc_clad_l (dv_phc d))) in *. unfold e, build_einv. fold ly. change (layer_ft_at (lt_ec_area (cell d)) ly) with (transform d ly). destruct (dv_tbt d) eqn:Et.
  - exists (transform d ly). split; [left; auto|]. split; [auto|]. unfold waves_of in W.
    assert (EN : forall i j, (i < n)%nat -> (j < n)%nat -> eps_mat_tbt (transform d ly) (dv_rc d) i j = transform d ly (diff (nth i gs (0, 0)) (nth j gs (0, 0)))).
    { specialize (N1 eq_refl). unfold n, gs, dv_gvec in *. rewrite W in N1 |- *. apply (tbt_entry args (cell d) gmax _ HL Ha Hg C1). exact N1. }
    assert (SN : (0 < n)%nat -> T1_tbt (transform d ly) (dv_rc d) = map (transform d ly) (G1_of gs)).
    { intros Pn. apply (snap_idle gs); [apply N1; auto|]. intros g Ig. unfold G1_of in Ig. apply in_map_iff in Ig. destruct Ig as (h & <- & Ih). exists (nthg gs 0), h. split; [apply nth_In; exact Pn|]. split; auto. }
    unfold eps_inv_tbt. destruct (hom_tbt _ || only)%bool.
    + left. intros i j Hi Hj. f_equal. rewrite SN by lia. rewrite (nth_map_lt _ _ _ (0, 0)) by (unfold G1_of; rewrite map_length; change (0 < n)%nat; lia).
      f_equal. unfold G1_of. rewrite (nth_map_lt _ _ _ (0, 0)) by (change (0 < n)%nat; lia). unfold nthg, RecipModel.vsub. f_equal; ring.
    + right. exists (eps_mat_tbt (transform d ly) (dv_rc d)). split; [|split; [exact EN|]].
      * destruct I1 as (B & I1). exists B. eapply inverse_ext; [|exact I1]. intros i j Hi Hj. symmetry. apply EN; auto.
      * intros i j Hi Hj. rewrite SN by lia. unfold G1_of. rewrite !map_length. reflexivity.
  - exists (fun g => transform d ly (opp g)). split; [right; left; auto|]. split; [apply conj_opp; auto|]. destruct W as (fuel & W).
    assert (O0 : opp (0, 0) = (0, 0)) by (unfold opp; cbn [fst snd]; f_equal; ring). rewrite O0.
    assert (T : (0 < n)%nat -> _) by (intros Pn; exact (abs_t0 args (cell d) gmax fuel (dv_rc d) (transform d ly) HL Ha Hg W C1 Pn)).
    assert (EN : forall i j, (i < n)%nat -> (j < n)%nat -> eps_mat_abs (cell d) (transform d ly) (dv_rc d) i j = transform d ly (opp (diff (nth i gs (0, 0)) (nth j gs (0, 0))))).
    { intros i j Hi Hj. rewrite (proj2 (T ltac:(lia))) by auto. f_equal. unfold opp, diff, gs, dv_gvec. cbn [fst snd]. f_equal; ring. }
    unfold eps_inv_abs. destruct (hom_abs _ _ || only)%bool.
    + left. intros i j Hi Hj. f_equal. apply (T ltac:(lia)).
    + right. exists (eps_mat_abs (cell d) (transform d ly) (dv_rc d)). split; [|split; [exact EN|reflexivity]].
      destruct (invert_flip n _ I1) as (B & I2). exists B. eapply inverse_ext; [|exact I2]. intros i j Hi Hj. cbv beta. rewrite EN by auto.
      f_equal. unfold opp, diff, gs. cbn [fst snd]. f_equal; ring.
Qed.
Lemma einv_herm inv only args gmax d : inverts inv -> lattice_init args = Ok (cell d) -> independent (lt_a1 (cell d)) (lt_a2 (cell d)) -> 0 <= gmax ->
  waves_of (cell d) (dv_tbt d) gmax (dv_rc d) -> each_layer (layer_usable d) d ->
  forall il i j, (i < List.length (dv_gvec d))%nat -> (j < List.length (dv_gvec d))%nat -> build_einv inv d only il i j = Cconj (build_einv inv d only il j i).
Proof.
  intros HI HL Ha Hg W EU il i j Hi Hj. destruct (einv_form inv only args gmax d il HI HL Ha Hg W EU) as (F & _ & Cs & [E|(A & IA & EA & E)]); rewrite !E by auto.
  - pose proof (conj_zero F Cs) as Z. rewrite (Nat.eqb_sym j i). rewrite (surjective_pairing (F (0, 0))), Z. fold (RtoC (fst (F (0, 0)))). destruct (Nat.eqb i j).
    + destruct (Req_dec (fst (F (0, 0))) 0) as [Q|Q]; [rewrite Q|].
      * unfold Cdiv, Cinv, Cmult, Cconj, RtoC. cbn [fst snd]. f_equal; unfold Rdiv; ring.
      * rewrite <- RtoC_div by auto. rewrite Cconj_R. reflexivity.
    + unfold Cdiv. rewrite Cconj_mult, Cconj_R. ring_simplify. reflexivity.
  - apply (inverse_herm _ A (inv _ A) (HI _ _ IA)); auto. intros a b Ia Ib. rewrite !EA by auto. rewrite <- Cs. f_equal. unfold opp, diff. cbn [fst snd]. f_equal; ring.
Qed.
(** an operation under which every layer is unchanged *)
Lemma einv_sym inv only args gmax d M sg : inverts inv -> lattice_init args = Ok (cell d) -> independent (lt_a1 (cell d)) (lt_a2 (cell d)) -> 0 <= gmax ->
  waves_of (cell d) (dv_tbt d) gmax (dv_rc d) -> each_layer (layer_usable d) d -> let n := List.length (dv_gvec d) in
  linear_isometry M -> each_layer (fun ly => invariant_on (difference_of (dv_gvec d)) M (transform d ly)) d ->
  perm_on n sg -> (forall i, (i < n)%nat -> nth i (dv_gvec d) (0, 0) = M (nth (sg i) (dv_gvec d) (0, 0))) ->
  forall il i j, (i < n)%nat -> (j < n)%nat -> build_einv inv d only il i j = build_einv inv d only il (sg i) (sg j).
Proof.
  intros HI HL Ha Hg W EU n HM HV P Hsg il i j Hi Hj. pose proof (forall_nth _ _ _ il (each_all _ _ HV) (proj1 HV)) as V. cbv beta in V.
  destruct (einv_form inv only args gmax d il HI HL Ha Hg W EU) as (F & HF & Cs & E). set (tr := transform d _) in *.
  assert (FI : forall u v, In u (dv_gvec d) -> In v (dv_gvec d) -> F (M (diff u v)) = F (diff u v)).
  { intros u v Hu Hv. destruct HF as [<-|[<-|[]]].
    - apply V. exists u, v. auto.
    - assert (OD : forall a b, opp (diff a b) = diff b a) by (intros; unfold opp, diff; cbn [fst snd]; f_equal; ring).
      rewrite (iso_diff M HM), !OD, <- (iso_diff M HM). apply V. exists v, u. auto. }
  pose proof (proj1 P i Hi) as Si. pose proof (proj1 P j Hj) as Sj.
  destruct E as [E|(A & IA & EA & E)]; rewrite !E by auto.
  - destruct (Nat.eqb_spec i j) as [->|Ne]; [rewrite Nat.eqb_refl; reflexivity|]. destruct (Nat.eqb_spec (sg i) (sg j)) as [Q|_]; [|reflexivity]. apply (proj2 P) in Q; auto. contradiction.
  - rewrite (inv_twist inv n A A sg (fun _ => RtoC 1) HI P) with (i := i); auto.
    + rewrite Cconj_R. fold n. ring.
    + intros. rewrite Cconj_R. ring.
    + intros a b Ia Ib. rewrite !EA by (auto; apply (proj1 P); auto). rewrite (Hsg a), (Hsg b), <- (iso_diff M HM), FI by (auto; apply nth_In, (proj1 P); auto). rewrite Cconj_R. ring.
Qed.
