(** The overlap integrals as functions of the regulariser. *)
From Coquelicot Require Import Coquelicot.
From Coq Require Import Lra Lia.
From Verif Require Import Py CBase CInt SlabModel SlabSpec SlabProofs3 SlabProofs4 MatElModel MatElSpec MatElProofs MatElProofs3 RegSpec.
Open Scope R_scope.

(** deviation from the value at 0 at most proportional to the argument *)
Definition lip (f : R -> C) : Prop := exists K, 0 <= K /\ forall t, 0 <= t <= 1 -> Cmod (f t - f 0)%C <= K * t.

Lemma lip_const c : lip (fun _ => c).
Proof. exists 0. split; [lra|]. intros t Ht. replace (c - c)%C with (RtoC 0) by ring. rewrite Cmod_0. lra. Qed.
Lemma lip_plus f g : lip f -> lip g -> lip (fun t => f t + g t)%C.
Proof.
  intros (K & K0 & H) (L & L0 & G). exists (K + L). split; [lra|]. intros t Ht. replace (f t + g t - (f 0 + g 0))%C with ((f t - f 0) + (g t - g 0))%C by ring.
  eapply Rle_trans; [apply Cmod_triangle|]. specialize (H t Ht). specialize (G t Ht). lra.
Qed.
Lemma lip_opp f : lip f -> lip (fun t => - f t)%C.
Proof. intros (K & K0 & H). exists K. split; [auto|]. intros t Ht. replace (- f t - - f 0)%C with (- (f t - f 0))%C by ring. rewrite Cmod_opp. auto. Qed.
Lemma lip_minus f g : lip f -> lip g -> lip (fun t => f t - g t)%C.
Proof. intros F G. apply (lip_plus f (fun t => - g t)%C F (lip_opp g G)). Qed.
Lemma lip_scal c f : lip f -> lip (fun t => c * f t)%C.
Proof.
  intros (K & K0 & H). exists (Cmod c * K). split; [apply Rmult_le_pos; [apply Cmod_ge_0|auto]|]. intros t Ht. replace (c * f t - c * f 0)%C with (c * (f t - f 0))%C by ring.
  rewrite Cmod_mult, Rmult_assoc. apply Rmult_le_compat_l; [apply Cmod_ge_0|auto].
Qed.
Lemma lip_scal_r c f : lip f -> lip (fun t => f t * c)%C.
Proof. intros F. destruct (lip_scal c f F) as (K & K0 & H). exists K. split; [auto|]. intros t Ht. rewrite !(Cmult_comm _ c). auto. Qed.
Lemma lip_csum n (f : nat -> R -> C) : (forall i, (i < n)%nat -> lip (f i)) -> lip (fun t => csum n (fun i => f i t)).
Proof.
  intros H. induction n as [|n IH]; [exact (lip_const (RtoC 0))|]. cbn [csum]. apply lip_plus; [apply IH; intros; apply H; lia|apply H; lia].
Qed.
Lemma lip_conj f : lip f -> lip (fun t => Cconj (f t)).
Proof.
  intros (K & K0 & H). exists K. split; [auto|]. intros t Ht. replace (Cconj (f t) - Cconj (f 0))%C with (Cconj (f t - f 0)%C) by (apply injective_projections; cbn; ring).
  replace (Cmod (Cconj (f t - f 0)%C)) with (Cmod (f t - f 0)%C); [auto|]. unfold Cmod. f_equal. cbn. ring.
Qed.
Lemma lip_re f : lip f -> lip (fun t => RtoC (fst (f t))).
Proof.
  intros (K & K0 & H). exists K. split; [auto|]. intros t Ht. rewrite <- RtoC_minus, Cmod_R. eapply Rle_trans; [|apply (H t Ht)].
  eapply Rle_trans; [|apply (Rmax_Cmod (f t - f 0)%C)]. apply Rmax_l.
Qed.
Lemma lip_ext f g : (forall t, g t = f t) -> lip f -> lip g.
Proof. intros E (K & K0 & H). exists K. split; [auto|]. intros t Ht. rewrite !E. auto. Qed.

Lemma lip_J (a : C) : snd a <> 0 -> lip (fun dl => J_alpha dl a).
Proof.
  intros Ha. exists (/ (Rabs (snd a) * Rabs (snd a))). assert (P : 0 < Rabs (snd a)) by (apply Rabs_pos_lt; auto).
  split; [apply Rlt_le, Rinv_0_lt_compat; nra|]. intros t Ht. unfold J_alpha. cbv zeta.
  assert (N : forall s, (a + RtoC s)%C <> RtoC 0). { intros s E. apply (f_equal snd) in E. cbn in E. apply Ha. lra. }
  assert (M : forall s, Rabs (snd a) <= Cmod (a + RtoC s)%C). { intros s. eapply Rle_trans; [|apply Rmax_Cmod]. cbn. rewrite Rplus_0_r. apply Rmax_r. }
  replace (Ci / (a + RtoC t) - Ci / (a + RtoC 0))%C with (- (Ci * RtoC t) / ((a + RtoC t) * (a + RtoC 0)))%C.
  2:{ assert (N1 := N t). assert (N2 := N 0). replace (RtoC t) with ((a + RtoC t) - (a + RtoC 0))%C at 1 by ring.
      generalize dependent (a + RtoC t)%C. generalize dependent (a + RtoC 0)%C. intros y Ny x Nx. field. split; assumption. }
  rewrite Cmod_div by (apply Cmult_neq_0; auto). rewrite Cmod_opp, !Cmod_mult, Cmod_R. rewrite (Rabs_pos_eq t) by lra.
  replace (Cmod Ci) with 1 by (unfold Cmod, Ci; cbn; replace (0 * (0 * 1) + 1 * (1 * 1)) with 1 by ring; now rewrite sqrt_1). rewrite Rmult_1_l.
  unfold Rdiv. rewrite Rmult_comm. apply Rmult_le_compat_r; [lra|]. apply Rinv_le_contravar; [nra|]. pose proof (M t). pose proof (M 0). nra.
Qed.
Lemma Cmod_cexp z : Cmod (cexp z) = exp (fst z).
Proof. unfold cexp. rewrite Cmod_mult, Cmod_expi, Cmod_R, Rmult_1_r. apply Rabs_pos_eq, Rlt_le, exp_pos. Qed.
Lemma RtoCm1 : RtoC (-1) = (- RtoC 1)%C.
Proof. apply injective_projections; cbn; lra. Qed.
Lemma lip_I (a : C) d : 0 <= d -> lip (fun dl => I_alpha dl a d).
Proof.
  intros Hd. exists (d * (exp (Rabs (snd a) * d) * d)). assert (E0 := exp_pos (Rabs (snd a) * d)). split; [repeat apply Rmult_le_pos; auto; lra|]. intros t Ht.
  pose proof (is_CInt_plus _ _ _ _ _ _ (I_alpha_all t a d) (is_CInt_scal _ _ _ _ (RtoC (-1)) (I_alpha_all 0 a d))) as X.
  replace (I_alpha t a d - I_alpha 0 a d)%C with (I_alpha t a d + RtoC (-1) * I_alpha 0 a d)%C by (rewrite RtoCm1; ring).
  eapply Rle_trans; [eapply (CInt_norm _ (- d / 2) (d / 2) _ (fun _ => exp (Rabs (snd a) * d) * (d * t))); [lra|exact X|apply is_RInt_constR|]|].
  - intros z Hz. cbn beta. rewrite (split1 a t z), (split1 a 0 z).
    replace (cexp (Ci * a * RtoC z) * expi (t * z) + RtoC (-1) * (cexp (Ci * a * RtoC z) * expi (0 * z)))%C with (cexp (Ci * a * RtoC z) * (expi (t * z) - expi (0 * z)))%C by (rewrite RtoCm1; ring).
    rewrite Rmult_0_l. replace (expi 0) with (RtoC 1) by (unfold expi; rewrite cos_0, sin_0; reflexivity). rewrite Cmod_mult, Cmod_cexp.
    apply Rmult_le_compat; [apply Rlt_le, exp_pos|apply Cmod_ge_0| |].
    + cbn [fst snd Ci Cmult RtoC]. assert (- (snd a * z) <= Rabs (snd a) * d).
      { apply Rle_trans with (Rabs (snd a) * Rabs z); [rewrite <- Rabs_mult, <- Rabs_Ropp; apply Rle_abs|]. apply Rmult_le_compat_l; [apply Rabs_pos|]. unfold Rabs. destruct (Rcase_abs z); lra. }
      match goal with |- exp ?x <= exp ?y => assert (L : x <= y) by (cbn; lra); destruct L as [L|L]; [left; apply exp_increasing; exact L|right; now rewrite L] end.
    + eapply Rle_trans; [apply expi_minus1|]. rewrite Rabs_mult, (Rabs_pos_eq t) by lra. rewrite (Rmult_comm d). apply Rmult_le_compat_l; [lra|]. unfold Rabs. destruct (Rcase_abs z); lra.
  - right. field.
Qed.
Lemma lip_IJ q il Nl arg ds : q = RtoC 0 \/ (il <> 0%nat /\ il <> (Nl - 1)%nat) \/ snd arg <> 0 -> 0 <= nth (il - 1) ds 0 -> lip (fun dl => q * IJ_layer dl il Nl arg ds)%C.
Proof.
  intros [->|H] Hd; [apply (lip_ext (fun _ => RtoC 0)); [intros; ring|apply lip_const]|]. apply lip_scal. unfold IJ_layer.
  destruct (Nat.eqb_spec il 0) as [Z|Z]; [|destruct (Nat.eqb_spec il (Nl - 1)) as [L|L]].
  - apply lip_J. destruct H as [[H _]|H]; [contradiction|]. cbn. intros E. apply H. lra.
  - apply lip_J. destruct H as [[_ H]|H]; [contradiction|]. exact H.
  - apply lip_I. exact Hd.
Qed.

Section Block.
Variables (eps ds : list R) (einv : nat -> cmat) (d : gkdata).
Hypothesis Hds : forall i, 0 <= nth i ds 0.
Let Nl := List.length eps.
Lemma lip_block a b r s : decays Nl (snd a) -> decays Nl (snd b) -> (r < md_size (snd a))%nat -> (s < md_size (snd b))%nat ->
  lip (fun dl => ent (mat_block dl eps ds einv d a b) r s).
Proof.
  intros Da Db Hr Hs. destruct (Da r Hr) as (((Ra0 & Pa0) & Aa) & ((RaN & PaN) & Ba)). destruct (Db s Hs) as (((Rb0 & Pb0) & Ab) & ((RbN & PbN) & Bb)).
  assert (T : forall il q,
     lip (fun dl => q * (Cconj (md_A (snd a) il r) * md_A (snd b) il s) * IJ_layer dl il Nl (md_chi (snd b) il s - Cconj (md_chi (snd a) il r)) ds)%C /\
     lip (fun dl => q * (Cconj (md_B (snd a) il r) * md_B (snd b) il s) * IJ_layer dl il Nl (- md_chi (snd b) il s + Cconj (md_chi (snd a) il r)) ds)%C /\
     lip (fun dl => q * (Cconj (md_A (snd a) il r) * md_B (snd b) il s) * IJ_layer dl il Nl (- md_chi (snd b) il s - Cconj (md_chi (snd a) il r)) ds)%C /\
     lip (fun dl => q * (Cconj (md_B (snd a) il r) * md_A (snd b) il s) * IJ_layer dl il Nl (md_chi (snd b) il s + Cconj (md_chi (snd a) il r)) ds)%C).
  { assert (C0 : Cconj (RtoC 0) = RtoC 0) by (apply injective_projections; cbn; ring).
    intros il q. destruct (Nat.eq_dec il 0) as [->|N0].
    - rewrite Aa, Ab, C0. repeat split; apply lip_IJ; auto; try (left; ring). right. right. cbn. lra.
    - destruct (Nat.eq_dec il (Nl - 1)) as [->|N1].
      + rewrite Ba, Bb, C0. repeat split; apply lip_IJ; auto; try (left; ring). right. right. cbn. lra.
      + repeat split; apply lip_IJ; auto. }
  assert (T1 := fun il q => proj1 (T il q)). assert (T2 := fun il q => proj1 (proj2 (T il q))). assert (T3 := fun il q => proj1 (proj2 (proj2 (T il q)))). assert (T4 := fun il q => proj2 (proj2 (proj2 (T il q)))). clear T.
  unfold mat_block. destruct (Nat.even (fst a)), (Nat.even (fst b)); cbn [ent mat_te_te mat_tm_tm mat_te_tm mat_tm_te];
    try (apply (lip_scal_r _ _)); try (apply (lip_scal_r _ _)); apply lip_csum; intros il _; fold Nl; apply lip_scal.
  - repeat apply lip_plus.
    + eapply lip_ext; [|exact (T1 il (RtoC 1))]; intros t; cbn beta; rewrite ?RtoCm1; ring.
    + eapply lip_ext; [|exact (T2 il (RtoC 1))]; intros t; cbn beta; rewrite ?RtoCm1; ring.
    + eapply lip_ext; [|exact (T3 il (RtoC 1))]; intros t; cbn beta; rewrite ?RtoCm1; ring.
    + eapply lip_ext; [|exact (T4 il (RtoC 1))]; intros t; cbn beta; rewrite ?RtoCm1; ring.
  - repeat apply lip_plus.
    + eapply lip_ext; [|exact (T1 il (RtoC (-1)))]; intros t; cbn beta; rewrite ?RtoCm1; ring.
    + eapply lip_ext; [|exact (T2 il (RtoC 1))]; intros t; cbn beta; rewrite ?RtoCm1; ring.
    + eapply lip_ext; [|exact (T3 il (RtoC 1))]; intros t; cbn beta; rewrite ?RtoCm1; ring.
    + eapply lip_ext; [|exact (T4 il (RtoC (-1)))]; intros t; cbn beta; rewrite ?RtoCm1; ring.
  - repeat apply lip_plus.
    + eapply lip_ext; [|exact (T1 il (RtoC 1))]; intros t; cbn beta; rewrite ?RtoCm1; ring.
    + eapply lip_ext; [|exact (T2 il (RtoC (-1)))]; intros t; cbn beta; rewrite ?RtoCm1; ring.
    + eapply lip_ext; [|exact (T3 il (RtoC 1))]; intros t; cbn beta; rewrite ?RtoCm1; ring.
    + eapply lip_ext; [|exact (T4 il (RtoC (-1)))]; intros t; cbn beta; rewrite ?RtoCm1; ring.
  - apply lip_minus; apply lip_scal; apply lip_plus.
    + eapply lip_ext; [|exact (T1 il (RtoC 1))]; intros t; cbn beta; rewrite ?RtoCm1; ring.
    + eapply lip_ext; [|exact (T2 il (RtoC 1))]; intros t; cbn beta; rewrite ?RtoCm1; ring.
    + eapply lip_ext; [|exact (T3 il (RtoC 1))]; intros t; cbn beta; rewrite ?RtoCm1; ring.
    + eapply lip_ext; [|exact (T4 il (RtoC 1))]; intros t; cbn beta; rewrite ?RtoCm1; ring.
Qed.
End Block.
