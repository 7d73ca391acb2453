(** Matrix elements are overlap integrals of the curl fields (C77). *)
From Verif Require Import Py CBase ShapesSpec CInt SlabModel SlabSpec SlabProofs SlabProofs3 SlabProofs4 SlabProofs9 MatElModel MatElSpec MatElProofs.
From Coquelicot Require Import Hierarchy RInt RInt_analysis Derive Lim_seq Continuity Rbar.
Open Scope R_scope.
Open Scope C_scope.

Lemma ctail_ext f h v : (forall z, f z = h z) -> is_ctail f v -> is_ctail h v.
Proof.
  intros E [H1 H2]. split.
  - apply (tail_ext (fun z => fst (f z))); auto. intros; rewrite E; auto.
  - apply (tail_ext (fun z => snd (f z))); auto. intros; rewrite E; auto.
Qed.
Lemma tail_plus f h v w : is_tail_int f v -> is_tail_int h w -> is_tail_int (fun z => f z + h z)%R (v + w)%R.
Proof.
  intros [H1 H2] [H3 H4]. split.
  - intros L. apply (ex_RInt_plus (V := R_NormedModule) f h); auto.
  - apply (is_lim_ext (fun L => RInt f 0 L + RInt h 0 L)%R).
    + intros L. symmetry. apply (RInt_plus (V := R_CompleteNormedModule) f h); auto.
    + apply (is_lim_plus' (fun L => RInt f 0 L) (fun L => RInt h 0 L) p_infty v w); auto.
Qed.
Lemma tail_eq f v w : v = w -> is_tail_int f v -> is_tail_int f w.
Proof. intros ->; auto. Qed.
Lemma ctail_plus f h v w : is_ctail f v -> is_ctail h w -> is_ctail (fun z => f z + h z) (v + w).
Proof.
  intros [H1 H2] [H3 H4]. split.
  - exact (tail_plus _ _ _ _ H1 H3).
  - exact (tail_plus _ _ _ _ H2 H4).
Qed.
Lemma ctail_scal f v k : is_ctail f v -> is_ctail (fun z => k * f z) (k * v).
Proof.
  intros [H1 H2]. split.
  - apply (tail_eq _ (fst k * fst v + (- snd k) * snd v)%R); [simpl; ring|].
    apply (tail_ext (fun z => fst k * fst (f z) + (- snd k) * snd (f z))%R); [intros; simpl; ring|].
    apply tail_plus; apply tail_scal; auto.
  - apply (tail_eq _ (fst k * snd v + snd k * fst v)%R); [simpl; ring|].
    apply (tail_ext (fun z => fst k * snd (f z) + snd k * fst (f z))%R); [intros; simpl; ring|].
    apply tail_plus; apply tail_scal; auto.
Qed.

(** a decaying exponential *)
Lemma lim_bounded (f : R -> R) k : (0 < k)%R -> (forall L, Rabs (f L) <= exp (- k * L))%R -> is_lim f p_infty 0%R.
Proof.
  intros Hk Hb. apply (is_lim_le_le_loc (fun L => (- exp (- k * L))%R) (fun L => exp (- k * L)) f p_infty 0%R).
  - exists 0%R. intros L _. specialize (Hb L). apply Coquelicot.Rcomplements.Rabs_le_between in Hb. exact Hb.
  - replace (Finite 0) with (Rbar_opp (Finite 0)) by (simpl; f_equal; ring). apply is_lim_opp. apply exp_tail; auto.
  - apply exp_tail; auto.
Qed.
Lemma ctail_exp (a : C) : (0 < snd a)%R -> is_ctail (fun z => cexp (Ci * a * RtoC z)) (Ci / a).
Proof.
  intros Ha.
  assert (N : a <> RtoC 0) by (intros E; rewrite E in Ha; simpl in Ha; lra).
  set (w := fun L => (cexp (Ci * a * RtoC L) - cexp (Ci * a * RtoC 0)) / (Ci * a)).
  assert (I : forall L, is_CInt (fun z => cexp (Ci * a * RtoC z)) 0 L (w L)) by (intros; apply int_cexp; auto).
  assert (W : forall L, w L = Ci / a + (- (Ci / a)) * cexp (Ci * a * RtoC L)).
  { intros L. unfold w. replace (Ci * a * RtoC 0) with (RtoC 0) by ring. rewrite cexp_0.
    transitivity (- (Ci * Ci) * ((cexp (Ci * a * RtoC L) - 1) / (Ci * a))); [rewrite Ci_sq; ring|].
    field. split; auto using Ci_neq0. }
  assert (E1 : is_lim (fun L => fst (cexp (Ci * a * RtoC L))) p_infty 0%R).
  { apply (lim_bounded _ (snd a) Ha). intros L. rewrite cexp_iz. cbn [fst].
    rewrite Rabs_mult, (Rabs_pos_eq (exp _)) by (left; apply exp_pos).
    rewrite <- (Rmult_1_r (exp (- snd a * L))) at 2. apply Rmult_le_compat_l; [left; apply exp_pos|].
    apply Rabs_le. pose proof (COS_bound (fst a * L)). lra. }
  assert (E2 : is_lim (fun L => snd (cexp (Ci * a * RtoC L))) p_infty 0%R).
  { apply (lim_bounded _ (snd a) Ha). intros L. rewrite cexp_iz. cbn [snd].
    rewrite Rabs_mult, (Rabs_pos_eq (exp _)) by (left; apply exp_pos).
    rewrite <- (Rmult_1_r (exp (- snd a * L))) at 2. apply Rmult_le_compat_l; [left; apply exp_pos|].
    apply Rabs_le. pose proof (SIN_bound (fst a * L)). lra. }
  set (k := Ci / a) in *.
  split; split.
  - intros L. eexists. apply (proj1 (I L)).
  - apply (is_lim_ext (fun L => fst k + ((- fst k) * fst (cexp (Ci * a * RtoC L)%C) + snd k * snd (cexp (Ci * a * RtoC L)%C)))%R).
    { intros L. symmetry. etransitivity; [apply is_RInt_unique, (proj1 (I L))|]. rewrite W. simpl. ring. }
    replace (Finite (fst k)) with (Finite (fst k + (- fst k * 0 + snd k * 0)))%R by (f_equal; ring).
    apply is_lim_plus'; [apply is_lim_const|].
    apply is_lim_plus'.
    + apply (is_lim_scal_l (fun L => fst (cexp (Ci * a * RtoC L))) (- fst k)%R p_infty 0%R E1).
    + apply (is_lim_scal_l (fun L => snd (cexp (Ci * a * RtoC L))) (snd k)%R p_infty 0%R E2).
  - intros L. eexists. apply (proj2 (I L)).
  - apply (is_lim_ext (fun L => snd k + ((- fst k) * snd (cexp (Ci * a * RtoC L)%C) + (- snd k) * fst (cexp (Ci * a * RtoC L)%C)))%R).
    { intros L. symmetry. etransitivity; [apply is_RInt_unique, (proj2 (I L))|]. rewrite W. simpl. ring. }
    replace (Finite (snd k)) with (Finite (snd k + (- fst k * 0 + - snd k * 0)))%R by (f_equal; ring).
    apply is_lim_plus'; [apply is_lim_const|].
    apply is_lim_plus'.
    + apply (is_lim_scal_l (fun L => snd (cexp (Ci * a * RtoC L))) (- fst k)%R p_infty 0%R E2).
    + apply (is_lim_scal_l (fun L => fst (cexp (Ci * a * RtoC L))) (- snd k)%R p_infty 0%R E1).
Qed.

(** linearity of the layer integral *)
Lemma layer_ext dl il Nl ds h h' v : (forall z, h z = h' z) -> is_layer_int dl il Nl ds h v -> is_layer_int dl il Nl ds h' v.
Proof.
  intros E. unfold is_layer_int. destruct (Nat.eqb il 0); [|destruct (Nat.eqb il (Nl - 1))].
  - apply ctail_ext. intros; rewrite E; auto.
  - apply ctail_ext. intros; rewrite E; auto.
  - apply is_CInt_ext. intros; rewrite E; auto.
Qed.
Lemma layer_eq dl il Nl ds h v w : v = w -> is_layer_int dl il Nl ds h v -> is_layer_int dl il Nl ds h w.
Proof. intros ->; auto. Qed.
Lemma layer_plus dl il Nl ds f h v w : is_layer_int dl il Nl ds f v -> is_layer_int dl il Nl ds h w ->
  is_layer_int dl il Nl ds (fun z => f z + h z) (v + w).
Proof.
  unfold is_layer_int. destruct (Nat.eqb il 0); [|destruct (Nat.eqb il (Nl - 1))]; intros H1 H2.
  - eapply ctail_ext; [|exact (ctail_plus _ _ _ _ H1 H2)]. intros; simpl; ring.
  - eapply ctail_ext; [|exact (ctail_plus _ _ _ _ H1 H2)]. intros; simpl; ring.
  - eapply is_CInt_ext; [|exact (is_CInt_plus _ _ _ _ _ _ H1 H2)]. intros; simpl; ring.
Qed.
Lemma layer_scal dl il Nl ds f v k : is_layer_int dl il Nl ds f v -> is_layer_int dl il Nl ds (fun z => k * f z) (k * v).
Proof.
  unfold is_layer_int. destruct (Nat.eqb il 0); [|destruct (Nat.eqb il (Nl - 1))]; intros H1.
  - eapply ctail_ext; [|exact (ctail_scal _ _ k H1)]. intros; simpl; ring.
  - eapply ctail_ext; [|exact (ctail_scal _ _ k H1)]. intros; simpl; ring.
  - eapply is_CInt_ext; [|exact (is_CInt_scal _ _ _ _ k H1)]. intros; simpl; ring.
Qed.

(** what the modes must satisfy in layer il for the integrals to exist *)
Definition four (dl : R) (il Nl : nat) (ds : list R) (c1 A1 B1 c2 A2 B2 : C) : C :=
  let c1 := c1^* in let A1 := A1^* in let B1 := B1^* in
  A1 * A2 * IJ_layer dl il Nl (c2 - c1) ds + B1 * B2 * IJ_layer dl il Nl (- c2 + c1) ds
  + A1 * B2 * IJ_layer dl il Nl (- c2 - c1) ds + B1 * A2 * IJ_layer dl il Nl (c2 + c1) ds.

Lemma expi_cexp t z : expi (t * z) = cexp (Ci * RtoC t * RtoC z).
Proof. rewrite <- cexp_i. f_equal. rewrite RtoC_mult. ring. Qed.
Lemma exp3 a b e z : cexp (Ci * a * RtoC z) * cexp (Ci * b * RtoC z) * cexp (Ci * e * RtoC z) = cexp (Ci * (a + b + e) * RtoC z).
Proof. rewrite <- !cexp_plus. f_equal. ring. Qed.
Lemma prod_waves dl c1 A1 B1 c2 A2 B2 z :
  (wave c1 A1 B1 z)^* * wave c2 A2 B2 z * expi (dl * z) =
  A1^* * A2 * cexp (Ci * (c2 - c1^* + RtoC dl) * RtoC z) + B1^* * B2 * cexp (Ci * (- c2 + c1^* + RtoC dl) * RtoC z)
  + A1^* * B2 * cexp (Ci * (- c2 - c1^* + RtoC dl) * RtoC z) + B1^* * A2 * cexp (Ci * (c2 + c1^* + RtoC dl) * RtoC z).
Proof.
  unfold wave. rewrite expi_cexp. rewrite Cconj_plus, !Cconj_mult, !cexp_conj, !Cconj_opp, !Cconj_mult, Cconj_i, Cconj_R.
  replace (- Ci * c1^* * RtoC z) with (Ci * (- c1^*) * RtoC z) by ring.
  replace (- (Ci * - c1^* * RtoC z)) with (Ci * (c1^*) * RtoC z) by ring.
  replace (- (Ci * c2 * RtoC z)) with (Ci * (- c2) * RtoC z) by ring.
  replace (c2 - c1^* + RtoC dl) with (- c1^* + c2 + RtoC dl) by ring.
  replace (- c2 + c1^* + RtoC dl) with (c1^* + - c2 + RtoC dl) by ring.
  replace (- c2 - c1^* + RtoC dl) with (- c1^* + - c2 + RtoC dl) by ring.
  replace (c2 + c1^* + RtoC dl) with (c1^* + c2 + RtoC dl) by ring.
  rewrite <- !exp3. ring.
Qed.

Lemma ctail_term (k a : C) : k = RtoC 0 \/ (0 < snd a)%R -> is_ctail (fun z => k * cexp (Ci * a * RtoC z)) (k * (Ci / a)).
Proof.
  intros [->|H].
  - assert (P : (0 < snd Ci)%R) by (simpl; lra).
    pose proof (ctail_scal _ _ (RtoC 0) (ctail_exp _ P)) as T.
    replace (RtoC 0 * (Ci / a)) with (RtoC 0 * (Ci / Ci)) by (rewrite !Cmult_0_l; reflexivity).
    eapply ctail_ext; [|exact T]. intros z. cbv beta. rewrite !Cmult_0_l. reflexivity.
  - apply ctail_scal, ctail_exp, H.
Qed.

Lemma layer_four dl il Nl ds c1 A1 B1 c2 A2 B2 : layer_fit dl il Nl c1 A1 B1 c2 A2 B2 ->
  is_layer_int dl il Nl ds (fun z => (wave c1 A1 B1 z)^* * wave c2 A2 B2 z) (four dl il Nl ds c1 A1 B1 c2 A2 B2).
Proof.
  unfold layer_fit, is_layer_int, four, IJ_layer. destruct (Nat.eqb il 0) eqn:E0; [|destruct (Nat.eqb il (Nl - 1)) eqn:E1].
  - intros [-> [H1 [HA HB]]].
    assert (PB : B1^* * B2 = RtoC 0 \/ (0 < snd (c2 - c1^* + RtoC dl)%C)%R)
      by (destruct HB as [->|HB]; [left; ring|right; simpl; lra]).
    assert (PA : B1^* * A2 = RtoC 0 \/ (0 < snd (- c2 - c1^* + RtoC dl)%C)%R)
      by (destruct HA as [->|HA]; [left; ring|right; simpl; lra]).
    pose proof (ctail_plus _ _ _ _ (ctail_term _ _ PB) (ctail_term _ _ PA)) as T.
    match goal with |- is_ctail _ ?v => replace v with (B1^* * B2 * (Ci / (c2 - c1^* + RtoC dl)) + B1^* * A2 * (Ci / (- c2 - c1^* + RtoC dl))) end.
    + eapply ctail_ext; [|exact T]. intros z. cbv beta.
      rewrite expi_cexp. unfold wave. rewrite Cconj_plus, !Cconj_mult, !cexp_conj, !Cconj_opp, !Cconj_mult, Cconj_i, !Cconj_R, RtoC_opp.
      replace (- (- Ci * c1^* * - RtoC z)) with (Ci * (- c1^*) * RtoC z) by ring.
      replace (- (Ci * c2 * - RtoC z)) with (Ci * c2 * RtoC z) by ring.
      replace (Ci * c2 * - RtoC z) with (Ci * (- c2) * RtoC z) by ring.
      replace (c2 - c1^* + RtoC dl) with (- c1^* + c2 + RtoC dl) by ring.
      replace (- c2 - c1^* + RtoC dl) with (- c1^* + - c2 + RtoC dl) by ring. rewrite <- !exp3. ring.
    + rewrite Cconj_R. unfold J_alpha.
      replace (- (- c2 + c1^*) + RtoC dl) with (c2 - c1^* + RtoC dl) by ring.
      replace (- (c2 + c1^*) + RtoC dl) with (- c2 - c1^* + RtoC dl) by ring. ring.
  - intros [-> [H1 [HA HB]]].
    assert (PA : A1^* * A2 = RtoC 0 \/ (0 < snd (c2 - c1^* + RtoC dl)%C)%R)
      by (destruct HA as [->|HA]; [left; ring|right; simpl; lra]).
    assert (PB : A1^* * B2 = RtoC 0 \/ (0 < snd (- c2 - c1^* + RtoC dl)%C)%R)
      by (destruct HB as [->|HB]; [left; ring|right; simpl; lra]).
    pose proof (ctail_plus _ _ _ _ (ctail_term _ _ PA) (ctail_term _ _ PB)) as T.
    match goal with |- is_ctail _ ?v => replace v with (A1^* * A2 * (Ci / (c2 - c1^* + RtoC dl)) + A1^* * B2 * (Ci / (- c2 - c1^* + RtoC dl))) end.
    + eapply ctail_ext; [|exact T]. intros z. cbv beta. rewrite prod_waves, Cconj_R. ring.
    + rewrite Cconj_R. unfold J_alpha. ring.
  - intros HF.
    apply (is_CInt_ext (fun z => A1^* * A2 * cexp (Ci * (c2 - c1^* + RtoC dl) * RtoC z) + B1^* * B2 * cexp (Ci * (- c2 + c1^* + RtoC dl) * RtoC z)
  + A1^* * B2 * cexp (Ci * (- c2 - c1^* + RtoC dl) * RtoC z) + B1^* * A2 * cexp (Ci * (c2 + c1^* + RtoC dl) * RtoC z))).
    { intros z _. symmetry. apply prod_waves. }
    repeat apply is_CInt_plus; apply is_CInt_scal; apply I_alpha_all.
Qed.

Lemma dwave_wave c A B z : dwave c A B z = wave c (Ci * c * A) (- (Ci * c * B)) z.
Proof. unfold dwave, wave. ring. Qed.

(** ** the four blocks *)
Section Overlap.
Variables (dl : R) (eps ds : list R) (einv : nat -> cmat) (d : gkdata) (a b : nat * gmode) (i j : nat).
Let Nl := List.length eps.
Let gi := md_g (snd a) i.
Let gj := md_g (snd b) j.
Hypothesis Hlen1 : gk_len d gi = sqrt (gk_x d gi * gk_x d gi + gk_y d gi * gk_y d gi).
Hypothesis Hlen2 : gk_len d gj = sqrt (gk_x d gj * gk_x d gj + gk_y d gj * gk_y d gj).

(** the curl field of basis function number i of mode m in layer il *)
Definition bfield (m : nat * gmode) (i il : nat) (z : R) : C * C * C :=
  curl_field (Nat.even (fst m)) (gk_x d (md_g (snd m) i)) (gk_y d (md_g (snd m) i)) (md_om (snd m) i) (nth il eps 0%R)
    (md_chi (snd m) il i) (md_A (snd m) il i) (md_B (snd m) il i) z.

Hypothesis Hfit : forall il, (il < Nl)%nat ->
  layer_fit dl il Nl (md_chi (snd a) il i) (md_A (snd a) il i) (md_B (snd a) il i)
                     (md_chi (snd b) il j) (md_A (snd b) il j) (md_B (snd b) il j).

Lemma fit_scal il c1 A1 B1 c2 A2 B2 x y x' y' : layer_fit dl il Nl c1 A1 B1 c2 A2 B2 ->
  layer_fit dl il Nl c1 (x * A1) (x' * B1) c2 (y * A2) (y' * B2).
Proof.
  unfold layer_fit. destruct (Nat.eqb il 0); [|destruct (Nat.eqb il (Nl - 1))]; auto.
  - intros [-> [H1 [HA HB]]]. split; [ring|]. split; [exact H1|].
    split; [destruct HA as [->|HA]; [left; ring|right; exact HA]|destruct HB as [->|HB]; [left; ring|right; exact HB]].
  - intros [-> [H1 [HA HB]]]. split; [ring|]. split; [exact H1|].
    split; [destruct HA as [->|HA]; [left; ring|right; exact HA]|destruct HB as [->|HB]; [left; ring|right; exact HB]].
Qed.

Lemma sum_fact n (eta V W : nat -> C) k : (forall il, (il < n)%nat -> eta il * V il = W il * k) ->
  csum n (fun il => W il) * k = csum n (fun il => eta il * V il).
Proof. intros H. rewrite <- csum_scal_r. apply csum_ext. intros; symmetry; auto. Qed.

Lemma overlap : exists V : nat -> C,
  (forall il, (il < Nl)%nat -> is_layer_int dl il Nl ds (fun z => hdot (bfield a i il z) (bfield b j il z)) (V il)) /\
  ent (mat_block dl eps ds einv d a b) i j = csum Nl (fun il => einv il gi gj * V il).
Proof.
  unfold mat_block.
  set (F := fun il A1 B1 A2 B2 => four dl il Nl ds (md_chi (snd a) il i) A1 B1 (md_chi (snd b) il j) A2 B2).
  set (A1 := fun il => md_A (snd a) il i). set (B1 := fun il => md_B (snd a) il i).
  set (A2 := fun il => md_A (snd b) il j). set (B2 := fun il => md_B (snd b) il j).
  set (c1 := fun il => md_chi (snd a) il i). set (c2 := fun il => md_chi (snd b) il j).
  set (o1 := md_om (snd a) i). set (o2 := md_om (snd b) j).
  assert (I11 : forall il, (il < Nl)%nat -> is_layer_int dl il Nl ds (fun z => (wave (c1 il) (A1 il) (B1 il) z)^* * wave (c2 il) (A2 il) (B2 il) z)
     (F il (A1 il) (B1 il) (A2 il) (B2 il))) by (intros; apply layer_four, Hfit; auto).
  assert (I1d : forall il, (il < Nl)%nat -> is_layer_int dl il Nl ds (fun z => (wave (c1 il) (A1 il) (B1 il) z)^* * dwave (c2 il) (A2 il) (B2 il) z)
     (F il (A1 il) (B1 il) (Ci * c2 il * A2 il) (- (Ci * c2 il * B2 il)))).
  { intros il H. eapply layer_ext; [intros z; symmetry; rewrite (dwave_wave (c2 il) (A2 il)); reflexivity|]. apply layer_four.
    replace (A1 il) with (RtoC 1 * A1 il) by ring. replace (B1 il) with (RtoC 1 * B1 il) by ring.
    replace (- (Ci * c2 il * B2 il)) with (- (Ci * c2 il) * B2 il) by ring. apply fit_scal, Hfit; auto. }
  assert (Id1 : forall il, (il < Nl)%nat -> is_layer_int dl il Nl ds (fun z => (dwave (c1 il) (A1 il) (B1 il) z)^* * wave (c2 il) (A2 il) (B2 il) z)
     (F il (Ci * c1 il * A1 il) (- (Ci * c1 il * B1 il)) (A2 il) (B2 il))).
  { intros il H. eapply layer_ext; [intros z; symmetry; rewrite (dwave_wave (c1 il) (A1 il)); reflexivity|]. apply layer_four.
    replace (A2 il) with (RtoC 1 * A2 il) by ring. replace (B2 il) with (RtoC 1 * B2 il) by ring.
    replace (- (Ci * c1 il * B1 il)) with (- (Ci * c1 il) * B1 il) by ring. apply fit_scal, Hfit; auto. }
  assert (Idd : forall il, (il < Nl)%nat -> is_layer_int dl il Nl ds (fun z => (dwave (c1 il) (A1 il) (B1 il) z)^* * dwave (c2 il) (A2 il) (B2 il) z)
     (F il (Ci * c1 il * A1 il) (- (Ci * c1 il * B1 il)) (Ci * c2 il * A2 il) (- (Ci * c2 il * B2 il)))).
  { intros il H. eapply layer_ext; [intros z; symmetry; rewrite (dwave_wave (c1 il) (A1 il)), (dwave_wave (c2 il) (A2 il)); reflexivity|]. apply layer_four.
    replace (- (Ci * c1 il * B1 il)) with (- (Ci * c1 il) * B1 il) by ring.
    replace (- (Ci * c2 il * B2 il)) with (- (Ci * c2 il) * B2 il) by ring. apply fit_scal, Hfit; auto. }
  destruct (Nat.even (fst a)) eqn:Ea, (Nat.even (fst b)) eqn:Eb.
  - (* TE TE *)
    exists (fun il => RtoC (rsq (nth il eps 0) * (rsq o1 * rsq o2) * qq_mat d gi gj)%R * F il (A1 il) (B1 il) (A2 il) (B2 il)). split.
    + intros il H. eapply layer_ext; [|apply layer_scal, I11; auto]. intros z. cbv beta.
      unfold bfield. rewrite Ea, Eb. unfold curl_field, hdot. fold gi gj. rewrite <- Hlen1, <- Hlen2.
      fold (A1 il) (B1 il) (A2 il) (B2 il) (c1 il) (c2 il) o1 o2.
      rewrite !Cconj_mult, !Cconj_R. unfold qq_mat, qkx, qky, rsq.
      set (u1 := (wave (c1 il) (A1 il) (B1 il) z)^*). set (u2 := wave (c2 il) (A2 il) (B2 il) z).
      rewrite !RtoC_opp, !RtoC_mult, !RtoC_plus, !RtoC_mult. ring.
    + unfold mat_te_te. cbn [ent]. cbv zeta. fold Nl gi gj o1 o2.
      rewrite <- Cmult_assoc, <- RtoC_mult. apply (sum_fact Nl (fun il => einv il gi gj) (fun il => RtoC _ * F il _ _ _ _)).
      intros il _. cbv beta. unfold F, four. unfold A1, B1, A2, B2. rewrite !RtoC_mult. ring.
  - (* TE TM *)
    exists (fun il => RtoC (- (nth il eps 0 * rsq o1 * pq_mat d gj gi))%R * F il (A1 il) (B1 il) (Ci * c2 il * A2 il) (- (Ci * c2 il * B2 il))). split.
    + intros il H. eapply layer_ext; [|apply layer_scal, I1d; auto]. intros z. cbv beta.
      unfold bfield. rewrite Ea, Eb. unfold curl_field, hdot. fold gi gj. rewrite <- Hlen1, <- Hlen2.
      fold (A1 il) (B1 il) (A2 il) (B2 il) (c1 il) (c2 il) o1 o2.
      rewrite !Cconj_mult, !Cconj_R. unfold pq_mat, pkx, pky, qkx, qky, rsq.
      set (u1 := (wave (c1 il) (A1 il) (B1 il) z)^*). set (u2 := dwave (c2 il) (A2 il) (B2 il) z).
      rewrite !RtoC_opp, !RtoC_mult, !RtoC_plus, !RtoC_mult. ring.
    + unfold mat_te_tm. cbn [ent]. cbv zeta. fold Nl gi gj o1 o2.
      rewrite <- Cmult_assoc, <- RtoC_mult. apply (sum_fact Nl (fun il => einv il gi gj) (fun il => RtoC _ * F il _ _ _ _)).
      intros il _. cbv beta. unfold F, four. unfold A1, B1, A2, B2, c2. rewrite RtoC_opp, !RtoC_mult. ring.
  - (* TM TE *)
    exists (fun il => RtoC (- (nth il eps 0 * rsq o2 * pq_mat d gi gj))%R * F il (Ci * c1 il * A1 il) (- (Ci * c1 il * B1 il)) (A2 il) (B2 il)). split.
    + intros il H. eapply layer_ext; [|apply layer_scal, Id1; auto]. intros z. cbv beta.
      unfold bfield. rewrite Ea, Eb. unfold curl_field, hdot. fold gi gj. rewrite <- Hlen1, <- Hlen2.
      fold (A1 il) (B1 il) (A2 il) (B2 il) (c1 il) (c2 il) o1 o2.
      rewrite !Cconj_mult, !Cconj_R. unfold pq_mat, pkx, pky, qkx, qky, rsq.
      set (u1 := (dwave (c1 il) (A1 il) (B1 il) z)^*). set (u2 := wave (c2 il) (A2 il) (B2 il) z).
      rewrite !RtoC_opp, !RtoC_mult, !RtoC_plus, !RtoC_mult. ring.
    + unfold mat_tm_te. cbn [ent]. cbv zeta. fold Nl gi gj o1 o2.
      rewrite <- Cmult_assoc, <- RtoC_mult. apply (sum_fact Nl (fun il => einv il gi gj) (fun il => RtoC _ * F il _ _ _ _)).
      intros il _. cbv beta. unfold F, four. unfold A1, B1, A2, B2, c1. rewrite RtoC_opp, !RtoC_mult.
      rewrite !Cconj_opp, !Cconj_mult, Cconj_i. ring.
  - (* TM TM *)
    exists (fun il => RtoC (pp_mat d gi gj) * F il (Ci * c1 il * A1 il) (- (Ci * c1 il * B1 il)) (Ci * c2 il * A2 il) (- (Ci * c2 il * B2 il))
                   + RtoC (gk_len d gi * gk_len d gj)%R * F il (A1 il) (B1 il) (A2 il) (B2 il)). split.
    + intros il H. eapply layer_ext; [|apply layer_plus; [apply layer_scal, Idd; auto|apply layer_scal, I11; auto]]. intros z. cbv beta.
      unfold bfield. rewrite Ea, Eb. unfold curl_field, hdot. fold gi gj. rewrite <- Hlen1, <- Hlen2.
      fold (A1 il) (B1 il) (A2 il) (B2 il) (c1 il) (c2 il) o1 o2.
      rewrite !Cconj_mult, !Cconj_R, Cconj_opp, Cconj_i. unfold pp_mat, pkx, pky, rsq.
      set (u1 := (dwave (c1 il) (A1 il) (B1 il) z)^*). set (u2 := dwave (c2 il) (A2 il) (B2 il) z).
      set (v1 := (wave (c1 il) (A1 il) (B1 il) z)^*). set (v2 := wave (c2 il) (A2 il) (B2 il) z).
      rewrite !RtoC_plus, !RtoC_mult.
      match goal with |- ?L = _ => transitivity (L + (- (Ci * Ci) - RtoC 1) * (RtoC (gk_len d gi) * v1 * RtoC (gk_len d gj) * v2)) end.
      * rewrite Ci_sq. ring.
      * ring.
    + unfold mat_tm_tm. cbn [ent]. cbv zeta. fold Nl gi gj o1 o2.
      apply csum_ext. intros il _. cbv beta. unfold F, four. unfold A1, B1, A2, B2, c1, c2. rewrite !RtoC_mult.
      rewrite !Cconj_opp, !Cconj_mult, Cconj_i.
      set (P := RtoC (pp_mat d gi gj)).
      match goal with |- ?L = _ =>
        transitivity (L + (- (Ci * Ci) - RtoC 1) * (einv il gi gj * (P * ((md_chi (snd a) il i)^* * md_chi (snd b) il j) *
          ((md_A (snd a) il i)^* * md_A (snd b) il j * IJ_layer dl il Nl (md_chi (snd b) il j - (md_chi (snd a) il i)^*) ds
           + (md_B (snd a) il i)^* * md_B (snd b) il j * IJ_layer dl il Nl (- md_chi (snd b) il j + (md_chi (snd a) il i)^*) ds
           - (md_A (snd a) il i)^* * md_B (snd b) il j * IJ_layer dl il Nl (- md_chi (snd b) il j - (md_chi (snd a) il i)^*) ds
           - (md_B (snd a) il i)^* * md_A (snd b) il j * IJ_layer dl il Nl (md_chi (snd b) il j + (md_chi (snd a) il i)^*) ds)))) end.
      * rewrite Ci_sq. ring.
      * ring.
Qed.
End Overlap.
