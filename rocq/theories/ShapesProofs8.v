(** The Bessel function J_1 as an integral, and the transform of the unit disc
    (used for C112). *)
From Verif Require Import Py CBase CInt ShapesSpec.
From Coquelicot Require Import Hierarchy RInt RInt_analysis Derive ElemFct AutoDerive Continuity Complex Rcomplements Rbar Series Lim_seq.
Open Scope R_scope.

Ltac req := match goal with |- @eq _ ?a ?b => change (@eq R a b) end.

(** ** Taylor polynomials of sin and cos *)
Fixpoint stay (n : nat) (u : R) : R :=
  match n with O => 0 | S k => stay k u + (-1) ^ k * u ^ (2 * k + 1) / INR (fact (2 * k + 1)) end.
Fixpoint ctay (n : nat) (u : R) : R :=
  match n with O => 0 | S k => ctay k u + (-1) ^ k * u ^ (2 * k) / INR (fact (2 * k)) end.

Lemma fact_pos n : 0 < INR (fact n).
Proof. apply lt_0_INR, lt_O_fact. Qed.
Lemma stay_0 n : stay n 0 = 0.
Proof. induction n as [|n IH]; [reflexivity|]. cbn [stay]. rewrite IH. rewrite pow_i by lia. unfold Rdiv. ring. Qed.
Lemma ctay_0 n : ctay (S n) 0 = 1.
Proof.
  induction n as [|n IH]; [cbn; field|]. change (ctay (S (S n)) 0) with (ctay (S n) 0 + (-1) ^ (S n) * 0 ^ (2 * S n) / INR (fact (2 * S n))).
  rewrite IH. rewrite pow_i by lia. unfold Rdiv. ring.
Qed.
Lemma fact_step n : INR (fact (S n)) = INR (S n) * INR (fact n).
Proof. change (fact (S n)) with (S n * fact n)%nat. apply mult_INR. Qed.
Lemma mono_derive k m u : is_derive (fun u => k * u ^ S m / INR (fact (S m))) u (k * u ^ m / INR (fact m)).
Proof.
  rewrite fact_step. pose proof (fact_pos m). assert (0 < INR (S m)) by (apply lt_0_INR; lia).
  apply is_derive_Reals.
  replace (k * u ^ m / INR (fact m)) with (k / (INR (S m) * INR (fact m)) * (INR (S m) * u ^ pred (S m))) by (cbn [pred]; field; split; lra).
  eapply derivable_pt_lim_ext; [|apply (derivable_pt_lim_scal (fun u => u ^ S m)), derivable_pt_lim_pow].
  intros x. unfold mult_real_fct. cbv beta. unfold Rdiv. ring.
Qed.
Lemma stay_derive n u : is_derive (stay n) u (ctay n u).
Proof.
  induction n as [|n IH]; [apply (is_derive_const 0)|].
  apply (is_derive_plus (stay n) (fun u => (-1) ^ n * u ^ (2 * n + 1) / INR (fact (2 * n + 1)))); [exact IH|].
  rewrite Nat.add_1_r. apply mono_derive.
Qed.
Lemma ctay_derive n u : is_derive (ctay (S n)) u (- stay n u).
Proof.
  induction n as [|n IH].
  - cbn [ctay stay]. apply (is_derive_ext (fun _ => 0 + (-1) ^ 0 * 1 / INR (fact 0))); [intros t; reflexivity|].
    rewrite Ropp_0. apply (is_derive_const (K := R_AbsRing) (V := R_NormedModule)).
  - change (stay (S n) u) with (stay n u + (-1) ^ n * u ^ (2 * n + 1) / INR (fact (2 * n + 1))). rewrite Ropp_plus_distr.
    apply (is_derive_plus (ctay (S n)) (fun u => (-1) ^ (S n) * u ^ (2 * S n) / INR (fact (2 * S n)))); [exact IH|].
    replace (2 * S n)%nat with (S (2 * n + 1)) by lia.
    replace (- ((-1) ^ n * u ^ (2 * n + 1) / INR (fact (2 * n + 1)))) with ((-1) ^ S n * u ^ (2 * n + 1) / INR (fact (2 * n + 1)))
      by (cbn [pow]; unfold Rdiv; ring).
    apply mono_derive.
Qed.
(** a function starting at 0 with derivative at most t^m/m! *)
Lemma grow (F f : R -> R) m u : F 0 = 0 -> (forall t, is_derive F t (f t)) ->
  (forall t, 0 <= t -> Rabs (f t) <= t ^ m / INR (fact m)) -> 0 <= u -> Rabs (F u) <= u ^ (S m) / INR (fact (S m)).
Proof.
  intros H0 Hd Hb Hu.
  assert (D : forall t, is_derive (fun t => t ^ S m / INR (fact (S m))) t (t ^ m / INR (fact m))).
  { intros t. pose proof (mono_derive 1 m t) as K. rewrite Rmult_1_l in K.
    eapply is_derive_ext; [|exact K]. intros x. cbv beta. rewrite Rmult_1_l. reflexivity. }
  assert (Z0 : 0 ^ S m / INR (fact (S m)) = 0) by (rewrite pow_i by lia; unfold Rdiv; ring).
  destruct (Rle_lt_or_eq_dec 0 u Hu) as [P|<-]; [|rewrite H0, Z0, Rabs_R0; lra].
  assert (M : forall G g, G 0 = 0 -> (forall t, is_derive G t (g t)) -> (forall t, 0 <= t -> 0 <= g t) -> 0 <= G u).
  { intros G g G0 GD GP.
    destruct (MVT_gen G 0 u g) as [c [Hc E]].
    - intros; apply GD.
    - intros x _. apply continuity_pt_filterlim. apply (ex_derive_continuous G). exists (g x). apply GD.
    - rewrite G0 in E. rewrite Rmin_left, Rmax_right in Hc by lra. pose proof (GP c ltac:(lra)). nra. }
  pose proof (M (fun t => t ^ S m / INR (fact (S m)) - F t) (fun t => t ^ m / INR (fact m) - f t)) as M1.
  pose proof (M (fun t => t ^ S m / INR (fact (S m)) + F t) (fun t => t ^ m / INR (fact m) + f t)) as M2.
  apply Rabs_le. split.
  - assert (0 <= u ^ S m / INR (fact (S m)) + F u); [|lra]. apply M2.
    + rewrite H0, Z0. ring.
    + intros t. apply (is_derive_plus (fun t => t ^ S m / INR (fact (S m))) F); [apply D|apply Hd].
    + intros t Ht. pose proof (Hb t Ht) as B. apply Rabs_le_between in B. lra.
  - assert (0 <= u ^ S m / INR (fact (S m)) - F u); [|lra]. apply M1.
    + rewrite H0, Z0. ring.
    + intros t. apply (is_derive_minus (fun t => t ^ S m / INR (fact (S m))) F); [apply D|apply Hd].
    + intros t Ht. pose proof (Hb t Ht) as B. apply Rabs_le_between in B. lra.
Qed.
Lemma tay_bounds n : (forall u, 0 <= u -> Rabs (sin u - stay n u) <= u ^ (2 * n) / INR (fact (2 * n))) /\
  (forall u, 0 <= u -> Rabs (cos u - ctay (S n) u) <= u ^ (2 * n + 1) / INR (fact (2 * n + 1))).
Proof.
  induction n as [|n [IS IC]].
  - assert (A : forall u, 0 <= u -> Rabs (sin u - stay 0 u) <= u ^ (2 * 0) / INR (fact (2 * 0))).
    { intros u _. cbn. rewrite Rminus_0_r. pose proof (SIN_bound u). apply Rabs_le. lra. }
    split; [exact A|]. intros u Hu. change (2 * 0 + 1)%nat with (S (2 * 0)).
    apply (grow (fun t => cos t - ctay 1 t) (fun t => - sin t - - stay 0 t)).
    + rewrite cos_0, ctay_0. ring.
    + intros t. apply (is_derive_minus cos (ctay 1)); [apply is_derive_cos|apply ctay_derive].
    + intros t Ht. replace (- sin t - - stay 0 t) with (- (sin t - stay 0 t)) by ring. rewrite Rabs_Ropp. apply A, Ht.
    + exact Hu.
  - assert (A : forall u, 0 <= u -> Rabs (sin u - stay (S n) u) <= u ^ (2 * S n) / INR (fact (2 * S n))).
    { intros u Hu. replace (2 * S n)%nat with (S (2 * n + 1)) by lia.
      apply (grow (fun t => sin t - stay (S n) t) (fun t => cos t - ctay (S n) t)).
      - rewrite sin_0, stay_0. ring.
      - intros t. apply (is_derive_minus sin (stay (S n))); [apply is_derive_sin|apply stay_derive].
      - exact IC.
      - exact Hu. }
    split; [exact A|]. intros u Hu. replace (2 * S n + 1)%nat with (S (2 * S n)) by lia.
    apply (grow (fun t => cos t - ctay (S (S n)) t) (fun t => - sin t - - stay (S n) t)).
    + rewrite cos_0, ctay_0. ring.
    + intros t. apply (is_derive_minus cos (ctay (S (S n)))); [apply is_derive_cos|apply ctay_derive].
    + intros t Ht. replace (- sin t - - stay (S n) t) with (- (sin t - stay (S n) t)) by ring. rewrite Rabs_Ropp. apply A, Ht.
    + exact Hu.
Qed.
Lemma stay_odd n u : stay n (- u) = - stay n u.
Proof.
  induction n as [|n IH]; [cbn; ring|]. cbn [stay]. rewrite IH.
  replace ((- u) ^ (2 * n + 1)) with (- u ^ (2 * n + 1)); [unfold Rdiv; ring|].
  rewrite !pow_add, !pow_1. rewrite !pow_mult. replace ((- u) ^ 2) with (u ^ 2) by ring. ring.
Qed.
Lemma sin_tay n u : Rabs (sin u - stay n u) <= Rabs u ^ (2 * n) / INR (fact (2 * n)).
Proof.
  destruct (Rle_dec 0 u) as [P|P].
  - rewrite (Rabs_right u) by lra. apply tay_bounds, P.
  - rewrite (Rabs_left u) by lra. rewrite <- (Ropp_involutive u) at 1 2. rewrite sin_neg, stay_odd.
    replace (- sin (- u) - - stay n (- u)) with (- (sin (- u) - stay n (- u))) by ring. rewrite Rabs_Ropp. apply tay_bounds. lra.
Qed.

(** ** integrals of powers of the sine *)
Definition wal (n : nat) : R := PI * INR (fact (2 * n)) / (4 ^ n * (INR (fact n) * INR (fact n))).
Lemma cont_sin_pow n x : continuous (fun t => sin t ^ n) x.
Proof. apply (ex_derive_continuous (fun t => sin t ^ n)). auto_derive. auto. Qed.
Lemma wal_step n : wal (S n) = (2 * INR n + 1) / (2 * INR n + 2) * wal n.
Proof.
  unfold wal. replace (2 * S n)%nat with (S (S (2 * n))) by lia. rewrite !fact_step. rewrite !S_INR, mult_INR. cbn [INR pow].
  pose proof (fact_pos n). pose proof (pos_INR n). assert (0 < 4 ^ n) by (apply pow_lt; lra). field. repeat split; lra.
Qed.
Lemma cos_sin_derive m x : is_derive (fun t => - cos t * sin t ^ S m) x ((INR m + 2) * sin x ^ (2 + m) - (INR m + 1) * sin x ^ m).
Proof.
  auto_derive; [auto|]. change (match m with O => 1 | S _ => INR m + 1 end) with (INR (S m)). rewrite S_INR. cbn [Nat.add pow].
  generalize (sin x ^ m). intros q. pose proof (sin2_cos2 x) as E. unfold Rsqr in E.
  replace (- cos x * (1 * cos x * ((INR m + 1) * q))) with (- (1 - sin x * sin x) * ((INR m + 1) * q)); [ring|].
  replace (1 - sin x * sin x) with (cos x * cos x) by lra. ring.
Qed.
Lemma wallis n : is_RInt (fun t => sin t ^ (2 * n)) (- (PI / 2)) (PI / 2) (wal n).
Proof.
  induction n as [|n IH].
  - eapply is_RInt_eq; [|apply (is_RInt_ext (fun _ => 1)); [intros; reflexivity|apply is_RInt_constR]].
    unfold wal. cbn. field.
  - assert (D : is_RInt (fun t => (INR (2 * n) + 2) * sin t ^ (2 + 2 * n) - (INR (2 * n) + 1) * sin t ^ (2 * n)) (- (PI / 2)) (PI / 2) 0).
    { eapply is_RInt_eq; [|apply (is_RInt_anti (fun t => - cos t * sin t ^ S (2 * n)))].
      - cbv beta. rewrite cos_neg, cos_PI2. ring.
      - intros x. apply cos_sin_derive.
      - intros x. apply (ex_derive_continuous (fun t => (INR (2 * n) + 2) * sin t ^ (2 + 2 * n) - (INR (2 * n) + 1) * sin t ^ (2 * n))).
        auto_derive. auto. }
    pose proof (pos_INR n) as PN. pose proof (pos_INR (2 * n)) as PN2.
    pose proof (is_RInt_plus (V := R_NormedModule) _ _ _ _ _ _ D (is_RInt_scal (V := R_NormedModule) _ _ _ (INR (2 * n) + 1) _ IH)) as T.
    apply (is_RInt_scal (V := R_NormedModule) _ _ _ (/ (INR (2 * n) + 2))) in T.
    replace (2 * S n)%nat with (2 + 2 * n)%nat by lia.
    change (is_RInt (fun t => / (INR (2 * n) + 2) * (((INR (2 * n) + 2) * sin t ^ (2 + 2 * n) - (INR (2 * n) + 1) * sin t ^ (2 * n)) +
      (INR (2 * n) + 1) * sin t ^ (2 * n))) (- (PI / 2)) (PI / 2) (/ (INR (2 * n) + 2) * (0 + (INR (2 * n) + 1) * wal n))) in T.
    eapply is_RInt_eq; [|eapply is_RInt_ext; [|exact T]].
    + rewrite wal_step, mult_INR. replace (INR 2) with 2 by (cbn; ring). field. lra.
    + intros x _. cbv beta. match goal with |- @eq _ ?a ?b => change (@eq R a b) end. field. lra.
Qed.

(** ** J_1 *)
Definition j1t (z : R) (k : nat) : R := (-1) ^ k / (INR (fact k) * INR (fact (S k))) * (z / 2) ^ (2 * k + 1).
Fixpoint j1p (n : nat) (z : R) : R := match n with O => 0 | S k => j1p k z + j1t z k end.
Lemma j1_step z n : (-1) ^ n * z ^ (2 * n + 1) / INR (fact (2 * n + 1)) * wal (S n) = PI * j1t z n.
Proof.
  unfold wal, j1t. replace (2 * S n)%nat with (S (2 * n + 1)) by lia. rewrite (fact_step (2 * n + 1)). rewrite !(fact_step n).
  replace ((z / 2) ^ (2 * n + 1)) with (z ^ (2 * n + 1) / 2 ^ (2 * n + 1)) by (unfold Rdiv; rewrite (Rpow_mult_distr z (/ 2)), pow_inv; reflexivity).
  rewrite (pow_add 2 (2 * n) 1), pow_mult. replace (2 ^ 2) with 4 by ring. rewrite pow_1.
  rewrite !S_INR, plus_INR, mult_INR. cbn [INR pow].
  pose proof (fact_pos (2 * n + 1)). pose proof (fact_pos n). pose proof (pos_INR n). assert (0 < 4 ^ n) by (apply pow_lt; lra).
  field. repeat split; lra.
Qed.
Lemma j1_partial n z : is_RInt (fun t => sin t * stay n (z * sin t)) (- (PI / 2)) (PI / 2) (PI * j1p n z).
Proof.
  induction n as [|n IH].
  - eapply is_RInt_eq; [|apply (is_RInt_ext (fun _ => 0)); [intros x _; cbn [stay]; req; ring|apply is_RInt_constR]]. cbn [j1p]. ring.
  - pose proof (is_RInt_scal (V := R_NormedModule) _ _ _ ((-1) ^ n * z ^ (2 * n + 1) / INR (fact (2 * n + 1))) _ (wallis (S n))) as T.
    pose proof (is_RInt_plus (V := R_NormedModule) _ _ _ _ _ _ IH T) as T2.
    eapply is_RInt_eq; [|eapply is_RInt_ext; [|exact T2]].
    + match goal with |- plus ?a (scal ?c ?d) = _ => change (a + c * d = PI * (j1p n z + j1t z n)) end. rewrite j1_step. ring.
    + intros x _. cbv beta. match goal with |- plus ?a (scal ?c ?d) = _ => change (a + c * d = sin x * (stay n (z * sin x) + (-1) ^ n * (z * sin x) ^ (2 * n + 1) / INR (fact (2 * n + 1)))) end.
      rewrite (Rpow_mult_distr z). replace (2 * S n)%nat with (S (2 * n + 1)) by lia. cbn [pow]. unfold Rdiv. ring.
Qed.
Lemma pow_fact_lim z : is_lim_seq (fun n => Rabs z ^ (2 * n) / INR (fact (2 * n))) 0.
Proof.
  assert (H : is_lim_seq (fun n => Rabs z ^ n / INR (fact n)) 0).
  { apply is_lim_seq_Reals. intros e He. destruct (cv_speed_pow_fact (Rabs z) e He) as [N HN]. exists N. exact HN. }
  apply (is_lim_seq_subseq (fun n => Rabs z ^ n / INR (fact n)) 0 (fun n => (2 * n)%nat)); [|exact H].
  apply eventually_subseq. intros n. lia.
Qed.
(** pi J_1(z) = integral of sin t sin(z sin t) *)
Lemma j1_int z : is_RInt (fun t => sin t * sin (z * sin t)) (- (PI / 2)) (PI / 2) (PI * bessel_J1 z).
Proof.
  assert (PP := PI_RGT_0).
  assert (C : ex_RInt (fun t => sin t * sin (z * sin t)) (- (PI / 2)) (PI / 2)).
  { apply (ex_RInt_continuous (V := R_CompleteNormedModule)). intros x _.
    apply (ex_derive_continuous (fun t => sin t * sin (z * sin t))). auto_derive. auto. }
  destruct C as [v Hv]. eapply is_RInt_eq; [|exact Hv].
  assert (L : is_lim_seq (fun n => j1p n z) (v / PI)).
  { apply is_lim_seq_Reals. intros e He.
    pose proof (pow_fact_lim z) as PL. apply is_lim_seq_Reals in PL. destruct (PL e He) as [N HN].
    exists N. intros n Hn. unfold R_dist.
    pose proof (is_RInt_minus (V := R_NormedModule) _ _ _ _ _ _ Hv (j1_partial n z)) as D.
    assert (B : Rabs (v - PI * j1p n z) <= (PI / 2 - - (PI / 2)) * (Rabs z ^ (2 * n) / INR (fact (2 * n)))).
    { apply (norm_RInt_le_const (V := R_NormedModule) (fun t => minus (sin t * sin (z * sin t)) (sin t * stay n (z * sin t))) (- (PI / 2)) (PI / 2) _ _ ltac:(lra)) with (2 := D).
      intros x _. change (Rabs (sin x * sin (z * sin x) - sin x * stay n (z * sin x)) <= Rabs z ^ (2 * n) / INR (fact (2 * n))).
      rewrite <- Rmult_minus_distr_l, Rabs_mult. pose proof (sin_tay n (z * sin x)) as T.
      assert (S1 : Rabs (sin x) <= 1) by (apply Rabs_le; apply SIN_bound).
      assert (T2 : Rabs (z * sin x) ^ (2 * n) / INR (fact (2 * n)) <= Rabs z ^ (2 * n) / INR (fact (2 * n))).
      { apply Rmult_le_compat_r; [left; apply Rinv_0_lt_compat, fact_pos|]. apply pow_incr. split; [apply Rabs_pos|].
        rewrite Rabs_mult. pose proof (Rabs_pos z). pose proof (Rabs_pos (sin x)). nra. }
      pose proof (Rabs_pos (sin x)). pose proof (Rabs_pos (sin (z * sin x) - stay n (z * sin x))). nra. }
    specialize (HN n Hn). unfold R_dist in HN. rewrite Rminus_0_r in HN.
    assert (P : 0 <= Rabs z ^ (2 * n) / INR (fact (2 * n))).
    { apply Rmult_le_pos; [apply pow_le, Rabs_pos|left; apply Rinv_0_lt_compat, fact_pos]. }
    rewrite Rabs_right in HN by lra.
    replace (j1p n z - v / PI) with (- ((v - PI * j1p n z) * / PI)) by (field; lra).
    rewrite Rabs_Ropp, Rabs_mult, (Rabs_right (/ PI)) by (apply Rle_ge; left; apply Rinv_0_lt_compat; lra).
    apply Rle_lt_trans with (Rabs z ^ (2 * n) / INR (fact (2 * n))); [|exact HN].
    apply (Rmult_le_reg_r PI); [lra|]. rewrite Rmult_assoc, Rinv_l, Rmult_1_r by lra. lra. }
  assert (S1 : is_series (j1t z) (v / PI)).
  { apply is_lim_seq_incr_1 in L. change (is_lim_seq (sum_n (j1t z)) (Finite (v / PI))). eapply is_lim_seq_ext; [|exact L]. intros n. cbv beta.
    induction n as [|n IH]; [rewrite sum_O; cbn [j1p]; ring|]. rewrite sum_Sn, <- IH. reflexivity. }
  change (bessel_J1 z) with (Series (j1t z)). rewrite (is_series_unique _ _ S1).
  assert (FE : forall w : R, PI * (w / PI) = w) by (intros; field; lra). symmetry. apply FE.
Qed.

(** ** the transform of the unit disc *)
Lemma exRInt_C (f : R -> R) a b : (forall x, continuous f x) -> ex_RInt f a b.
Proof. intros H. apply (ex_RInt_continuous (V := R_CompleteNormedModule)). intros; apply H. Qed.
Lemma isRInt_C (f : R -> R) a b : (forall x, continuous f x) -> is_RInt f a b (RInt f a b).
Proof. intros H. apply (RInt_correct (V := R_CompleteNormedModule)), exRInt_C, H. Qed.
Lemma is_RInt_shift (f : R -> R) a b c v : is_RInt f (a + c) (b + c) v -> is_RInt (fun t => f (t + c)) a b v.
Proof.
  intros H. pose proof (is_RInt_comp_lin (V := R_NormedModule) f 1 c a b v) as K. rewrite !Rmult_1_l in K.
  apply K in H. eapply is_RInt_ext; [|exact H]. intros x _. change (1 * f (1 * x + c) = f (x + c)). rewrite !Rmult_1_l. reflexivity.
Qed.
Lemma is_RInt_refl (f : R -> R) a v : is_RInt f (- a) a v -> is_RInt (fun t => f (- t)) (- a) a v.
Proof.
  intros H. pose proof (is_RInt_comp_lin (V := R_NormedModule) f (-1) 0 (- a) a (- v)) as K.
  replace (-1 * - a + 0) with a in K by ring. replace (-1 * a + 0) with (- a) in K by ring.
  apply (is_RInt_swap (V := R_NormedModule)) in H. apply K in H.
  apply (is_RInt_opp (V := R_NormedModule)) in H. eapply is_RInt_eq; [|eapply is_RInt_ext; [|exact H]].
  - change (- - v = v). ring.
  - intros x _. cbv beta. change (- (-1 * f (-1 * x + 0)) = f (- x)). replace (-1 * x + 0) with (- x) by ring. ring.
Qed.
(** an odd function integrates to 0 *)
Lemma is_RInt_odd (f : R -> R) a : (forall x, continuous f x) -> (forall x, f (- x) = - f x) -> is_RInt f (- a) a 0.
Proof.
  intros HC HO. pose proof (isRInt_C f (- a) a HC) as H. pose proof (is_RInt_refl f a _ H) as H2.
  apply (is_RInt_ext _ (fun t => opp (f t))) in H2; [|intros x _; apply HO].
  pose proof (is_RInt_opp (V := R_NormedModule) _ _ _ _ H) as H3.
  assert (E : RInt f (- a) a = - RInt f (- a) a).
  { rewrite <- (is_RInt_unique (V := R_CompleteNormedModule) _ _ _ _ H2) at 1. apply (is_RInt_unique (V := R_CompleteNormedModule)). exact H3. }
  eapply is_RInt_eq; [|exact H]. lra.
Qed.
(** the integral of a pi-periodic function over one period *)
Lemma is_RInt_period (f : R -> R) a b v : (forall x, continuous f x) -> (forall x, f (x + PI) = f x) ->
  is_RInt f a (a + PI) v -> is_RInt f b (b + PI) v.
Proof.
  intros HC HP H. pose proof (isRInt_C f b a HC) as H1.
  assert (H2 : is_RInt f (b + PI) (a + PI) (RInt f b a)).
  { pose proof (isRInt_C f (b + PI) (a + PI) HC) as K. pose proof (is_RInt_shift f b a PI _ K) as K2.
    eapply is_RInt_ext in K2; [|intros x _; apply HP].
    rewrite <- (is_RInt_unique (V := R_CompleteNormedModule) _ _ _ _ K2) in K. exact K. }
  apply (is_RInt_swap (V := R_NormedModule)) in H2.
  pose proof (is_RInt_Chasles (V := R_NormedModule) _ _ _ _ _ _ (is_RInt_Chasles (V := R_NormedModule) _ _ _ _ _ _ H1 H) H2) as K.
  eapply is_RInt_eq; [|exact K]. change (RInt f b a + v + - RInt f b a = v). ring.
Qed.

(** the length of a chord weighted with e^{-i A x}: integral of cos(A t) over [-h, h] *)
Definition chord (A h : R) : R := if Req_EM_T A 0 then 2 * h else 2 * sin (A * h) / A.
(** 2 J_1(g)/g, continued to 0, times pi *)
Definition airy (g : R) : R := if Req_EM_T g 0 then PI else 2 * PI * bessel_J1 g / g.

Lemma chord_cont A h : continuous (chord A) h.
Proof.
  unfold chord. destruct (Req_EM_T A 0) as [E|E].
  - apply (ex_derive_continuous (fun h => 2 * h)). auto_derive. auto.
  - apply (ex_derive_continuous (fun h => 2 * sin (A * h) / A)). auto_derive. auto.
Qed.
Lemma chord_mult A h : A * chord A h = 2 * sin (A * h).
Proof. unfold chord. destruct (Req_EM_T A 0) as [->|E]; [rewrite !Rmult_0_l, sin_0; ring|field; exact E]. Qed.

Lemma angle_ex A B g : A * A + B * B = g * g -> 0 < g -> exists a, A = g * sin a /\ B = g * cos a.
Proof.
  intros E Hg. assert (SA : (A / g) * (A / g) + (B / g) * (B / g) = 1) by (field_simplify_eq; [nra|lra]).
  assert (RA : -1 <= A / g <= 1) by nra.
  destruct (Rle_dec 0 B) as [P|P].
  - exists (asin (A / g)). rewrite sin_asin, cos_asin by lra. split; [field; lra|].
    replace (1 - (A / g)²) with ((B / g) * (B / g)) by (unfold Rsqr; lra).
    rewrite sqrt_square; [field; lra|]. apply Rmult_le_pos; [lra|left; apply Rinv_0_lt_compat; lra].
  - exists (PI - asin (A / g)). rewrite sin_PI_x, Rtrigo_facts.cos_pi_minus, sin_asin, cos_asin by lra. split; [field; lra|].
    replace (1 - (A / g)²) with ((- B / g) * (- B / g)) by (unfold Rsqr; field_simplify_eq; [nra|lra]).
    rewrite sqrt_square; [field; lra|]. apply Rmult_le_pos; [lra|left; apply Rinv_0_lt_compat; lra].
Qed.

Lemma cont_ex (f : R -> R) x : ex_derive f x -> continuous f x.
Proof. apply (ex_derive_continuous f). Qed.

(** the rotated integral *)
Lemma rotated A B g : A * A + B * B = g * g -> 0 < g ->
  is_RInt (fun t => cos t * cos (B * sin t) * (2 * sin (A * cos t))) (- (PI / 2)) (PI / 2) (A / g * (2 * (PI * bessel_J1 g))).
Proof.
  intros E Hg. destruct (angle_ex A B g E Hg) as [a [-> ->]].
  set (f := fun t => cos t * sin (g * sin (t + a))).
  assert (CF : forall x, continuous f x) by (intros x; unfold f; apply (cont_ex (fun t => cos t * sin (g * sin (t + a)))); auto_derive; auto).
  assert (H1 : is_RInt f (- (PI / 2)) (PI / 2) (sin a * (PI * bessel_J1 g))).
  { replace (PI / 2) with (- (PI / 2) + PI) at 2 by lra.
    apply (is_RInt_period f (- (PI / 2) - a)); [exact CF| |].
    { intros x. unfold f. replace (x + PI + a) with (x + a + PI) by ring. rewrite !neg_cos, !neg_sin.
      replace (g * - sin (x + a)) with (- (g * sin (x + a))) by ring. rewrite sin_neg. ring. }
    replace (- (PI / 2) - a) with (- (PI / 2) + - a) by ring. replace (- (PI / 2) + - a + PI) with (PI / 2 + - a) by lra.
    assert (K : is_RInt (fun t => f (t + - a)) (- (PI / 2)) (PI / 2) (sin a * (PI * bessel_J1 g))).
    { pose proof (is_RInt_scal (V := R_NormedModule) _ _ _ (sin a) _ (j1_int g)) as T1.
      assert (T2 : is_RInt (fun t => cos a * (cos t * sin (g * sin t))) (- (PI / 2)) (PI / 2) 0).
      { apply is_RInt_odd.
        - intros x. apply (cont_ex (fun t => cos a * (cos t * sin (g * sin t)))). auto_derive. auto.
        - intros x. rewrite cos_neg, sin_neg. replace (g * - sin x) with (- (g * sin x)) by ring. rewrite sin_neg. ring. }
      pose proof (is_RInt_plus (V := R_NormedModule) _ _ _ _ _ _ T1 T2) as T3.
      eapply is_RInt_eq; [|eapply is_RInt_ext; [|exact T3]].
      - change (sin a * (PI * bessel_J1 g) + 0 = sin a * (PI * bessel_J1 g)). ring.
      - intros x _. cbv beta. change (sin a * (sin x * sin (g * sin x)) + cos a * (cos x * sin (g * sin x)) = f (x + - a)).
        unfold f. replace (x + - a + a) with x by ring. rewrite cos_plus, cos_neg, sin_neg. ring. }
    pose proof (isRInt_C f (- (PI / 2) + - a) (PI / 2 + - a) CF) as K2.
    pose proof (is_RInt_shift f _ _ (- a) _ K2) as K3.
    rewrite <- (is_RInt_unique (V := R_CompleteNormedModule) _ _ _ _ K3), (is_RInt_unique (V := R_CompleteNormedModule) _ _ _ _ K) in K2. exact K2. }
  pose proof (is_RInt_refl f (PI / 2) _ H1) as H2.
  pose proof (is_RInt_plus (V := R_NormedModule) _ _ _ _ _ _ H1 H2) as H3.
  eapply is_RInt_eq; [|eapply is_RInt_ext; [|exact H3]].
  - change (sin a * (PI * bessel_J1 g) + sin a * (PI * bessel_J1 g) = g * sin a / g * (2 * (PI * bessel_J1 g))). field. lra.
  - intros x _. cbv beta. change (f x + f (- x) = cos x * cos (g * cos a * sin x) * (2 * sin (g * sin a * cos x))).
    unfold f. rewrite cos_neg.
    replace (g * sin (x + a)) with (g * sin a * cos x + g * cos a * sin x) by (rewrite sin_plus; ring).
    replace (g * sin (- x + a)) with (g * sin a * cos x - g * cos a * sin x) by (rewrite sin_plus, sin_neg, cos_neg; ring).
    rewrite sin_plus, sin_minus. ring.
Qed.
(** the case A = 0 *)
Lemma straight B : is_RInt (fun t => cos t * cos (B * sin t) * (2 * cos t)) (- (PI / 2)) (PI / 2) (airy (Rabs B)).
Proof.
  assert (D : is_RInt (fun t => B * (cos t * cos t * cos (B * sin t)) - sin t * sin (B * sin t)) (- (PI / 2)) (PI / 2) 0).
  { eapply is_RInt_eq; [|apply (is_RInt_anti (fun t => cos t * sin (B * sin t)))].
    - cbv beta. rewrite cos_neg, cos_PI2. ring.
    - intros x. auto_derive; [auto|]. ring.
    - intros x. apply (cont_ex (fun t => B * (cos t * cos t * cos (B * sin t)) - sin t * sin (B * sin t))). auto_derive. auto. }
  unfold airy. destruct (Req_EM_T (Rabs B) 0) as [E|E].
  - assert (B = 0) as -> by (destruct (Req_dec B 0) as [?|N]; [assumption|apply Rabs_no_R0 in N; contradiction]).
    pose proof (is_RInt_plus (V := R_NormedModule) _ _ _ _ _ _ (wallis 0) (is_RInt_opp (V := R_NormedModule) _ _ _ _ (wallis 1))) as T.
    apply (is_RInt_scal (V := R_NormedModule) _ _ _ 2) in T.
    eapply is_RInt_eq; [|eapply is_RInt_ext; [|exact T]].
    + change (2 * (wal 0 + - wal 1) = PI). rewrite wal_step. unfold wal. cbn. field.
    + intros x _. cbv beta. change (2 * (sin x ^ (2 * 0) + - sin x ^ (2 * 1)) = cos x * cos (0 * sin x) * (2 * cos x)).
      rewrite Rmult_0_l, cos_0. pose proof (sin2_cos2 x) as Q. unfold Rsqr in Q. cbn [Nat.mul Nat.add pow]. nra.
  - assert (NB : B <> 0) by (intros ->; apply E, Rabs_R0).
    pose proof (is_RInt_plus (V := R_NormedModule) _ _ _ _ _ _ D (j1_int B)) as T.
    apply (is_RInt_scal (V := R_NormedModule) _ _ _ (2 / B)) in T.
    eapply is_RInt_eq; [|eapply is_RInt_ext; [|exact T]].
    + change (2 / B * (0 + PI * bessel_J1 B) = 2 * PI * bessel_J1 (Rabs B) / Rabs B).
      destruct (Rle_dec 0 B) as [P|P]; [rewrite Rabs_right by lra; field; exact NB|].
      rewrite Rabs_left by lra. replace (bessel_J1 B) with (- bessel_J1 (- B)); [field; exact NB|].
      assert (O : PI * bessel_J1 (- B) = - (PI * bessel_J1 B)).
      { pose proof (is_RInt_opp (V := R_NormedModule) _ _ _ _ (j1_int B)) as K.
        eapply is_RInt_ext in K; [|intros x _; instantiate (1 := fun x => sin x * sin (- B * sin x)); cbv beta;
          change (- (sin x * sin (B * sin x)) = sin x * sin (- B * sin x)); rewrite Ropp_mult_distr_l_reverse, sin_neg; ring].
        rewrite <- (is_RInt_unique (V := R_CompleteNormedModule) _ _ _ _ (j1_int (- B))).
        apply (is_RInt_unique (V := R_CompleteNormedModule)). exact K. }
      assert (PP := PI_RGT_0). nra.
    + intros x _. cbv beta. change (2 / B * (B * (cos x * cos x * cos (B * sin x)) - sin x * sin (B * sin x) + sin x * sin (B * sin x)) =
        cos x * cos (B * sin x) * (2 * cos x)). field. exact NB.
Qed.
Lemma disc_real A B : is_RInt (fun s => cos (B * s) * chord A (sqrt (1 - s * s))) (-1) 1 (airy (sqrt (A * A + B * B))).
Proof.
  assert (CS : forall s, continuous (fun s => cos (B * s) * chord A (sqrt (1 - s * s))) s).
  { intros s. apply (continuous_mult (fun s => cos (B * s)) (fun s => chord A (sqrt (1 - s * s)))).
    - apply (cont_ex (fun s => cos (B * s))). auto_derive. auto.
    - apply (continuous_comp (fun s => sqrt (1 - s * s)) (chord A)); [|apply chord_cont].
      apply (continuous_comp (fun s => 1 - s * s) sqrt); [|apply continuous_sqrt].
      apply (cont_ex (fun s => 1 - s * s)). auto_derive. auto. }
  pose proof (isRInt_C _ (-1) 1 CS) as H.
  assert (SUB : is_RInt (fun t => cos t * (cos (B * sin t) * chord A (sqrt (1 - sin t * sin t)))) (- (PI / 2)) (PI / 2)
     (RInt (fun s => cos (B * s) * chord A (sqrt (1 - s * s))) (sin (- (PI / 2))) (sin (PI / 2)))).
  { apply (is_RInt_comp (V := R_CompleteNormedModule) (fun s => cos (B * s) * chord A (sqrt (1 - s * s))) sin cos).
    - intros x _. apply CS.
    - intros x _. split; [apply is_derive_sin|]. apply (cont_ex cos). auto_derive. auto. }
  rewrite sin_neg, sin_PI2 in SUB. replace (- (1)) with (-1) in SUB by ring.
  assert (SUB2 : is_RInt (fun t => cos t * cos (B * sin t) * chord A (cos t)) (- (PI / 2)) (PI / 2)
     (RInt (fun s => cos (B * s) * chord A (sqrt (1 - s * s))) (-1) 1)).
  { eapply is_RInt_ext; [|exact SUB]. intros x Hx. cbv beta. rewrite Rmin_left, Rmax_right in Hx by (assert (PP := PI_RGT_0); lra).
    rewrite Rmult_assoc. f_equal. f_equal. f_equal.
    replace (1 - sin x * sin x) with (cos x * cos x) by (pose proof (sin2_cos2 x) as Q; unfold Rsqr in Q; lra).
    apply sqrt_square, cos_ge_0; lra. }
  eapply is_RInt_eq; [|exact H].
  destruct (Req_dec A 0) as [->|NA].
  - assert (K : is_RInt (fun t => cos t * cos (B * sin t) * chord 0 (cos t)) (- (PI / 2)) (PI / 2) (airy (Rabs B))).
    { eapply is_RInt_ext; [|apply straight]. intros x _. cbv beta. unfold chord. destruct (Req_EM_T 0 0); [reflexivity|congruence]. }
    etransitivity; [symmetry; exact (is_RInt_unique (V := R_CompleteNormedModule) _ _ _ _ SUB2)|].
    etransitivity; [exact (is_RInt_unique (V := R_CompleteNormedModule) _ _ _ _ K)|].
    f_equal. rewrite Rmult_0_l, Rplus_0_l, <- sqrt_Rsqr_abs. reflexivity.
  - set (g := sqrt (A * A + B * B)).
    assert (P2 : 0 < A * A + B * B) by nra.
    assert (GP : 0 < g) by (apply sqrt_lt_R0; exact P2).
    assert (GG : A * A + B * B = g * g) by (symmetry; apply sqrt_sqrt; lra).
    pose proof (is_RInt_scal (V := R_NormedModule) _ _ _ (/ A) _ (rotated A B g GG GP)) as K.
    eapply is_RInt_ext in K; [|intros x _; instantiate (1 := fun t => cos t * cos (B * sin t) * chord A (cos t)); cbv beta].
    2:{ change (/ A * (cos x * cos (B * sin x) * (2 * sin (A * cos x))) = cos x * cos (B * sin x) * chord A (cos x)).
        rewrite <- chord_mult. field. exact NA. }
    etransitivity; [symmetry; exact (is_RInt_unique (V := R_CompleteNormedModule) _ _ _ _ SUB2)|].
    etransitivity; [exact (is_RInt_unique (V := R_CompleteNormedModule) _ _ _ _ K)|].
    unfold airy. destruct (Req_EM_T g 0); [lra|]. change (/ A * (A / g * (2 * (PI * bessel_J1 g))) = 2 * PI * bessel_J1 g / g).
    field. split; lra.
Qed.
