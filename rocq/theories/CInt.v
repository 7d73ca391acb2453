(** Integrals of complex functions of one real variable: linearity, splitting,
    and the integral of an exponential.  Generic mathematics. *)
From Verif Require Import Py CBase ShapesSpec.
From Coquelicot Require Import Hierarchy RInt RInt_analysis Derive AutoDerive Continuity Complex Rcomplements.
Open Scope R_scope.

Lemma is_CInt_ext f g a b v : (forall x, Rmin a b < x < Rmax a b -> f x = g x) ->
  is_CInt f a b v -> is_CInt g a b v.
Proof.
  intros H [H1 H2]. split.
  - eapply is_RInt_ext; [|exact H1]. intros x Hx. simpl. rewrite H; auto.
  - eapply is_RInt_ext; [|exact H2]. intros x Hx. simpl. rewrite H; auto.
Qed.
Lemma is_CInt_eq f a b v w : v = w -> is_CInt f a b v -> is_CInt f a b w.
Proof. intros ->; auto. Qed.
Lemma is_CInt_plus f g a b v w : is_CInt f a b v -> is_CInt g a b w ->
  is_CInt (fun x => Cplus (f x) (g x)) a b (Cplus v w).
Proof.
  intros [H1 H2] [H3 H4]. split; simpl.
  - exact (is_RInt_plus (V := R_NormedModule) _ _ _ _ _ _ H1 H3).
  - exact (is_RInt_plus (V := R_NormedModule) _ _ _ _ _ _ H2 H4).
Qed.
Lemma is_CInt_scal f a b v c : is_CInt f a b v -> is_CInt (fun x => Cmult c (f x)) a b (Cmult c v).
Proof.
  intros [H1 H2]. split; simpl.
  - apply (is_RInt_minus (V := R_NormedModule) (fun x => fst c * fst (f x)) (fun x => snd c * snd (f x)));
    [exact (is_RInt_scal (V := R_NormedModule) _ _ _ (fst c) _ H1)|exact (is_RInt_scal (V := R_NormedModule) _ _ _ (snd c) _ H2)].
  - apply (is_RInt_plus (V := R_NormedModule) (fun x => fst c * snd (f x)) (fun x => snd c * fst (f x)));
    [exact (is_RInt_scal (V := R_NormedModule) _ _ _ (fst c) _ H2)|exact (is_RInt_scal (V := R_NormedModule) _ _ _ (snd c) _ H1)].
Qed.
Lemma is_RInt_eq (f : R -> R) a b (v w : R) : v = w -> is_RInt f a b v -> is_RInt f a b w.
Proof. intros ->; auto. Qed.
Lemma is_RInt_constR a b (c : R) : is_RInt (fun _ => c) a b ((b - a) * c).
Proof. exact (is_RInt_const (V := R_NormedModule) a b c). Qed.
Lemma is_CInt_zero a b : is_CInt (fun _ => RtoC 0) a b (RtoC 0).
Proof. split; simpl; (eapply is_RInt_eq; [|apply is_RInt_constR]); ring. Qed.
Lemma is_CInt_const a b c : is_CInt (fun _ => c) a b (Cmult (RtoC (b - a)) c).
Proof. split; simpl; (eapply is_RInt_eq; [|apply is_RInt_constR]); ring. Qed.
Lemma is_CInt_Chasles f a b c v w : is_CInt f a b v -> is_CInt f b c w -> is_CInt f a c (Cplus v w).
Proof.
  intros [H1 H2] [H3 H4]. split; simpl.
  - exact (is_RInt_Chasles (V := R_NormedModule) _ _ _ _ _ _ H1 H3).
  - exact (is_RInt_Chasles (V := R_NormedModule) _ _ _ _ _ _ H2 H4).
Qed.
Lemma is_CInt_swap f a b v : is_CInt f a b v -> is_CInt f b a (Copp v).
Proof.
  intros [H1 H2]. split; simpl.
  - exact (is_RInt_swap (V := R_NormedModule) _ _ _ _ H1).
  - exact (is_RInt_swap (V := R_NormedModule) _ _ _ _ H2).
Qed.
Lemma is_CInt_point f a : is_CInt f a a (RtoC 0).
Proof. split; exact (is_RInt_point (V := R_NormedModule) _ a). Qed.

(** fundamental theorem, real functions with an everywhere-valid antiderivative *)
Lemma is_RInt_anti (F f : R -> R) a b : (forall x, is_derive F x (f x)) -> (forall x, continuous f x) ->
  is_RInt f a b (F b - F a).
Proof. intros HD HC. apply (is_RInt_derive F f a b); auto. Qed.
Lemma is_CInt_anti (F f : R -> C) a b :
  (forall x, is_derive (fun t => fst (F t)) x (fst (f x))) -> (forall x, is_derive (fun t => snd (F t)) x (snd (f x))) ->
  (forall x, continuous (fun t => fst (f t)) x) -> (forall x, continuous (fun t => snd (f t)) x) ->
  is_CInt f a b (Cminus (F b) (F a)).
Proof.
  intros H1 H2 H3 H4. split.
  - exact (is_RInt_anti (fun t => fst (F t)) (fun t => fst (f t)) a b H1 H3).
  - exact (is_RInt_anti (fun t => snd (F t)) (fun t => snd (f t)) a b H2 H4).
Qed.

(** (e^{i t} - 1) / (i t), continued by 1 at 0 *)
Definition kern (t : R) : C :=
  if Req_EM_T t 0 then RtoC 1 else (sin t / t, (1 - cos t) / t).
Lemma kern_0 : kern 0 = RtoC 1.
Proof. unfold kern. destruct (Req_EM_T 0 0); [auto|congruence]. Qed.
Lemma kern_mult t : Cmult (Cmult Ci (RtoC t)) (kern t) = Cminus (expi t) (RtoC 1).
Proof.
  unfold kern. destruct (Req_EM_T t 0) as [->|H].
  - rewrite expi_0. ring.
  - apply Ceq; simpl; field; auto.
Qed.
Lemma int_expi c d a b :
  is_CInt (fun y => expi (c * y + d)) a b (Cmult (RtoC (b - a)) (Cmult (expi (c * a + d)) (kern (c * (b - a))))).
Proof.
  destruct (Req_EM_T c 0) as [->|Hc].
  - replace (0 * (b - a)) with 0 by ring. rewrite kern_0, Cmult_1_r.
    eapply is_CInt_ext; [|apply is_CInt_const]. intros y _. cbv beta. f_equal. ring.
  - assert (H : is_CInt (fun y => expi (c * y + d)) a b
        (Cminus (sin (c * b + d) / c, - cos (c * b + d) / c) (sin (c * a + d) / c, - cos (c * a + d) / c))).
    { apply (is_CInt_anti (fun y => (sin (c * y + d) / c, - cos (c * y + d) / c))); intros x; simpl.
      - auto_derive; [auto|field; auto].
      - auto_derive; [auto|field; auto].
      - apply (ex_derive_continuous (fun t => cos (c * t + d))). auto_derive. auto.
      - apply (ex_derive_continuous (fun t => sin (c * t + d))). auto_derive. auto. }
    eapply is_CInt_eq; [|exact H].
    set (t := c * (b - a)). pose proof (kern_mult t) as K.
    assert (E : Cmult (Cmult Ci (RtoC c)) (Cmult (RtoC (b - a)) (Cmult (expi (c * a + d)) (kern t))) =
                Cminus (expi (c * b + d)) (expi (c * a + d))).
    { transitivity (Cmult (expi (c * a + d)) (Cmult (Cmult Ci (RtoC t)) (kern t))).
      - unfold t. rewrite RtoC_mult. ring.
      - rewrite K. replace (c * b + d) with ((c * a + d) + t) by (unfold t; ring). rewrite (expi_plus (c * a + d) t). ring. }
    apply (f_equal (Cmult (Cdiv (Copp Ci) (RtoC c)))) in E.
    symmetry. transitivity (Cmult (Cdiv (Copp Ci) (RtoC c)) (Cminus (expi (c * b + d)) (expi (c * a + d)))).
    + rewrite <- E. assert (RtoC c <> 0) by (apply RtoC_neq0; auto).
      transitivity (Cmult (Cmult (Copp (Cmult Ci Ci)) (Cdiv (RtoC c) (RtoC c))) (Cmult (RtoC (b - a)) (Cmult (expi (c * a + d)) (kern t)))).
      * rewrite Ci_sq. unfold Cdiv. rewrite Cinv_r by auto. ring.
      * unfold Cdiv. ring.
    + apply Ceq; simpl; field; auto.
Qed.

Lemma sin_le_abs x : Rabs (sin x) <= Rabs x.
Proof.
  destruct (Rle_dec 1 (Rabs x)) as [H|H].
  - apply Rle_trans with 1; auto. apply Rabs_le. pose proof (SIN_bound x). lra.
  - assert (G : forall y, 0 <= y < 1 -> Rabs (sin y) <= y).
    { intros y Hy. rewrite Rabs_pos_eq.
      - destruct (Req_EM_T y 0) as [->|]; [rewrite sin_0; lra|]. left. apply sin_lt_x. lra.
      - apply sin_ge_0; [lra|]. pose proof PI_RGT_0. pose proof PI2_1. lra. }
    destruct (Rle_dec 0 x).
    + rewrite (Rabs_pos_eq x) in * by auto. apply G. lra.
    + rewrite (Rabs_left x) in * by lra. rewrite <- Rabs_Ropp, <- sin_neg. apply G. lra.
Qed.
Lemma cos_lip a b : Rabs (cos a - cos b) <= Rabs (a - b).
Proof.
  rewrite form2. rewrite !Rabs_mult. pose proof (sin_le_abs ((a - b) / 2)) as H.
  assert (Rabs (sin ((a + b) / 2)) <= 1) by (apply Rabs_le; pose proof (SIN_bound ((a+b)/2)); lra).
  replace (Rabs ((a - b) / 2)) with (Rabs (a - b) / 2) in H by (unfold Rdiv; rewrite Rabs_mult, (Rabs_pos_eq (/2)); lra).
  rewrite (Rabs_left (-2)) by lra. pose proof (Rabs_pos (sin ((a - b) / 2))). pose proof (Rabs_pos (sin ((a + b) / 2))). nra.
Qed.
Lemma sin_lip a b : Rabs (sin a - sin b) <= Rabs (a - b).
Proof.
  replace (sin a - sin b) with (cos (PI / 2 - a) - cos (PI / 2 - b)) by (rewrite !cos_shift; ring).
  eapply Rle_trans; [apply cos_lip|]. replace (PI / 2 - a - (PI / 2 - b)) with (- (a - b)) by ring.
  rewrite Rabs_Ropp. lra.
Qed.
Lemma kern_int t : is_CInt (fun y => expi (t * y)) 0 1 (kern t).
Proof.
  eapply is_CInt_eq; [|eapply is_CInt_ext; [|apply (int_expi t 0 0 1)]].
  - rewrite Rmult_0_r, Rplus_0_r, expi_0. replace (t * (1 - 0)) with t by ring.
    replace (1 - 0) with 1 by ring. ring.
  - intros y _. simpl. f_equal. ring.
Qed.
Lemma Cmod_le_sum z : Cmod z <= Rabs (fst z) + Rabs (snd z).
Proof.
  unfold Cmod. apply Rsqr_incr_0_var.
  - rewrite Rsqr_sqrt; [|apply Rplus_le_le_0_compat; apply pow2_ge_0].
    pose proof (Rabs_pos (fst z)). pose proof (Rabs_pos (snd z)).
    rewrite <- (pow2_abs (fst z)), <- (pow2_abs (snd z)). unfold Rsqr. nra.
  - pose proof (Rabs_pos (fst z)). pose proof (Rabs_pos (snd z)). lra.
Qed.
Lemma kern_lip a b : Cmod (Cminus (kern a) (kern b)) <= 2 * Rabs (a - b).
Proof.
  pose proof (kern_int a) as [A1 A2]. pose proof (kern_int b) as [B1 B2].
  assert (G : forall f v, is_RInt f 0 1 v -> (forall y, 0 <= y <= 1 -> Rabs (f y) <= Rabs (a - b)) -> Rabs v <= Rabs (a - b)).
  { intros f v Hf Hb. 
    replace (Rabs (a - b)) with ((1 - 0) * Rabs (a - b)) by ring.
    exact (norm_RInt_le_const (V := R_NormedModule) f 0 1 v (Rabs (a - b)) Rle_0_1 Hb Hf). }
  eapply Rle_trans; [apply Cmod_le_sum|]. simpl.
  assert (S : forall y, 0 <= y <= 1 -> Rabs (a * y - b * y) <= Rabs (a - b)).
  { intros y Hy. replace (a * y - b * y) with ((a - b) * y) by ring. rewrite Rabs_mult, (Rabs_pos_eq y) by lra.
    pose proof (Rabs_pos (a - b)). nra. }
  assert (H1 : Rabs (fst (kern a) + - fst (kern b)) <= Rabs (a - b)).
  { eapply (G (fun y => cos (a * y) - cos (b * y))).
    - exact (is_RInt_minus (V := R_NormedModule) _ _ _ _ _ _ A1 B1).
    - intros y Hy. eapply Rle_trans; [apply cos_lip|auto]. }
  assert (H2 : Rabs (snd (kern a) + - snd (kern b)) <= Rabs (a - b)).
  { eapply (G (fun y => sin (a * y) - sin (b * y))).
    - exact (is_RInt_minus (V := R_NormedModule) _ _ _ _ _ _ A2 B2).
    - intros y Hy. eapply Rle_trans; [apply sin_lip|auto]. }
  lra.
Qed.
Lemma Cmod_sq (z : C) : Cmod z * Cmod z = fst z * fst z + snd z * snd z.
Proof.
  unfold Cmod. rewrite sqrt_sqrt; [simpl; ring|]. apply Rplus_le_le_0_compat; apply pow2_ge_0.
Qed.
Lemma Cmod_expi t : Cmod (expi t) = 1.
Proof.
  unfold Cmod, expi; simpl. rewrite !Rmult_1_r. pose proof (sin2_cos2 t) as S. unfold Rsqr in S.
  replace (cos t * cos t + sin t * sin t) with 1 by lra. apply sqrt_1.
Qed.
Lemma expi_minus1 t : Cmod (Cminus (expi t) (RtoC 1)) <= Rabs t.
Proof.
  apply Rsqr_incr_0_var; [|apply Rabs_pos]. unfold Rsqr. rewrite Cmod_sq. simpl.
  pose proof (sin2_cos2 t) as S. unfold Rsqr in S.
  replace ((cos t + - (1)) * (cos t + - (1)) + (sin t + - 0) * (sin t + - 0)) with (2 - 2 * cos t) by lra.
  replace (cos t) with (cos (2 * (t / 2))) by (f_equal; field). rewrite cos_2a_sin.
  pose proof (sin_le_abs (t / 2)) as H. 
  replace (Rabs (t / 2)) with (Rabs t / 2) in H by (unfold Rdiv; rewrite Rabs_mult, (Rabs_pos_eq (/2)); lra).
  assert (sin (t / 2) * sin (t / 2) = Rabs (sin (t / 2)) * Rabs (sin (t / 2))) by (rewrite <- Rabs_mult; rewrite Rabs_pos_eq; [auto|nra]).
  replace (2 - 2 * (1 - 2 * sin (t / 2) * sin (t / 2))) with (4 * (Rabs (sin (t / 2)) * Rabs (sin (t / 2)))) by (rewrite <- H0; ring).
  pose proof (Rabs_pos (sin (t / 2))). 
  replace (Rabs t * Rabs t) with (4 * (Rabs t / 2 * (Rabs t / 2))) by field.
  apply Rmult_le_compat_l; [lra|]. apply Rmult_le_compat; auto.
Qed.
Lemma kern_le1 t : Cmod (kern t) <= 1.
Proof.
  destruct (Req_EM_T t 0) as [->|H].
  - rewrite kern_0, Cmod_1. lra.
  - pose proof (kern_mult t) as K. apply (f_equal Cmod) in K. rewrite !Cmod_mult, Cmod_R in K.
    assert (Cmod Ci = 1) by (unfold Cmod; simpl; replace (0 * (0 * 1) + 1 * (1 * 1)) with 1 by ring; apply sqrt_1).
    rewrite H0, Rmult_1_l in K. pose proof (expi_minus1 t) as E. rewrite <- K in E.
    apply Rabs_pos_lt in H. apply Rmult_le_reg_l with (Rabs t); lra.
Qed.
