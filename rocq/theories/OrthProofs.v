(** The overlap of two slab modes has a closed antiderivative (C118). *)
From Verif Require Import Py CBase CInt SlabModel SlabSpec SlabProofs SlabProofs3 MatElSpec MatElProofs2 FieldsProofs OrthSpec.
From Coquelicot Require Import Hierarchy RInt RInt_analysis Derive Continuity Complex Lim_seq Rbar Rcomplements.
Open Scope R_scope.

Lemma is_cderive_mult f h x l m : is_cderive f x l -> is_cderive h x m ->
  is_cderive (fun t => (f t * h t)%C) x (l * h x + f x * m)%C.
Proof.
  intros [F1 F2] [H1 H2].
  assert (M : forall (a b : R -> R) (da db : R), is_derive a x da -> is_derive b x db ->
    is_derive (fun t => a t * b t) x (da * b x + a x * db)).
  { intros a b da db Ha Hb. exact (is_derive_mult a b x da db Ha Hb). }
  split; cbn [fst snd Cmult Cplus].
  - replace (fst l * fst (h x) - snd l * snd (h x) + (fst (f x) * fst m - snd (f x) * snd m))
      with ((fst l * fst (h x) + fst (f x) * fst m) - (snd l * snd (h x) + snd (f x) * snd m)) by ring.
    apply (is_derive_minus (K := R_AbsRing) (V := R_NormedModule) (fun t => fst (f t) * fst (h t)) (fun t => snd (f t) * snd (h t))); apply M; auto.
  - replace (fst l * snd (h x) + snd l * fst (h x) + (fst (f x) * snd m + snd (f x) * fst m))
      with ((fst l * snd (h x) + fst (f x) * snd m) + (snd l * fst (h x) + snd (f x) * fst m)) by ring.
    apply (is_derive_plus (K := R_AbsRing) (V := R_NormedModule) (fun t => fst (f t) * snd (h t)) (fun t => snd (f t) * fst (h t))); apply M; auto.
Qed.
Lemma is_cderive_conj f x l : is_cderive f x l -> is_cderive (fun t => Cconj (f t)) x (Cconj l).
Proof.
  intros [H1 H2]. split; cbn [fst snd Cconj]; [exact H1|].
  exact (is_derive_opp (K := R_AbsRing) (V := R_NormedModule) (fun t => snd (f t)) x (snd l) H2).
Qed.

Lemma cint_derive F f a b : (forall x, is_cderive F x (f x)) -> (forall x, exists l, is_cderive f x l) ->
  is_cint f a b (F b - F a)%C.
Proof.
  intros HF Hf. split.
  - apply (is_RInt_derive (V := R_CompleteNormedModule) (fun t => fst (F t)) (fun t => fst (f t))).
    + intros x _. apply HF.
    + intros x _. destruct (Hf x) as [l [H _]]. apply (ex_derive_continuous (V := R_NormedModule)). eexists; eauto.
  - apply (is_RInt_derive (V := R_CompleteNormedModule) (fun t => snd (F t)) (fun t => snd (f t))).
    + intros x _. apply HF.
    + intros x _. destruct (Hf x) as [l [_ H]]. apply (ex_derive_continuous (V := R_NormedModule)). eexists; eauto.
Qed.

(** a decaying antiderivative gives the tail integral *)
Lemma ctail_derive F f s : 0 < s -> (forall x, is_cderive F x (f x)) -> (forall x, exists l, is_cderive f x l) ->
  (forall x, F x = (F 0 * RtoC (exp (- s * x)))%C) -> is_ctail f (- F 0)%C.
Proof.
  intros Hs HF Hf HE.
  assert (LE : is_lim (fun x => exp (- s * x)) p_infty 0).
  { apply (lim_bounded (fun x => exp (- s * x)) s Hs). intros L. rewrite Rabs_right; [lra|]. left. apply exp_pos. }
  assert (LK : forall k : R, is_lim (fun x => k * exp (- s * x) - k) p_infty (- k)).
  { intros k. replace (Finite (- k)) with (Rbar_plus (Rbar_mult k 0) (- k)) by (cbn; f_equal; ring).
    apply (is_lim_plus' (fun x => k * exp (- s * x)) (fun _ => - k) p_infty (k * 0) (- k)).
    - apply (is_lim_scal_l (fun x => exp (- s * x)) k p_infty 0 LE).
    - apply is_lim_const. }
  pose proof (fun L => cint_derive F f 0 L HF Hf) as HI.
  split; split.
  - intros L. eexists. apply HI.
  - apply is_lim_ext with (fun x => fst (F 0%R) * exp (- s * x) - fst (F 0%R)); [|apply LK].
    intros L. symmetry. apply is_RInt_unique. destruct (HI L) as [H _].
    replace (fst (F 0) * exp (- s * L) - fst (F 0)) with (fst (F L - F 0)%C); [exact H|].
    rewrite (HE L) at 1. cbn. ring.
  - intros L. eexists. apply HI.
  - apply is_lim_ext with (fun x => snd (F 0%R) * exp (- s * x) - snd (F 0%R)); [|apply LK].
    intros L. symmetry. apply is_RInt_unique. destruct (HI L) as [_ H].
    replace (snd (F 0) * exp (- s * L) - snd (F 0)) with (snd (F L - F 0)%C); [exact H|].
    rewrite (HE L) at 1. cbn. ring.
Qed.

(** ** the antiderivative of the overlap density *)
Definition wr (c1 A1 B1 c2 A2 B2 : C) (z : R) : C :=
  (Cconj (wave c1 A1 B1 z) * dwave c2 A2 B2 z - Cconj (dwave c1 A1 B1 z) * wave c2 A2 B2 z)%C.
Definition ov (te : bool) (w1 w2 e : R) (c1 A1 B1 c2 A2 B2 : C) (z : R) : C :=
  if te then (Cconj (wave c1 A1 B1 z) * dwave c2 A2 B2 z + RtoC (w2 * w2 / (w1 * w1 - w2 * w2)) * wr c1 A1 B1 c2 A2 B2 z)%C
  else (RtoC (/ (w1 * w1 - w2 * w2)) * (wr c1 A1 B1 c2 A2 B2 z / RtoC e))%C.

Lemma uv_derive c1 A1 B1 c2 A2 B2 x : is_cderive (fun z => Cconj (wave c1 A1 B1 z) * wave c2 A2 B2 z)%C x
  (Cconj (dwave c1 A1 B1 x) * wave c2 A2 B2 x + Cconj (wave c1 A1 B1 x) * dwave c2 A2 B2 x)%C.
Proof. apply is_cderive_mult; [apply is_cderive_conj|]; apply wave_derive. Qed.
Lemma udv_derive c1 A1 B1 c2 A2 B2 x : is_cderive (fun z => Cconj (wave c1 A1 B1 z) * dwave c2 A2 B2 z)%C x
  (Cconj (dwave c1 A1 B1 x) * dwave c2 A2 B2 x + Cconj (wave c1 A1 B1 x) * (- (c2 * c2) * wave c2 A2 B2 x))%C.
Proof. apply is_cderive_mult; [apply is_cderive_conj, wave_derive|apply dwave_derive]. Qed.
Lemma duv_derive c1 A1 B1 c2 A2 B2 x : is_cderive (fun z => Cconj (dwave c1 A1 B1 z) * wave c2 A2 B2 z)%C x
  (Cconj (- (c1 * c1) * wave c1 A1 B1 x) * wave c2 A2 B2 x + Cconj (dwave c1 A1 B1 x) * dwave c2 A2 B2 x)%C.
Proof. apply is_cderive_mult; [apply is_cderive_conj, dwave_derive|apply wave_derive]. Qed.
Lemma dudv_derive c1 A1 B1 c2 A2 B2 x : is_cderive (fun z => Cconj (dwave c1 A1 B1 z) * dwave c2 A2 B2 z)%C x
  (Cconj (- (c1 * c1) * wave c1 A1 B1 x) * dwave c2 A2 B2 x + Cconj (dwave c1 A1 B1 x) * (- (c2 * c2) * wave c2 A2 B2 x))%C.
Proof. apply is_cderive_mult; [apply is_cderive_conj|]; apply dwave_derive. Qed.

Lemma density_derive te g c1 A1 B1 c2 A2 B2 x : exists l, is_cderive (overlap_density te g c1 A1 B1 c2 A2 B2) x l.
Proof.
  destruct te; eexists; unfold overlap_density.
  - apply is_cderive_plus; [apply dudv_derive|]. apply is_cderive_scal, uv_derive.
  - apply uv_derive.
Qed.

Lemma wr_derive g w1 w2 e c1 A1 B1 c2 A2 B2 x :
  (c1 * c1)%C = RtoC (e * (w1 * w1) - g * g) -> (c2 * c2)%C = RtoC (e * (w2 * w2) - g * g) ->
  is_cderive (wr c1 A1 B1 c2 A2 B2) x (RtoC (e * (w1 * w1 - w2 * w2)) * (Cconj (wave c1 A1 B1 x) * wave c2 A2 B2 x))%C.
Proof.
  intros H1 H2. unfold wr.
  apply is_cderive_ext with (fun z => Cconj (wave c1 A1 B1 z) * dwave c2 A2 B2 z + (- RtoC 1) * (Cconj (dwave c1 A1 B1 z) * wave c2 A2 B2 z))%C.
  { intros t. ring. }
  eapply is_cderive_eq; [apply is_cderive_plus; [apply udv_derive|apply is_cderive_scal, duv_derive]|].
  rewrite H1, H2. generalize (wave c1 A1 B1 x), (wave c2 A2 B2 x), (dwave c1 A1 B1 x), (dwave c2 A2 B2 x).
  intros [a b] [c d] [p q] [r t]. apply Ceq; cbn; ring.
Qed.
Lemma ov_derive te g w1 w2 e c1 A1 B1 c2 A2 B2 x : w1 * w1 <> w2 * w2 -> e <> 0 ->
  (c1 * c1)%C = RtoC (e * (w1 * w1) - g * g) -> (c2 * c2)%C = RtoC (e * (w2 * w2) - g * g) ->
  is_cderive (ov te w1 w2 e c1 A1 B1 c2 A2 B2) x (overlap_density te g c1 A1 B1 c2 A2 B2 x).
Proof.
  intros Hw He H1 H2. unfold ov, overlap_density. destruct te.
  - eapply is_cderive_eq; [apply is_cderive_plus; [apply udv_derive|apply is_cderive_scal, (wr_derive g w1 w2 e); auto]|].
    rewrite H2. set (u := Cconj (wave c1 A1 B1 x)). set (v := wave c2 A2 B2 x). set (p := Cmult (Cconj _) _).
    transitivity (p + (RtoC (g * g) - RtoC (e * (w2 * w2)) + RtoC (w2 * w2 / (w1 * w1 - w2 * w2)) * RtoC (e * (w1 * w1 - w2 * w2))) * (u * v))%C.
    { rewrite RtoC_minus. ring. }
    rewrite <- RtoC_mult. replace (w2 * w2 / (w1 * w1 - w2 * w2) * (e * (w1 * w1 - w2 * w2))) with (e * (w2 * w2)) by (field; lra).
    ring.
  - apply is_cderive_ext with (fun z => RtoC (/ (w1 * w1 - w2 * w2)) * (/ RtoC e) * wr c1 A1 B1 c2 A2 B2 z)%C.
    { intros t. unfold Cdiv. ring. }
    eapply is_cderive_eq; [apply is_cderive_scal, (wr_derive g w1 w2 e); auto|].
    rewrite <- RtoC_inv by auto. rewrite Cmult_assoc, <- !RtoC_mult.
    replace (/ (w1 * w1 - w2 * w2) * / e * (e * (w1 * w1 - w2 * w2))) with 1 by (field; split; lra). ring.
Qed.

(** ** it is continuous across matched interfaces *)
Lemma Cconj_div_R z e : Cconj (z / RtoC e)%C = (Cconj z / RtoC e)%C.
Proof. apply Ceq; cbn; unfold Rdiv; ring. Qed.
Lemma ov_matched te w1 w2 e c1 A1 B1 c2 A2 B2 h e' c1' A1' B1' c2' A2' B2' h' :
  matched te (e, c1, (A1, B1), h) (e', c1', (A1', B1'), h') -> matched te (e, c2, (A2, B2), h) (e', c2', (A2', B2'), h') ->
  ov te w1 w2 e c1 A1 B1 c2 A2 B2 h = ov te w1 w2 e' c1' A1' B1' c2' A2' B2' (- h').
Proof.
  intros [M1 M2] [M3 M4]. unfold ov, wr. destruct te.
  - rewrite M1, M2, M3, M4. reflexivity.
  - f_equal. transitivity (Cconj (wave c1 A1 B1 h) * (dwave c2 A2 B2 h / RtoC e) - Cconj (dwave c1 A1 B1 h / RtoC e) * wave c2 A2 B2 h)%C.
    { rewrite Cconj_div_R. unfold Cdiv. ring. }
    rewrite M1, M2, M3, M4, Cconj_div_R. unfold Cdiv. ring.
Qed.

(** ** it decays in the claddings *)
Lemma wave_evan_dn c B z : evanescent c -> wave c 0 B (- z) = (B * RtoC (exp (- snd c * z)))%C.
Proof.
  intros [H0 H1]. unfold wave. rewrite Cmult_0_l, Cplus_0_l. f_equal. rewrite cexp_miz, H0.
  replace (0 * - z) with 0 by ring. rewrite cos_0, sin_0. replace (snd c * - z) with (- snd c * z) by ring.
  apply Ceq; cbn; ring.
Qed.
Lemma dwave_evan_dn c B z : evanescent c -> dwave c 0 B (- z) = (RtoC (snd c) * B * RtoC (exp (- snd c * z)))%C.
Proof.
  intros [H0 H1]. unfold dwave. rewrite cexp_miz, H0.
  replace (0 * - z) with 0 by ring. rewrite cos_0, sin_0. replace (snd c * - z) with (- snd c * z) by ring.
  destruct c as [c' k]. cbn [fst snd] in *. subst c'. apply Ceq; cbn; ring.
Qed.
Lemma wave_evan_up c A z : evanescent c -> wave c A 0 z = (A * RtoC (exp (- snd c * z)))%C.
Proof.
  intros [H0 H1]. unfold wave. rewrite Cmult_0_l, Cplus_0_r. f_equal. rewrite cexp_iz, H0.
  rewrite Rmult_0_l, cos_0, sin_0. apply Ceq; cbn; ring.
Qed.
Lemma dwave_evan_up c A z : evanescent c -> dwave c A 0 z = (RtoC (- snd c) * A * RtoC (exp (- snd c * z)))%C.
Proof.
  intros [H0 H1]. unfold dwave. rewrite cexp_iz, H0. rewrite Rmult_0_l, cos_0, sin_0.
  destruct c as [c' k]. cbn [fst snd] in *. subst c'. apply Ceq; cbn; ring.
Qed.
Lemma Cconj_mult_R a r : Cconj (a * RtoC r)%C = (Cconj a * RtoC r)%C.
Proof. apply Ceq; cbn; ring. Qed.
Lemma exp_pair a b z : (RtoC (exp (- a * z)) * RtoC (exp (- b * z)))%C = RtoC (exp (- (a + b) * z)).
Proof. rewrite <- RtoC_mult, <- exp_plus. do 2 f_equal. ring. Qed.

Lemma ov_decay_dn te w1 w2 e c1 B1 c2 B2 z : evanescent c1 -> evanescent c2 ->
  ov te w1 w2 e c1 0 B1 c2 0 B2 (- z) = (ov te w1 w2 e c1 0 B1 c2 0 B2 (- 0) * RtoC (exp (- (snd c1 + snd c2) * z)))%C.
Proof.
  intros V1 V2. unfold ov, wr. rewrite !wave_evan_dn, !dwave_evan_dn, !Cconj_mult_R by auto.
  rewrite !Rmult_0_r, exp_0, <- (exp_pair (snd c1) (snd c2) z). destruct te; unfold Cdiv; ring.
Qed.
Lemma ov_decay_up te w1 w2 e c1 A1 c2 A2 z : evanescent c1 -> evanescent c2 ->
  ov te w1 w2 e c1 A1 0 c2 A2 0 z = (ov te w1 w2 e c1 A1 0 c2 A2 0 0 * RtoC (exp (- (snd c1 + snd c2) * z)))%C.
Proof.
  intros V1 V2. unfold ov, wr. rewrite !wave_evan_up, !dwave_evan_up, !Cconj_mult_R by auto.
  rewrite !Rmult_0_r, exp_0, <- (exp_pair (snd c1) (snd c2) z). destruct te; unfold Cdiv; ring.
Qed.
