(** Normalisation integral, one layer and the whole stack (C35). *)
From Verif Require Import Py CBase ShapesSpec CInt SlabModel SlabSpec SlabProofs SlabProofs2 SlabProofs3.
From Coquelicot Require Import Hierarchy RInt RInt_analysis Derive AutoDerive Continuity Complex Rcomplements Lim_seq Rbar ElemFct.
Open Scope R_scope.
Open Scope C_scope.

Definition w1 (te : bool) (g : R) (c : C) : R := (if te then sq c + g * g else 1)%R.
Definition w2 (te : bool) (g : R) (c : C) : R := (if te then g * g - sq c else 1)%R.
Lemma sq_pos z : (0 <= sq z)%R.
Proof. unfold sq. pose proof (Rle_0_sqr (fst z)). pose proof (Rle_0_sqr (snd z)). unfold Rsqr in *. lra. Qed.
Lemma w1_pos te g c : (0 <= w1 te g c)%R.
Proof. unfold w1; destruct te; [|lra]. pose proof (sq_pos c). pose proof (Rle_0_sqr g). unfold Rsqr in *. lra. Qed.
Lemma w2_le te g c : (Rabs (w2 te g c) <= w1 te g c)%R.
Proof.
  unfold w1, w2; destruct te; [|rewrite Rabs_R1; lra].
  pose proof (sq_pos c). pose proof (Rle_0_sqr g). unfold Rsqr in *. apply Rabs_le. lra.
Qed.
Lemma RtoC_sq z : RtoC (sq z) = z * z^*.
Proof. symmetry. apply Cconj_mod. Qed.
Lemma abs2_sq z : abs2 z = sq z.
Proof. apply Cmod_sq. Qed.

Section Layer.
Variables (te : bool) (g : R) (c A B : C).
Let a := c - c^*.
Let b := - c - c^*.
Let P (z : R) := cexp (Ci * c * RtoC z).
Let Q (z : R) := cexp (- (Ci * c * RtoC z)).

Lemma P_conj z : (P z)^* = cexp (- (Ci * c^* * RtoC z)).
Proof. unfold P. rewrite cexp_conj. f_equal. autorewrite with cconj. ring. Qed.
Lemma Q_conj z : (Q z)^* = cexp (Ci * c^* * RtoC z).
Proof. unfold Q. rewrite cexp_conj. f_equal. autorewrite with cconj. ring. Qed.
Lemma PP z : cexp (Ci * a * RtoC z) = P z * (P z)^*.
Proof. rewrite P_conj. unfold P. rewrite <- cexp_plus. f_equal. unfold a. ring. Qed.
Lemma QQ z : cexp (- (Ci * a * RtoC z)) = Q z * (Q z)^*.
Proof. rewrite Q_conj. unfold Q. rewrite <- cexp_plus. f_equal. unfold a. ring. Qed.
Lemma PQ z : cexp (- (Ci * b * RtoC z)) = P z * (Q z)^*.
Proof. rewrite Q_conj. unfold P. rewrite <- cexp_plus. f_equal. unfold b. ring. Qed.
Lemma QP z : cexp (Ci * b * RtoC z) = Q z * (P z)^*.
Proof. rewrite P_conj. unfold Q. rewrite <- cexp_plus. f_equal. unfold b. ring. Qed.

Let dens_parts (e1 e2 e3 e4 : C) : C :=
  RtoC (w1 te g c) * (A * A^* * e1 + B * B^* * e2) + RtoC (w2 te g c) * (A * B^* * e3 + A^* * B * e4).

Lemma density_parts z : RtoC (energy_density te g c A B z) =
  dens_parts (cexp (Ci * a * RtoC z)) (cexp (- (Ci * a * RtoC z))) (cexp (- (Ci * b * RtoC z))) (cexp (Ci * b * RtoC z)).
Proof.
  rewrite PP, QQ, PQ, QP. unfold dens_parts, energy_density, w1, w2, wave, dwave.
  fold (P z) (Q z). destruct te.
  - rewrite !RtoC_plus, !RtoC_minus, !RtoC_mult, !RtoC_sq. autorewrite with cconj.
    replace (- Ci * c^* ) with (- (Ci * c^*)) by ring.
    transitivity (- (Ci * Ci) * (c * c^* * ((A * P z - B * Q z) * (A^* * (P z)^* - B^* * (Q z)^*)))
      + RtoC g * RtoC g * ((A * P z + B * Q z) * (A^* * (P z)^* + B^* * (Q z)^*))); [ring|].
    rewrite Ci_sq. ring.
  - rewrite RtoC_sq. autorewrite with cconj. ring.
Qed.

Lemma modP z : Cmod (P z) = exp (- snd c * z).
Proof.
  unfold P. rewrite cexp_iz. unfold Cmod. cbn [fst snd].
  transitivity (sqrt ((exp (- snd c * z) * exp (- snd c * z)) * ((sin (fst c * z))² + (cos (fst c * z))²))).
  { f_equal. unfold Rsqr; ring. }
  rewrite sin2_cos2, Rmult_1_r. apply sqrt_square. left; apply exp_pos.
Qed.
Lemma modQ z : Cmod (Q z) = exp (snd c * z).
Proof.
  unfold Q. rewrite cexp_miz. unfold Cmod. cbn [fst snd].
  transitivity (sqrt ((exp (snd c * z) * exp (snd c * z)) * ((sin (fst c * z))² + (cos (fst c * z))²))).
  { f_equal. unfold Rsqr; ring. }
  rewrite sin2_cos2, Rmult_1_r. apply sqrt_square. left; apply exp_pos.
Qed.

Lemma Cmod_conj' z : Cmod (z^*) = Cmod z.
Proof. unfold Cmod. f_equal. simpl. ring. Qed.

Let F (dl z : R) : C :=
  dens_parts (cexp (Ci * (a + RtoC dl) * RtoC z)) (cexp (- (Ci * (a + RtoC dl) * RtoC z)))
             (cexp (- (Ci * (b + RtoC dl) * RtoC z))) (cexp (Ci * (b + RtoC dl) * RtoC z)).

Lemma split1 (x : C) dl z : cexp (Ci * (x + RtoC dl) * RtoC z) = cexp (Ci * x * RtoC z) * expi (dl * z).
Proof.
  rewrite <- cexp_i, <- cexp_plus. f_equal. rewrite RtoC_mult. ring.
Qed.
Lemma split2 (x : C) dl z : cexp (- (Ci * (x + RtoC dl) * RtoC z)) = cexp (- (Ci * x * RtoC z)) * expi (- (dl * z)).
Proof.
  rewrite <- cexp_i, <- cexp_plus. f_equal. rewrite RtoC_opp, RtoC_mult. ring.
Qed.

Lemma F_close dl z : (Cmod (F dl z - RtoC (energy_density te g c A B z))%C <= Rabs (dl * z) * majorant te g c A B z)%R.
Proof.
  unfold F. rewrite !split1, !split2, density_parts, PP, QQ, PQ, QP.
  pose proof (expi_minus1 (dl * z)) as X1. pose proof (expi_minus1 (- (dl * z))) as X2. rewrite Rabs_Ropp in X2.
  set (t := Rabs (dl * z)) in *.
  set (u1 := Cminus (expi (dl * z)) (RtoC 1)) in *. set (u2 := Cminus (expi (- (dl * z))) (RtoC 1)) in *.
  unfold dens_parts.
  replace (expi (dl * z)) with (u1 + 1) by (unfold u1; ring).
  replace (expi (- (dl * z))) with (u2 + 1) by (unfold u2; ring).
  match goal with |- (Cmod ?X <= _)%R => replace X with
   (RtoC (w1 te g c) * ((A * P z) * (A * P z)^* * u1) + RtoC (w1 te g c) * ((B * Q z) * (B * Q z)^* * u2)
    + (RtoC (w2 te g c) * ((A * P z) * (B * Q z)^* * u2) + RtoC (w2 te g c) * ((B * Q z) * (A * P z)^* * u1)))
   by (autorewrite with cconj; ring) end.
  eapply Rle_trans; [apply Cmod_triangle|].
  eapply Rle_trans; [apply Rplus_le_compat; apply Cmod_triangle|].
  rewrite !Cmod_mult, !Cmod_conj', !Cmod_mult, !Cmod_R, modP, modQ.
  rewrite (Rabs_pos_eq (w1 te g c)) by apply w1_pos.
  unfold majorant. fold (w1 te g c).
  set (x := (Cmod A * exp (- snd c * z))%R). set (y := (Cmod B * exp (snd c * z))%R).
  assert (x0 : (0 <= x)%R) by (apply Rmult_le_pos; [apply Cmod_ge_0|left; apply exp_pos]).
  assert (y0 : (0 <= y)%R) by (apply Rmult_le_pos; [apply Cmod_ge_0|left; apply exp_pos]).
  pose proof (w1_pos te g c) as W1. pose proof (w2_le te g c) as W2.
  set (w := w1 te g c) in *. set (v := Rabs (w2 te g c)) in *.
  assert (v0 : (0 <= v)%R) by apply Rabs_pos.
  pose proof (Cmod_ge_0 u1). pose proof (Cmod_ge_0 u2).
  assert (T : forall p q m s, (0 <= p -> 0 <= q -> 0 <= m <= w -> 0 <= s <= t -> m * (p * q * s) <= w * (p * q * t))%R).
  { intros p q m s Hp Hq Hm Hs. apply Rmult_le_compat; try lra.
    - apply Rmult_le_pos; [apply Rmult_le_pos; auto|lra].
    - apply Rmult_le_compat_l; [apply Rmult_le_pos; auto|lra]. }
  pose proof (T x x w (Cmod u1) x0 x0 ltac:(lra) ltac:(lra)).
  pose proof (T y y w (Cmod u2) y0 y0 ltac:(lra) ltac:(lra)).
  pose proof (T x y v (Cmod u2) x0 y0 ltac:(lra) ltac:(lra)).
  pose proof (T y x v (Cmod u1) y0 x0 ltac:(lra) ltac:(lra)).
  replace (t * (w * (x + y) * (x + y)))%R with (w * (x * x * t) + w * (y * y * t) + (w * (x * y * t) + w * (y * x * t)))%R by ring.
  lra.
Qed.

Lemma F_int dl d : (dl <> 0)%R -> (2 * fst c <> dl)%R ->
  is_CInt (F dl) (- d / 2) (d / 2)
    (RtoC (w1 te g c) * (RtoC (abs2 A + abs2 B) * I_alpha dl a d)
     + RtoC (w2 te g c) * ((A^* * B + A * B^*) * I_alpha dl b d)).
Proof.
  intros H1 H2.
  assert (Na : a + RtoC dl <> RtoC 0). { intros E. apply (f_equal fst) in E. unfold a in E. simpl in E. lra. }
  assert (Nb : b + RtoC dl <> RtoC 0). { intros E. apply (f_equal fst) in E. unfold b in E. simpl in E. lra. }
  eapply is_CInt_eq; [|apply is_CInt_plus; apply is_CInt_scal; apply is_CInt_plus; apply is_CInt_scal].
  2: apply (I_alpha_int dl a d Na). 2: apply (I_alpha_int' dl a d Na).
  2: apply (I_alpha_int' dl b d Nb). 2: apply (I_alpha_int dl b d Nb).
  rewrite RtoC_plus, !abs2_sq, !RtoC_sq. ring.
Qed.

Lemma cont_of (f : R -> R) : (forall x, ex_derive f x) -> forall x y, ex_RInt f x y.
Proof.
  intros H x y. apply (ex_RInt_continuous (V := R_CompleteNormedModule)). intros z _.
  apply (ex_derive_continuous (V := R_NormedModule)). apply H.
Qed.
Lemma wave_ex : (forall x, ex_derive (fun z => fst (wave c A B z)) x) /\ (forall x, ex_derive (fun z => snd (wave c A B z)) x)
  /\ (forall x, ex_derive (fun z => fst (dwave c A B z)) x) /\ (forall x, ex_derive (fun z => snd (dwave c A B z)) x).
Proof.
  assert (D : forall x, is_cderive (dwave c A B) x (Ci * c * dwave c A (- B) x)).
  { intros x. unfold dwave. apply is_cderive_scal.
    pose proof (wave_derive c A (- B) x) as W.
    eapply is_cderive_ext; [|exact W]. intros t. unfold wave. ring. }
  split; [|split; [|split]]; intros x.
  - exists (fst (dwave c A B x)). exact (proj1 (wave_derive c A B x)).
  - exists (snd (dwave c A B x)). exact (proj2 (wave_derive c A B x)).
  - exists (fst (Ci * c * dwave c A (- B) x)). exact (proj1 (D x)).
  - exists (snd (Ci * c * dwave c A (- B) x)). exact (proj2 (D x)).
Qed.
Lemma density_ex x : ex_derive (energy_density te g c A B) x.
Proof.
  destruct wave_ex as [H1 [H2 [H3 H4]]]. unfold energy_density, sq. destruct te.
  - apply (ex_derive_plus (V := R_NormedModule)).
    + apply (ex_derive_plus (V := R_NormedModule)); apply ex_derive_mult; auto.
    + apply (ex_derive_ext (fun z => g * g * (fst (wave c A B z) * fst (wave c A B z) + snd (wave c A B z) * snd (wave c A B z)))%R);
        [reflexivity|].
      apply ex_derive_scal. apply (ex_derive_plus (V := R_NormedModule)); apply ex_derive_mult; auto.
  - apply (ex_derive_plus (V := R_NormedModule)); apply ex_derive_mult; auto.
Qed.
Lemma majorant_ex x : ex_derive (majorant te g c A B) x.
Proof. unfold majorant. auto_derive. auto. Qed.

Lemma layer_energy dl d : (0 < dl)%R -> (2 * fst c <> dl)%R -> (0 < d)%R ->
  exists E1 K1, is_RInt (energy_density te g c A B) (- d / 2) (d / 2) E1 /\
    is_RInt (majorant te g c A B) (- d / 2) (d / 2) K1 /\
    (Cmod (RtoC (w1 te g c) * (RtoC (abs2 A + abs2 B) * I_alpha dl a d)
       + RtoC (w2 te g c) * ((A^* * B + A * B^*) * I_alpha dl b d) - RtoC E1)%C <= dl * (d / 2 * K1))%R.
Proof.
  intros H1 H2 H3.
  destruct (cont_of _ density_ex (- d / 2) (d / 2)) as [E1 HE]. destruct (cont_of _ majorant_ex (- d / 2) (d / 2)) as [K1 HK].
  exists E1, K1. split; auto. split; auto.
  pose proof (F_int dl d ltac:(lra) H2) as HF.
  eapply (CInt_norm (fun z => F dl z - RtoC (energy_density te g c A B z)) (- d / 2) (d / 2) _
    (fun z => (dl * (d / 2) * majorant te g c A B z)%R)); [lra| | |].
  - eapply is_CInt_eq; [|eapply is_CInt_ext; [|apply is_CInt_plus; [exact HF|apply (is_CInt_scal (fun z => RtoC (energy_density te g c A B z)) _ _ (RtoC E1) (- RtoC 1))]]].
    + ring.
    + intros; simpl; ring.
    + split; simpl; auto. eapply is_RInt_eq; [|apply is_RInt_constR]. ring.
  - replace (dl * (d / 2 * K1))%R with (dl * (d / 2) * K1)%R by ring.
    apply (is_RInt_scal (V := R_NormedModule) (majorant te g c A B) (- d / 2) (d / 2) (dl * (d / 2))%R K1 HK).
  - intros z Hz. eapply Rle_trans; [apply F_close|].
    apply Rmult_le_compat_r.
    + unfold majorant. fold (w1 te g c). rewrite Rmult_assoc. apply Rmult_le_pos; [apply w1_pos|]. apply Rle_0_sqr.
    + rewrite Rabs_mult, (Rabs_pos_eq dl) by lra. apply Rmult_le_compat_l; [lra|]. apply Rabs_le. lra.
Qed.
End Layer.

(** ** claddings *)
Lemma clad_lower te g (c B : C) z : evanescent c ->
  energy_density te g c 0 B (- z) = (w1 te g c * sq B * exp (- (2 * snd c) * z))%R.
Proof.
  intros [H1 H2].
  apply RtoC_inj.
  rewrite density_parts, !RtoC_mult, RtoC_sq.
  replace (cexp (- (Ci * (c - c^*) * RtoC (- z)))) with (RtoC (exp (- (2 * snd c) * z))).
  - rewrite Cconj_R. ring.
  - rewrite cexp_miz. unfold Cminus; simpl. rewrite H1.
    replace ((0 + - 0) * - z)%R with 0%R by ring. rewrite cos_0, sin_0.
    replace ((snd c + - - snd c) * - z)%R with (- (2 * snd c) * z)%R by ring. apply Ceq; simpl; ring.
Qed.
Lemma clad_upper te g (c A : C) z : evanescent c ->
  energy_density te g c A 0 z = (w1 te g c * sq A * exp (- (2 * snd c) * z))%R.
Proof.
  intros [H1 H2].
  apply RtoC_inj.
  rewrite density_parts, !RtoC_mult, RtoC_sq.
  replace (cexp (Ci * (c - c^*) * RtoC z)) with (RtoC (exp (- (2 * snd c) * z))).
  - rewrite Cconj_R. ring.
  - rewrite cexp_iz. unfold Cminus; simpl. rewrite H1.
    replace ((0 + - 0) * z)%R with 0%R by ring. rewrite cos_0, sin_0.
    replace (- (snd c + - - snd c) * z)%R with (- (2 * snd c) * z)%R by ring. apply Ceq; simpl; ring.
Qed.

Lemma exp_tail k : (0 < k)%R -> is_lim (fun L => exp (- k * L)) p_infty 0%R.
Proof.
  intros Hk. eapply (is_lim_comp exp (fun L => (- k * L)%R) p_infty 0%R m_infty).
  - apply is_lim_exp_m.
  - replace m_infty with (Rbar_mult (Finite (- k)) p_infty).
    2:{ simpl. destruct (Rle_dec 0 (- k)); [exfalso; lra|reflexivity]. }
    apply is_lim_scal_l. apply is_lim_id.
  - exists 0%R. intros; discriminate.
Qed.

Lemma tail_exp (m k : R) (f : R -> R) : (0 < k)%R -> (forall z, f z = (m * exp (- k * z))%R) ->
  is_tail_int f (m / k)%R.
Proof.
  intros Hk Hf.
  assert (I : forall L, is_RInt f 0 L (m / k * (1 - exp (- k * L)))%R).
  { intros L. apply is_RInt_ext with (fun z => (m * exp (- k * z))%R); [intros; rewrite Hf; auto|].
    eapply is_RInt_eq; [|apply (is_RInt_anti (fun z => (- m / k * exp (- k * z))%R))].
    - rewrite Rmult_0_r, exp_0. field. lra.
    - intros x. auto_derive; auto. field. lra.
    - intros x. apply (ex_derive_continuous (V := R_NormedModule)). auto_derive. auto. }
  split.
  - intros L. eexists; apply I.
  - apply is_lim_ext with (fun L => (m / k * (1 - exp (- k * L)))%R).
    { intros L. symmetry. apply is_RInt_unique, I. }
    replace (Finite (m / k)) with (Rbar_mult (Finite (m / k)) (Finite (1 - 0))%R) by (simpl; f_equal; ring).
    apply is_lim_scal_l. apply is_lim_minus'; [apply is_lim_const|apply exp_tail; auto].
Qed.

Lemma J_close dl (c : C) : (0 < dl)%R -> evanescent c ->
  (Cmod (J_alpha dl (c - c^*) - RtoC (/ (2 * snd c)))%C <= dl * (/ (2 * snd c) / (2 * snd c)))%R.
Proof.
  intros Hd [H1 H2]. unfold J_alpha. set (k := (2 * snd c)%R).
  assert (Hk : (0 < k)%R) by (unfold k; lra).
  replace (c - c^* + RtoC dl) with ((dl, k) : C).
  2:{ apply Ceq; unfold k; simpl; rewrite ?H1; ring. }
  set (w := ((dl, k) : C)).
  assert (Hw : w <> RtoC 0). { intros E. apply (f_equal fst) in E. simpl in E. lra. }
  assert (Ew : w = RtoC dl + Ci * RtoC k) by (apply Ceq; simpl; ring).
  rewrite RtoC_inv by lra.
  assert (Nk : RtoC k <> RtoC 0) by (apply RtoC_neq0; lra).
  replace (Ci / w - / RtoC k) with (- RtoC dl / (RtoC k * w)).
  2:{ rewrite Ew. rewrite Ew in Hw. field. auto. }
  rewrite Cmod_div by (apply Cmult_neq_0; auto). rewrite Cmod_opp, Cmod_mult, !Cmod_R.
  rewrite !Rabs_pos_eq by lra.
  assert (Hm : (k <= Cmod w)%R).
  { eapply Rle_trans; [|apply Rmax_Cmod]. simpl. eapply Rle_trans; [|apply Rmax_r]. apply Rle_abs. }
  unfold Rdiv. apply Rmult_le_compat_l; [lra|]. rewrite <- Rinv_mult. apply Rinv_le_contravar.
  - apply Rmult_lt_0_compat; auto.
  - apply Rmult_le_compat_l; lra.
Qed.

(** ** the stack *)
Definition normL (te : bool) (dl g : R) (x : C * (C * C) * R) : C :=
  if te then norm_TE dl g x else norm_TM dl x.
Lemma normL_eq te dl g c A B d : normL te dl g (c, (A, B), d) =
  RtoC (w1 te g c) * (RtoC (abs2 A + abs2 B) * I_alpha dl (c - c^*) d)
       + RtoC (w2 te g c) * ((A^* * B + A * B^*) * I_alpha dl (- c - c^*) d).
Proof.
  unfold normL, norm_TE, norm_TM, w1, w2. destruct te; rewrite ?abs2_sq; [reflexivity|]. ring.
Qed.

Lemma layers_ok te g dl : (0 < dl)%R -> forall cs ABs ds,
  List.length ABs = List.length cs -> List.length ds = List.length cs ->
  List.Forall (fun c : C => (2 * fst c <> dl)%R) cs -> List.Forall (fun d => (0 < d)%R) ds ->
  exists E K, layers_energy te g cs ABs ds E K /\ (0 <= E)%R /\
    (Cmod (csuml (map (normL te dl g) (combine (combine cs ABs) ds)) - RtoC E)%C <= dl * K)%R.
Proof.
  intros Hd. induction cs as [|c cs IH]; intros ABs ds L1 L2 F1 F2.
  - destruct ABs; [|discriminate]. destruct ds; [|discriminate].
    exists 0%R, 0%R. split; [constructor|]. split; [lra|].
    simpl. replace (RtoC 0 - RtoC 0) with (RtoC 0) by ring. rewrite Cmod_0. lra.
  - destruct ABs as [|[A B] ABs]; [discriminate|]. destruct ds as [|d ds]; [discriminate|].
    inversion F1; subst. inversion F2; subst.
    destruct (IH ABs ds) as [E [K [HL [HE HK]]]]; auto.
    destruct (layer_energy te g c A B dl d) as [E1 [K1 [I1 [I2 I3]]]]; auto.
    exists (E1 + E)%R, (d / 2 * K1 + K)%R. split; [constructor; auto|]. split.
    + apply Rplus_le_le_0_compat; auto.
      rewrite <- (Rmult_0_r (d / 2 - - d / 2)).
      apply (is_RInt_le (fun _ => 0%R) (energy_density te g c A B) (- d / 2) (d / 2)); auto; [lra|apply is_RInt_constR|].
      intros x _. unfold energy_density. destruct te; [|apply sq_pos].
      apply Rplus_le_le_0_compat; [apply sq_pos|]. apply Rmult_le_pos; [apply Rle_0_sqr|apply sq_pos].
    + cbn [combine map]. unfold csuml in *. cbn [fold_right].
      rewrite normL_eq. rewrite (RtoC_plus E1 E).
      match goal with |- (Cmod (?X + ?Y - _)%C <= _)%R =>
        replace (X + Y - (RtoC E1 + RtoC E)) with ((X - RtoC E1) + (Y - RtoC E)) by ring end.
      eapply Rle_trans; [apply Cmod_triangle|]. rewrite Rmult_plus_distr_l. apply Rplus_le_compat; auto.
Qed.

Definition pol_exact (te : bool) : string := if te then "TE" else "TM".

Lemma inner_ends {A} (x y : A) l : inner (x :: l ++ (y :: nil)) = l.
Proof. unfold inner. cbn [tl]. apply removelast_last. Qed.

(** the code's normalisation is the mode energy, up to the regulariser *)
Lemma norm_energy te g dl c0 cs cl ABs A0 B0 Al Bl eps ds : (0 < dl)%R ->
  evanescent c0 -> evanescent cl ->
  List.length ABs = List.length cs -> List.length ds = List.length cs ->
  (List.length ds + 2 = List.length eps)%nat ->
  List.Forall (fun c : C => (2 * fst c <> dl)%R) cs -> List.Forall (fun d => (0 < d)%R) ds ->
  exists N E K,
    normalization_coeff dl (pol_exact te) g eps ds (c0 :: cs ++ (cl :: nil)) ((A0, B0) :: ABs ++ ((Al, Bl) :: nil)) = Ok N /\
    mode_energy te g c0 B0 cs ABs cl Al ds E K /\
    (0 <= E)%R /\ (B0 <> RtoC 0 -> 0 < E)%R /\ (Cmod (N - RtoC E)%C <= dl * K)%R.
Proof.
  intros Hd V0 Vl L1 L2 L3 F1 F2.
  destruct (layers_ok te g dl Hd cs ABs ds L1 L2 F1 F2) as [Ei [Ki [HL [HE HK]]]].
  assert (Hk0 : (0 < 2 * snd c0)%R) by (destruct V0; lra). assert (Hkl : (0 < 2 * snd cl)%R) by (destruct Vl; lra).
  set (E0 := (w1 te g c0 * sq B0 / (2 * snd c0))%R). set (El := (w1 te g cl * sq Al / (2 * snd cl))%R).
  set (N := RtoC (w1 te g c0 * sq B0) * J_alpha dl (c0 - c0^*) + RtoC (w1 te g cl * sq Al) * J_alpha dl (cl - cl^*)
          + csuml (map (normL te dl g) (combine (combine cs ABs) ds))).
  exists N, (E0 + El + Ei)%R, (E0 / (2 * snd c0) + El / (2 * snd cl) + Ki)%R.
  assert (P0 : (0 <= w1 te g c0 * sq B0)%R) by (apply Rmult_le_pos; [apply w1_pos|apply sq_pos]).
  assert (Pl : (0 <= w1 te g cl * sq Al)%R) by (apply Rmult_le_pos; [apply w1_pos|apply sq_pos]).
  assert (E0p : (0 <= E0)%R) by (apply Rmult_le_pos; auto; left; apply Rinv_0_lt_compat; auto).
  assert (Elp : (0 <= El)%R) by (apply Rmult_le_pos; auto; left; apply Rinv_0_lt_compat; auto).
  split; [|split; [|split; [|split]]].
  - unfold normalization_coeff. rewrite L3, Nat.eqb_refl. cbn [hd fst snd].
    rewrite !inner_ends. rewrite !app_comm_cons, !last_last. cbn [fst].
    unfold N, pol_exact, normL, w1. rewrite !abs2_sq. destruct te.
    + replace (String.eqb "TE" "TM") with false by reflexivity. rewrite String.eqb_refl.
      rewrite <- !RtoC_mult. reflexivity.
    + rewrite String.eqb_refl, !Rmult_1_l. reflexivity.
  - exists E0, El, Ei, Ki. split; [|split; [|split; [|split]]]; auto.
    + apply tail_exp; auto. intros; apply clad_lower; auto.
    + apply tail_exp; auto. intros; apply clad_upper; auto.
  - lra.
  - intros HB. assert (0 < E0)%R; [|lra]. apply Rmult_lt_0_compat; [|apply Rinv_0_lt_compat; auto].
    apply Rmult_lt_0_compat.
    + unfold w1. destruct te; [|lra]. destruct V0 as [V1 V2].
      pose proof (Rle_0_sqr g). unfold sq. rewrite V1. unfold Rsqr in *.
      assert (0 < snd c0 * snd c0)%R by (apply Rmult_lt_0_compat; auto). lra.
    + unfold sq. rewrite <- Cmod_sq. assert (0 < Cmod B0)%R by (apply Cmod_gt_0; auto). apply Rmult_lt_0_compat; auto.
  - unfold N. rewrite !RtoC_plus.
    set (Sg := csuml (map (normL te dl g) (combine (combine cs ABs) ds))) in *.
    match goal with |- (Cmod ?X <= _)%R => replace X with (RtoC (w1 te g c0 * sq B0) * (J_alpha dl (c0 - c0^*) - RtoC (/ (2 * snd c0)))
      + RtoC (w1 te g cl * sq Al) * (J_alpha dl (cl - cl^*) - RtoC (/ (2 * snd cl))) + (Sg - RtoC Ei)) end.
    2:{ unfold E0, El, Rdiv. rewrite !(RtoC_mult (_ * _)). ring. }
    eapply Rle_trans; [apply Cmod_triangle|]. rewrite !Rmult_plus_distr_l. apply Rplus_le_compat; auto.
    eapply Rle_trans; [apply Cmod_triangle|].
    pose proof (J_close dl c0 Hd V0) as J0. pose proof (J_close dl cl Hd Vl) as Jl.
    rewrite !Cmod_mult, !Cmod_R, !Rabs_pos_eq by auto.
    apply Rplus_le_compat.
    + eapply Rle_trans; [apply Rmult_le_compat_l; [auto|exact J0]|]. right. unfold E0, Rdiv. ring.
    + eapply Rle_trans; [apply Rmult_le_compat_l; [auto|exact Jl]|]. right. unfold El, Rdiv. ring.
Qed.
