(** A slab with two guided modes: eps = 1, 4, 1, thickness 14/5, g = 1 (C118). *)
From Verif Require Import Py CBase CInt SlabModel SlabSpec SlabProofs SlabProofs2 SlabProofs3 SlabProofs4 SlabProofs5 SlabProofs6 SlabProofs8 SlabProofs9 SlabProofs10
  OrthSpec OrthProofs OrthProofs2 OracProofs2.
From Coquelicot Require Hierarchy RInt RInt_analysis Continuity.
Open Scope string_scope.
Open Scope list_scope.
Open Scope R_scope.

Definition ex2 (w : R) : R :=
  let k := sqrt (1 * 1 - 1 * (w * w)) in let x := sqrt (- (1 * 1) + 4 * (w * w)) in
  x * (k + k) * cos (x * (14 / 5)) + (k * k - x * x) * sin (x * (14 / 5)).
Lemma ex2_D22 w : D22real "TE" 1 [1; 4; 1] [14 / 5] w = ex2 w.
Proof.
  unfold D22real, ex2. cbn [D22]. unfold D22_3layer, chis_3layer.
  replace (is_te "TE") with true by reflexivity.
  set (k := sqrt (1 * 1 - 1 * (w * w))). set (x := sqrt (- (1 * 1) + 4 * (w * w))).
  rewrite <- !RtoC_mult, ccos_R, csin_R. simpl. ring.
Qed.
Lemma pi_upper : PI <= 335 / 100.
Proof.
  destruct (PI_ineq 2) as [_ H]. unfold tg_alt, PI_tg in H. simpl in H. lra.
Qed.
Lemma ex2_low : 0 < ex2 (11 / 20).
Proof.
  unfold ex2. set (k := sqrt (1 * 1 - _)). set (x := sqrt (- (1 * 1) + _)). cbv zeta.
  assert (K : k * k = 279 / 400) by (unfold k; rewrite sqrt_sqrt; lra).
  assert (X : x * x = 21 / 100) by (unfold x; rewrite sqrt_sqrt; lra).
  assert (K0 : 0 <= k) by apply sqrt_pos. assert (X0 : 0 <= x) by apply sqrt_pos.
  assert (X1 : 0 < x < 1 / 2) by nra. assert (K1 : 0 < k) by nra.
  pose proof PI2_3_2 as PP.
  assert (C : 0 < cos (x * (14 / 5))) by (apply cos_gt_0; lra).
  assert (S : 0 < sin (x * (14 / 5))) by (apply sin_gt_0; lra).
  rewrite K, X. apply Rplus_lt_0_compat; apply Rmult_lt_0_compat; nra.
Qed.
Lemma ex2_mid : ex2 (29 / 40) < 0.
Proof.
  unfold ex2. set (k := sqrt (1 * 1 - _)). set (x := sqrt (- (1 * 1) + _)). cbv zeta.
  assert (K : k * k = 759 / 1600) by (unfold k; rewrite sqrt_sqrt; lra).
  assert (X : x * x = 441 / 400) by (unfold x; rewrite sqrt_sqrt; lra).
  assert (K0 : 0 <= k) by apply sqrt_pos. assert (X0 : 0 <= x) by apply sqrt_pos.
  assert (X1 : x = 21 / 20) by nra. assert (K1 : 0 < k) by nra.
  pose proof PI2_3_2 as PP. pose proof pi_upper as PU.
  assert (C : cos (x * (14 / 5)) < 0) by (apply cos_lt_0; lra).
  assert (S : 0 < sin (x * (14 / 5))) by (apply sin_gt_0; lra).
  rewrite K, X.
  assert (0 < x * (k + k)) by nra.
  assert (x * (k + k) * cos (x * (14 / 5)) < 0) by nra. nra.
Qed.
Lemma ex2_high : 0 < ex2 (9 / 10).
Proof.
  unfold ex2. set (k := sqrt (1 * 1 - _)). set (x := sqrt (- (1 * 1) + _)). cbv zeta.
  assert (K : k * k = 19 / 100) by (unfold k; rewrite sqrt_sqrt; lra).
  assert (X : x * x = 224 / 100) by (unfold x; rewrite sqrt_sqrt; lra).
  assert (K0 : 0 <= k) by apply sqrt_pos. assert (X0 : 0 <= x) by apply sqrt_pos.
  assert (X1 : 1496 / 1000 < x < 3 / 2) by nra. assert (K1 : 0 < k < 1 / 2) by nra.
  pose proof PI2_3_2 as PP. pose proof pi_upper as PU.
  set (t := x * (14 / 5) - PI).
  assert (T : PI / 4 < t < PI / 2) by (unfold t; lra).
  replace (x * (14 / 5)) with (t + PI) by (unfold t; ring). rewrite neg_cos, neg_sin.
  assert (P0 : 0 < PI) by lra.
  assert (S1 : sin (PI / 4) < sin t) by (apply sin_increasing_1; lra).
  assert (C1 : cos t < cos (PI / 4)) by (apply cos_decreasing_1; lra).
  rewrite sin_PI4 in S1. rewrite cos_PI4 in C1. set (q := 1 / sqrt 2) in *.
  assert (Q : 0 < q) by (unfold q; apply Rdiv_lt_0_compat; [lra|apply sqrt_lt_R0; lra]).
  rewrite K, X. assert (Y : 0 < x * (k + k) < 3 / 2) by nra.
  assert (x * (k + k) * cos t < 3 / 2 * q) by nra. nra.
Qed.

Lemma ex2_bounds : omega_bounds (1 / 2) 1 (7 / 40) (1 / 10) = [11 / 20; 29 / 40; 9 / 10].
Proof.
  unfold omega_bounds.
  destruct (arange_n (1 / 2 * (1 + 1 / 10)) (1 * (1 - 1 / 10)) (7 / 40)) as [n [E [B1 B2]]]; [lra|lra|].
  rewrite E. destruct n as [|[|n]].
  - simpl in B2. lra.
  - simpl. f_equal; [lra|]. f_equal; [lra|]. f_equal. lra.
  - rewrite !S_INR in B1. pose proof (pos_INR n). lra.
Qed.
Lemma ex2_filter : filter (sc (D22real "TE" 1 [1; 4; 1] [14 / 5])) (pairs [11 / 20; 29 / 40; 9 / 10]) =
  [(11 / 20, 29 / 40); (29 / 40, 9 / 10)].
Proof.
  pose proof ex2_low. pose proof ex2_mid. pose proof ex2_high.
  cbn [pairs combine tl filter]. unfold sc. cbn [fst snd]. rewrite !ex2_D22.
  replace (Rltb (ex2 (11 / 20) * ex2 (29 / 40)) 0) with true by (symmetry; apply Rltb_true; nra).
  replace (Rltb (ex2 (29 / 40) * ex2 (9 / 10)) 0) with true by (symmetry; apply Rltb_true; nra).
  reflexivity.
Qed.
Lemma ex2_search root : exists cs, guided_mode_given_g root "TE" 1 [1; 4; 1] [14 / 5] 2 None None (7 / 40) (1 / 10) =
  Ok ([root (D22real "TE" 1 [1; 4; 1] [14 / 5]) (11 / 20) (29 / 40); root (D22real "TE" 1 [1; 4; 1] [14 / 5]) (29 / 40) (9 / 10)], cs) /\
  List.length cs = 2%nat.
Proof.
  destruct (given_g_ok root true 1 [1; 4; 1] [14 / 5] 2 eq_refl ltac:(discriminate) (1 / 2) 1 (7 / 40) (1 / 10)) as [cs [E L]].
  rewrite ex2_bounds in E, L. unfold roots in E, L. rewrite ex2_filter in E, L. cbn [firstn map fst snd] in E, L.
  exists cs. split; [|exact L]. rewrite <- E.
  assert (S4 : sqrt 4 = 2) by (replace 4 with (2 * 2) by lra; apply sqrt_square; lra).
  unfold guided_mode_given_g. change (inner [1; 4; 1]) with [4]. cbn [hd last]. cbn [rmaxl fold_right bind].
  replace (1 / sqrt 4) with (1 / 2) by (rewrite S4; reflexivity).
  replace (1 / sqrt (Rmax 1 1)) with 1 by (rewrite Rmax_left, sqrt_1 by lra; lra).
  reflexivity.
Qed.

(** ** its modes can be normalised *)
Lemma tail_unique f u v : is_tail_int f u -> is_tail_int f v -> u = v.
Proof.
  intros [_ H1] [_ H2]. apply Continuity.is_lim_unique in H1. apply Continuity.is_lim_unique in H2.
  rewrite H1 in H2. injection H2; auto.
Qed.
Lemma ex2_norm w A B Al N : 11 / 20 < w < 9 / 10 ->
  all_matched true (stack w 1 [1; 4; 1] [(RtoC 0, RtoC 1); (A, B); (Al, RtoC 0)] [0; 14 / 5 / 2; 0]) ->
  normalization_coeff reg "TE" 1 [1; 4; 1] [14 / 5] (chi_array w 1 [1; 4; 1]) [(RtoC 0, RtoC 1); (A, B); (Al, RtoC 0)] = Ok N ->
  N <> RtoC 0.
Proof.
  intros Hw [[M1 M2] _] HN HZ.
  assert (W : 1 * (w * w) < 1 * 1) by nra.
  pose proof (chi_evan w 1 1 W) as V.
  assert (R0 : 0 < reg) by (unfold reg; apply Rinv_0_lt_compat, pow_lt; lra).
  assert (R1 : reg <= / 10 ^ 5) by (unfold reg; apply Rinv_le_contravar; [apply pow_lt; lra|apply Rle_pow; [lra|lia]]).
  set (x := sqrt (4 * (w * w) - 1 * 1)).
  assert (Cx : chi w 1 4 = RtoC x) by (apply chi_ge; nra).
  assert (Xx : x * x = 4 * (w * w) - 1 * 1) by (unfold x; apply sqrt_sqrt; nra).
  assert (X0 : 0 <= x) by apply sqrt_pos. assert (X1 : 9 / 20 < x) by nra.
  set (k := snd (chi w 1 1)) in *.
  assert (K0 : fst (chi w 1 1) = 0 /\ 0 < k) by (exact V). destruct K0 as [K0 K1].
  assert (Kk : k * k = 1 - w * w).
  { pose proof (proj1 (chi_branch w 1 1)) as E. apply (f_equal fst) in E. cbn in E. fold k in E. rewrite K0 in E. nra. }
  assert (K2 : 2 / 5 < k < 1) by nra.
  destruct (norm_energy true 1 reg (chi w 1 1) [chi w 1 4] (chi w 1 1) [(A, B)] (RtoC 0) (RtoC 1) Al (RtoC 0) [1; 4; 1] [14 / 5] R0 V V)
    as [N' [E [K [EN [HE [P0 [_ HB]]]]]]]; auto.
  { constructor; [|constructor]. rewrite Cx. cbn [fst RtoC]. assert (/ 10 ^ 5 < 1 / 10) by lra. lra. }
  { constructor; [lra|constructor]. }
  unfold pol_exact in EN. assert (N' = N) by (unfold chi_array in HN; cbn [map app] in HN, EN; congruence). subst N'.
  destruct HE as [E0 [El [Ei [Ki [T0 [Tl [HL [EE EK]]]]]]]]. fold k in EK.
  assert (E0v : E0 = w1 true 1 (chi w 1 1) * sq (RtoC 1) / (2 * k)).
  { eapply tail_unique; [exact T0|]. apply tail_exp; [lra|]. intros z. apply clad_lower; auto. }
  assert (Elv : El = w1 true 1 (chi w 1 1) * sq Al / (2 * k)).
  { eapply tail_unique; [exact Tl|]. apply tail_exp; [lra|]. intros z. apply clad_upper; auto. }
  assert (W1 : w1 true 1 (chi w 1 1) = k * k + 1).
  { unfold w1, sq. rewrite K0. fold k. ring. }
  assert (I2 : 0 < / (2 * k) < 5 / 4).
  { split; [apply Rinv_0_lt_compat; lra|]. replace (5 / 4) with (/ (4 / 5)) by lra. apply Rinv_lt_contravar; nra. }
  assert (I3 : 1 / 2 <= / (2 * k)) by (replace (1 / 2) with (/ 2) by lra; apply Rinv_le_contravar; lra).
  assert (E0b : 1 / 2 <= E0).
  { rewrite E0v, W1. unfold sq, Rdiv. cbn [fst snd RtoC]. nra. }
  assert (Elb : 0 <= El).
  { rewrite Elv, W1. unfold Rdiv. apply Rmult_le_pos; [|lra]. unfold sq. nra. }
  (* the layer *)
  assert (AB : Cmod A + Cmod B <= 1 + k / x).
  { assert (PM : forall t, Cmod (cexp (Ci * RtoC x * RtoC t)%C) = 1 /\ Cmod (cexp (- (Ci * RtoC x * RtoC t))%C) = 1).
    { intros t. split.
      - replace (Ci * RtoC x * RtoC t)%C with (Ci * RtoC (x * t))%C by (rewrite RtoC_mult; ring). rewrite cexp_i. apply Cmod_expi.
      - replace (- (Ci * RtoC x * RtoC t))%C with (Ci * RtoC (- (x * t)))%C by (rewrite RtoC_opp, RtoC_mult; ring). rewrite cexp_i. apply Cmod_expi. }
    pose proof (wave_evan_dn (chi w 1 1) (RtoC 1) 0 V) as V1. pose proof (dwave_evan_dn (chi w 1 1) (RtoC 1) 0 V) as V2.
    rewrite Ropp_0, Rmult_0_r, exp_0 in V1, V2. rewrite V1 in M1. cbn iota in M2. rewrite V2 in M2. fold k in M2.
    unfold wave in M1. unfold dwave in M2. rewrite Cx in M1, M2.
    destruct (PM (- (14 / 5 / 2))) as [PA PB].
    set (P := cexp (Ci * RtoC x * RtoC (- (14 / 5 / 2)))%C) in *. set (Q := cexp (- (Ci * RtoC x * RtoC (- (14 / 5 / 2))))%C) in *.
    assert (EA : Cmod A = Cmod (A * P)%C) by (rewrite Cmod_mult, PA; ring).
    assert (EB : Cmod B = Cmod (B * Q)%C) by (rewrite Cmod_mult, PB; ring).
    rewrite EA, EB. set (a := (A * P)%C) in *. set (b := (B * Q)%C) in *. clearbody a b. destruct a as [a1 a2], b as [b1 b2].
    pose proof (f_equal fst M1) as F1. pose proof (f_equal snd M1) as F2. pose proof (f_equal fst M2) as F3. pose proof (f_equal snd M2) as F4.
    cbn in F1, F2, F3, F4.
    assert (xs : x <> 0) by lra.
    assert (A1 : a1 = 1 / 2 /\ b1 = 1 / 2).
    { assert (x * (a1 - b1) = 0) by lra. assert (a1 - b1 = 0) by (apply (Rmult_eq_reg_l x); lra). lra. }
    assert (A2 : a2 = - (k / x / 2) /\ b2 = k / x / 2).
    { assert (x * (a2 - b2) = - k) by lra. assert (a2 - b2 = - (k / x)) by (apply (Rmult_eq_reg_l x); [field_simplify; lra|auto]). lra. }
    destruct A1 as [-> ->], A2 as [-> ->].
    assert (kx : 0 <= k / x) by (apply Rlt_le, Rdiv_lt_0_compat; lra).
    assert (T : forall u v, Cmod (u, v) <= Rabs u + Rabs v).
    { intros u v. replace (u, v) with (RtoC u + Ci * RtoC v)%C by (apply Ceq; cbn; ring).
      eapply Rle_trans; [apply Cmod_triangle|]. rewrite Cmod_mult, !Cmod_R.
      replace (Cmod Ci) with 1; [lra|]. unfold Cmod, Ci. cbn [fst snd]. replace (0 ^ 2 + 1 ^ 2) with 1 by ring. symmetry. apply sqrt_1. }
    pose proof (T (1 / 2) (- (k / x / 2))) as T1. pose proof (T (1 / 2) (k / x / 2)) as T2.
    rewrite Rabs_Ropp in T1. rewrite !Rabs_right in T1, T2 by lra. lra. }
  assert (AB3 : Cmod A + Cmod B <= 4).
  { assert (k / x <= 3); [|lra]. apply (Rmult_le_reg_r x); [lra|]. unfold Rdiv. rewrite Rmult_assoc, Rinv_l by lra. lra. }
  clear E0v Elv T0 Tl.
  inversion HL as [|c A' B' d cs ABs ds Ei' Ki' E1 K1' I1 J1 HL']; subst. inversion HL'; subst.
  assert (E1p : 0 <= E1).
  { rewrite <- (RInt.is_RInt_unique (V := Hierarchy.R_CompleteNormedModule) _ _ _ _ I1). apply RInt.RInt_ge_0; [lra|eexists; exact I1|].
    intros z _. unfold energy_density, sq. nra. }
  assert (K1v : K1' <= 14 / 5 * 100).
  { rewrite <- (RInt.is_RInt_unique (V := Hierarchy.R_CompleteNormedModule) _ _ _ _ J1).
    rewrite (RInt.RInt_ext (V := Hierarchy.R_CompleteNormedModule) _ (fun _ => (sq (RtoC x) + 1 * 1) * (Cmod A + Cmod B) * (Cmod A + Cmod B))).
    2:{ intros z _. unfold majorant. rewrite Cx. cbn [snd RtoC]. replace (- 0 * z) with 0 by ring. rewrite Rmult_0_l, exp_0. match goal with |- ?a = ?b => change (a = b :> R) end. ring. }
    rewrite (RInt.RInt_const (V := Hierarchy.R_CompleteNormedModule)). unfold Hierarchy.scal; cbn. unfold Hierarchy.mult; cbn.
    unfold sq. cbn [fst snd RtoC]. rewrite Xx. pose proof (Cmod_ge_0 A). pose proof (Cmod_ge_0 B).
    assert ((Cmod A + Cmod B) * (Cmod A + Cmod B) <= 16) by nra.
    assert (0 <= (Cmod A + Cmod B) * (Cmod A + Cmod B)) by nra.
    assert (4 * (w * w) <= 4) by nra. nra. }
  replace (RtoC 0 - RtoC (E0 + El + (E1 + 0)))%C with (RtoC (- (E0 + El + (E1 + 0)))) in HB by (rewrite RtoC_opp; ring).
  rewrite Cmod_R, Rabs_Ropp, Rabs_right in HB by lra.
  assert (Z0 : E0 / (2 * k) <= 5 / 4 * E0) by (unfold Rdiv; nra).
  assert (Z1 : El / (2 * k) <= 5 / 4 * El) by (unfold Rdiv; nra).
  assert (Z2 : reg * (E0 / (2 * k) + El / (2 * k) + (14 / 5 / 2 * K1' + 0)) <= / 10 ^ 5 * (5 / 4 * E0 + 5 / 4 * El + 400)).
  { apply Rle_trans with (reg * (5 / 4 * E0 + 5 / 4 * El + 400)); [apply Rmult_le_compat_l; lra|apply Rmult_le_compat_r; lra]. }
  lra.
Qed.

Lemma csqrt_zero z : csqrt z = RtoC 0 -> z = RtoC 0.
Proof. intros H. apply Cmod_eq_0. rewrite <- sq_csqrt, H. unfold sq. cbn. ring. Qed.
Lemma ex2_two : exists root, finds_roots root (D22real "TE" 1 [1; 4; 1] [14 / 5]) /\ exists w1 w2 co1 co2,
  guided_mode_given_g root "TE" 1 [1; 4; 1] [14 / 5] 2 None None (7 / 40) (1 / 10) = Ok ([w1; w2], [co1; co2]) /\
  chi w1 1 4 <> RtoC 0 /\ chi w2 1 4 <> RtoC 0 /\ snd (hd (RtoC 0, RtoC 0) co1) <> RtoC 0 /\ snd (hd (RtoC 0, RtoC 0) co2) <> RtoC 0.
Proof.
  destruct finds_roots_exists as [root HR]. exists root. specialize (HR "TE" 1 [1; 4; 1] [14 / 5]). split; [exact HR|].
  destruct (ex2_search root) as [cs [E L]]. destruct cs as [|co1 [|co2 [|? ?]]]; try discriminate L.
  pose proof ex2_low as Q1. pose proof ex2_mid as Q2. pose proof ex2_high as Q3.
  destruct (HR (11 / 20) (29 / 40)) as [B1 _]; [lra|rewrite !ex2_D22; nra|].
  destruct (HR (29 / 40) (9 / 10)) as [B2 _]; [lra|rewrite !ex2_D22; nra|].
  set (w1 := root _ (11 / 20) _) in *. set (w2 := root _ (29 / 40) _) in *.
  exists w1, w2, co1, co2. split; [exact E|].
  assert (X : forall w, 11 / 20 < w < 9 / 10 -> chi w 1 4 <> RtoC 0).
  { intros w Hw. rewrite chi_ge by nra. apply RtoC_neq0, Rgt_not_eq, sqrt_lt_R0. nra. }
  assert (Y : forall w co, In (w, co) [(w1, co1); (w2, co2)] -> 11 / 20 < w < 9 / 10 -> snd (hd (RtoC 0, RtoC 0) co) <> RtoC 0).
  { intros w co Hin Hw.
    destruct (returned_raw root true 1 1 1 [4] [14 / 5] 2 None None (7 / 40) (1 / 10) [w1; w2] [co1; co2] w co) as [N [mid [A [Hco [Lm [HN MA]]]]]]; auto.
    - discriminate.
    - repeat constructor; lra.
    - lra.
    - lra.
    - nra.
    - nra.
    - intros _. repeat constructor. nra.
    - destruct mid as [|[a b] [|? ?]]; try discriminate Lm.
      assert (NZ : N <> RtoC 0) by (apply (ex2_norm w a b A N Hw); auto).
      rewrite Hco. cbn [map hd divs fst snd]. intros Z.
      assert (SZ : csqrt N <> RtoC 0) by (intros S0; apply NZ, csqrt_zero, S0).
      assert (U : RtoC 1 = (RtoC 1 / csqrt N * csqrt N)%C) by (field; auto). rewrite Z, Cmult_0_l in U. injection U. lra. }
  split; [apply X; lra|]. split; [apply X; lra|]. split; [apply (Y w1 co1)|apply (Y w2 co2)]; cbn; auto; lra.
Qed.
