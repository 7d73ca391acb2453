(** Electric and magnetic overlap of two slab modes: Poynting's theorem for the stack. *)
From Verif Require Import Py CBase ShapesSpec CInt SlabModel SlabSpec SlabProofs SlabProofs3 MatElSpec MatElProofs2 FieldsProofs OrthSpec OrthProofs OrthProofs2 UnifSpec.
From Coquelicot Require Import Hierarchy RInt RInt_analysis Derive Continuity Complex Lim_seq Rbar Rcomplements.
Open Scope R_scope.

Lemma over_layer_int il Nl ds h v : over_layer il Nl ds h v <-> is_layer_int 0 il Nl ds h v.
Proof.
  assert (W : forall (f : R -> C) z, (f z * expi (0 * z))%C = f z).
  { intros f z. unfold expi. rewrite Rmult_0_l, cos_0, sin_0. apply Ceq; cbn; ring. }
  unfold over_layer, is_layer_int. destruct (Nat.eqb il 0); [|destruct (Nat.eqb il (Nl - 1))]; split.
  - apply ctail_ext. intros z. symmetry. exact (W (fun z => h (- z)) z).
  - apply ctail_ext. intros z. exact (W (fun z => h (- z)) z).
  - apply ctail_ext. intros z. symmetry. apply W.
  - apply ctail_ext. intros z. apply W.
  - apply is_CInt_ext. intros z _. symmetry. apply W.
  - apply is_CInt_ext. intros z _. apply W.
Qed.

(** the flux E1* x H2 up to a factor, and its derivative *)
Definition flux (te : bool) (e : R) (c1 A1 B1 c2 A2 B2 : C) (z : R) : C :=
  (RtoC (if te then 1 else / e) * (Cconj (wave c1 A1 B1 z) * dwave c2 A2 B2 z))%C.
Definition dflux (te : bool) (e : R) (c1 A1 B1 c2 A2 B2 : C) (z : R) : C :=
  (RtoC (if te then 1 else / e) * (Cconj (dwave c1 A1 B1 z) * dwave c2 A2 B2 z + Cconj (wave c1 A1 B1 z) * (- (c2 * c2) * wave c2 A2 B2 z)))%C.
Lemma flux_derive te e c1 A1 B1 c2 A2 B2 x : is_cderive (flux te e c1 A1 B1 c2 A2 B2) x (dflux te e c1 A1 B1 c2 A2 B2 x).
Proof. unfold flux, dflux. apply is_cderive_scal, udv_derive. Qed.
Lemma dflux_derive te e c1 A1 B1 c2 A2 B2 x : exists l, is_cderive (dflux te e c1 A1 B1 c2 A2 B2) x l.
Proof.
  eexists. unfold dflux. apply is_cderive_scal. apply is_cderive_plus; [apply dudv_derive|].
  apply is_cderive_ext with (fun z => (- (c2 * c2)) * (Cconj (wave c1 A1 B1 z) * wave c2 A2 B2 z))%C; [intros t; ring|].
  apply is_cderive_scal, uv_derive.
Qed.
Lemma flux_matched te e c1 A1 B1 c2 A2 B2 h e' c1' A1' B1' c2' A2' B2' h' : e <> 0 -> e' <> 0 ->
  matched te (e, c1, (A1, B1), h) (e', c1', (A1', B1'), h') -> matched te (e, c2, (A2, B2), h) (e', c2', (A2', B2'), h') ->
  flux te e c1 A1 B1 c2 A2 B2 h = flux te e' c1' A1' B1' c2' A2' B2' (- h').
Proof.
  intros He He' [M1 _] [_ M4]. unfold flux. destruct te.
  - rewrite M1, M4. reflexivity.
  - unfold Cdiv in M4. rewrite <- !RtoC_inv in M4 by auto.
    transitivity (Cconj (wave c1 A1 B1 h) * (dwave c2 A2 B2 h * RtoC (/ e)))%C; [ring|]. rewrite M1, M4. ring.
Qed.
Lemma flux_up te e c1 A1 c2 A2 z : evanescent c1 -> evanescent c2 ->
  flux te e c1 A1 0 c2 A2 0 z = (flux te e c1 A1 0 c2 A2 0 0 * RtoC (exp (- (snd c1 + snd c2) * z)))%C.
Proof.
  intros V1 V2. unfold flux. rewrite !wave_evan_up, !dwave_evan_up, !Cconj_mult_R by auto.
  rewrite !Rmult_0_r, exp_0, <- exp_pair. ring.
Qed.
Lemma tail_flux_up te e c1 A1 c2 A2 : evanescent c1 -> evanescent c2 ->
  is_ctail (dflux te e c1 A1 0 c2 A2 0) (- flux te e c1 A1 0 c2 A2 0 0)%C.
Proof.
  intros V1 V2. apply (ctail_derive (flux te e c1 A1 0 c2 A2 0) _ (snd c1 + snd c2)).
  - destruct V1, V2. lra.
  - intros x. apply flux_derive.
  - intros x. apply dflux_derive.
  - intros x. apply flux_up; auto.
Qed.
Lemma dflux_flip te e c1 B1 c2 B2 z : dflux te e c1 0 B1 c2 0 B2 (- z) = dflux te e c1 B1 0 c2 B2 0 z.
Proof. unfold dflux. rewrite (wave_flip c1 B1), (wave_flip c2 B2), (dwave_flip c1 B1), (dwave_flip c2 B2), Cconj_opp'. ring. Qed.
Lemma flux_flip te e c1 B1 c2 B2 z : flux te e c1 0 B1 c2 0 B2 (- z) = (- flux te e c1 B1 0 c2 B2 0 z)%C.
Proof. unfold flux. rewrite (wave_flip c1 B1), (dwave_flip c2 B2). ring. Qed.
Lemma tail_flux_dn te e c1 B1 c2 B2 : evanescent c1 -> evanescent c2 ->
  is_ctail (fun z => dflux te e c1 0 B1 c2 0 B2 (- z)) (flux te e c1 0 B1 c2 0 B2 0)%C.
Proof.
  intros V1 V2. eapply is_ctail_ext; [intros z; symmetry; apply dflux_flip|].
  pose proof (flux_flip te e c1 B1 c2 B2 0) as F. rewrite Ropp_0 in F. rewrite F. apply tail_flux_up; auto.
Qed.

Section Pair.
Variables (te : bool) (g w1 w2 : R) (eps ds : list R) (c1 A1 B1 c2 A2 B2 : nat -> C).
Hypothesis S1 : slab_solution te g w1 eps ds c1 A1 B1.
Hypothesis S2 : slab_solution te g w2 eps ds c2 A2 B2.
Let Nl := List.length eps.
Let fl il := flux te (nth il eps 0) (c1 il) (A1 il) (B1 il) (c2 il) (A2 il) (B2 il).
Let top il := if Nat.eqb il (Nl - 1) then RtoC 0 else fl il (half_of Nl ds il).
Let bot il := if Nat.eqb il 0 then RtoC 0 else fl il (- half_of Nl ds il)%R.

Lemma flux_layer il : (il < Nl)%nat ->
  is_layer_int 0 il Nl ds (dflux te (nth il eps 0) (c1 il) (A1 il) (B1 il) (c2 il) (A2 il) (B2 il)) (top il - bot il)%C.
Proof.
  intros H. refine (proj1 (over_layer_int il Nl ds _ _) _). unfold over_layer, top, bot, half_of. pose proof (ss_layers _ _ _ _ _ _ _ _ S1) as L2. fold Nl in L2.
  destruct (ss_below _ _ _ _ _ _ _ _ S1) as [V1 Z1], (ss_below _ _ _ _ _ _ _ _ S2) as [V2 Z2].
  destruct (ss_above _ _ _ _ _ _ _ _ S1) as [U1 Y1], (ss_above _ _ _ _ _ _ _ _ S2) as [U2 Y2]. fold Nl in U1, Y1, U2, Y2.
  destruct (Nat.eqb_spec il 0) as [->|N0].
  - destruct (Nat.eqb_spec 0 (Nl - 1)); [lia|]. unfold fl. rewrite Z1, Z2.
    replace (flux te (nth 0 eps 0) (c1 0%nat) 0 (B1 0%nat) (c2 0%nat) 0 (B2 0%nat) 0 - 0)%C with (flux te (nth 0 eps 0) (c1 0%nat) 0 (B1 0%nat) (c2 0%nat) 0 (B2 0%nat) 0) by ring.
    apply tail_flux_dn; auto.
  - destruct (Nat.eqb_spec il (Nl - 1)) as [E|N1].
    + unfold fl. rewrite Ropp_0, E, Y1, Y2.
      match goal with |- is_ctail _ (RtoC 0 - ?x)%C => replace (RtoC 0 - x)%C with (- x)%C by ring end. apply tail_flux_up; auto.
    + replace (- nth (il - 1) ds 0 / 2) with (- (nth (il - 1) ds 0 / 2)) by field.
      destruct (cint_derive (fl il) (dflux te (nth il eps 0) (c1 il) (A1 il) (B1 il) (c2 il) (A2 il) (B2 il)) (- (nth (il - 1) ds 0 / 2)) (nth (il - 1) ds 0 / 2)) as [I1 I2].
      * intros x. apply flux_derive.
      * intros x. apply dflux_derive.
      * split; [exact I1|exact I2].
Qed.

Lemma flux_sum : csum Nl (fun il => (top il - bot il)%C) = RtoC 0.
Proof.
  pose proof (ss_layers _ _ _ _ _ _ _ _ S1) as L2. fold Nl in L2.
  assert (M : forall il, (S il < Nl)%nat -> top il = bot (S il)).
  { intros il H. unfold top, bot. destruct (Nat.eqb_spec il (Nl - 1)); [lia|]. cbn [Nat.eqb].
    apply flux_matched.
    - pose proof (ss_pos _ _ _ _ _ _ _ _ S1 il ltac:(fold Nl; lia)). lra.
    - pose proof (ss_pos _ _ _ _ _ _ _ _ S1 (S il) ltac:(fold Nl; lia)). lra.
    - exact (ss_match _ _ _ _ _ _ _ _ S1 il H).
    - exact (ss_match _ _ _ _ _ _ _ _ S2 il H). }
  assert (P : forall n, (0 < n <= Nl)%nat -> csum n (fun il => (top il - bot il)%C) = top (n - 1)%nat).
  { induction n as [|n IH]; intros H; [lia|]. destruct (Nat.eq_dec n 0) as [->|Hn].
    - cbn [csum]. unfold bot. cbn [Nat.eqb]. replace (1 - 1)%nat with 0%nat by lia. ring.
    - cbn [csum]. rewrite IH by lia. replace (S n - 1)%nat with (S (n - 1))%nat by lia. replace n with (S (n - 1))%nat at 2 3 by lia.
      rewrite (M (n - 1)%nat) by lia. ring. }
  rewrite P by lia. unfold top. rewrite Nat.eqb_refl. reflexivity.
Qed.

(** the electric overlap is the magnetic one times w^2 *)
Variables (kx ky : R).
Hypothesis Hg : g = sqrt (kx * kx + ky * ky).
Hypothesis Gpos : 0 < g.
Hypothesis W1 : 0 < w1.
Hypothesis W2 : 0 < w2.
Let elec il z := hdot (curl_field te kx ky w1 (nth il eps 0) (c1 il) (A1 il) (B1 il) z) (curl_field te kx ky w2 (nth il eps 0) (c2 il) (A2 il) (B2 il) z).
Let mag il := overlap_density te g (c1 il) (A1 il) (B1 il) (c2 il) (A2 il) (B2 il).
Let wsq := if te then w1 * w1 else w2 * w2.
Let sgn := if te then 1 else - / (w2 * w2).

Lemma density_split il z : (il < Nl)%nat -> mag il z = (RtoC (/ wsq * / nth il eps 0) * elec il z
  + RtoC sgn * dflux te (nth il eps 0) (c1 il) (A1 il) (B1 il) (c2 il) (A2 il) (B2 il) z)%C.
Proof.
  intros H. pose proof (ss_pos _ _ _ _ _ _ _ _ S1 il H) as P. pose proof (ss_wave _ _ _ _ _ _ _ _ S2 il H) as K2.
  assert (G2 : kx * kx + ky * ky = g * g). { rewrite Hg. rewrite sqrt_sqrt; [reflexivity|nra]. }
  unfold mag, elec, dflux, overlap_density, curl_field, hdot, sgn, wsq. rewrite <- Hg, K2.
  set (e := nth il eps 0) in *. set (f1 := wave (c1 il) (A1 il) (B1 il) z). set (f2 := wave (c2 il) (A2 il) (B2 il) z).
  set (d1 := dwave (c1 il) (A1 il) (B1 il) z). set (d2 := dwave (c2 il) (A2 il) (B2 il) z).
  destruct te.
  - transitivity (RtoC (w2 * w2 * e * ((kx * kx + ky * ky) / (g * g))) * (Cconj f1 * f2) + (Cconj d1 * d2 + Cconj f1 * (- RtoC (e * (w2 * w2) - g * g) * f2)))%C.
    { rewrite G2. replace (w2 * w2 * e * (g * g / (g * g))) with (e * (w2 * w2)) by (field; lra). rewrite RtoC_minus. ring. }
    rewrite !Cconj_mult, !Cconj_R.
    replace (w2 * w2 * e * ((kx * kx + ky * ky) / (g * g)))
      with (/ (w1 * w1) * / e * (- (w1 * w1 * e * (ky / g)) * - (w2 * w2 * e * (ky / g)) + - (w1 * w1 * e * (- kx / g)) * - (w2 * w2 * e * (- kx / g)))) by (field; repeat split; lra).
    rewrite RtoC_mult, RtoC_plus, !RtoC_mult. ring.
  - rewrite !Cconj_mult, !Cconj_R, Cconj_opp, Cconj_i.
    transitivity (RtoC (/ (w2 * w2) * / e) * (RtoC ((kx * kx + ky * ky) / (g * g)) * (Cconj d1 * d2) + RtoC (g * g) * (Cconj f1 * f2))
      + RtoC (- / (w2 * w2)) * (RtoC (/ e) * (Cconj d1 * d2 + Cconj f1 * (- RtoC (e * (w2 * w2) - g * g) * f2))))%C.
    { rewrite G2. replace (g * g / (g * g)) with 1 by (field; lra).
      transitivity (RtoC (/ (w2 * w2) * / e * (g * g) + - / (w2 * w2) * / e * - (e * (w2 * w2) - g * g)) * (Cconj f1 * f2))%C.
      - replace (/ (w2 * w2) * / e * (g * g) + - / (w2 * w2) * / e * - (e * (w2 * w2) - g * g)) with 1 by (field; split; lra). ring.
      - rewrite !RtoC_plus, !RtoC_mult, !RtoC_opp. ring. }
    replace (RtoC ((kx * kx + ky * ky) / (g * g)))%C with (RtoC (kx / g) * RtoC (kx / g) + RtoC (ky / g) * RtoC (ky / g))%C.
    2:{ rewrite <- !RtoC_mult, <- RtoC_plus. f_equal. field. lra. }
    rewrite (RtoC_mult g g).
    match goal with |- ?L = _ => transitivity (L + (- (Ci * Ci) - RtoC 1) * (RtoC (/ (w2 * w2) * / e) * (RtoC g * Cconj f1 * RtoC g * f2)))%C end.
    + rewrite Ci_sq. ring.
    + ring.
Qed.

Lemma elec_mag V : (forall il, (il < Nl)%nat -> is_layer_int 0 il Nl ds (elec il) (V il)) ->
  exists H, (forall il, (il < Nl)%nat -> is_layer_int 0 il Nl ds (mag il) (H il)) /\
    csum Nl (fun il => RtoC (/ nth il eps 0) * V il)%C = (RtoC wsq * csum Nl H)%C.
Proof.
  intros HV. exists (fun il => RtoC (/ wsq * / nth il eps 0) * V il + RtoC sgn * (top il - bot il))%C. split.
  - intros il H. eapply layer_ext; [intros z; symmetry; apply density_split; auto|].
    apply layer_plus; apply layer_scal; [apply HV; auto|apply flux_layer; auto].
  - rewrite csum_plus, (csum_scal_l _ (RtoC sgn)), flux_sum, Cmult_0_r, Cplus_0_r.
    rewrite <- csum_scal_l. apply csum_ext. intros il H. rewrite RtoC_mult, !Cmult_assoc, <- (RtoC_mult wsq).
    replace (wsq * / wsq) with 1; [ring|]. unfold wsq. destruct te; field; lra.
Qed.
End Pair.
