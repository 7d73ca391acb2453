(** Maxwell's equations for the reconstructed fields (C37). *)
From Coquelicot Require Coquelicot.
From Coquelicot Require Import Hierarchy Continuity Derive.
From Verif Require Import Py CBase LatticeModel PhcModel SlabSpec SlabModel SlabProofs SlabProofs3 MatElModel MatElSpec MatElProofs3 FieldsSpec FieldsModel.
Open Scope R_scope.
Open Scope C_scope.

(** ** derivatives *)
Lemma is_cderive_scal_r f x l (k : C) : is_cderive f x l -> is_cderive (fun t => f t * k) x (l * k).
Proof.
  intros H. rewrite (Cmult_comm l k). apply is_cderive_ext with (fun t => k * f t); [intros; ring|].
  apply is_cderive_scal, H.
Qed.
Lemma is_cderive_zero x : is_cderive (fun _ => RtoC 0) x 0.
Proof. split; simpl; exact (is_derive_const (K := R_AbsRing) (V := R_NormedModule) 0%R x). Qed.
Lemma is_cderive_eq f x l m : is_cderive f x l -> l = m -> is_cderive f x m.
Proof. intros; subst; auto. Qed.
Lemma is_cderive_loc f g x l : locally x (fun t => f t = g t) -> is_cderive f x l -> is_cderive g x l.
Proof.
  intros L [H1 H2]. split; eapply is_derive_ext_loc; try eassumption; eapply filter_imp; try eassumption; intros t E; rewrite <- E; auto.
Qed.
Lemma dwave_derive c A B x : is_cderive (dwave c A B) x (- (c * c) * wave c A B x).
Proof.
  apply is_cderive_ext with (wave c (Ci * c * A) (- (Ci * c * B))).
  { intros t. unfold wave, dwave. ring. }
  eapply is_cderive_eq; [apply wave_derive|]. unfold dwave, wave.
  transitivity (Ci * Ci * (c * c * (A * cexp (Ci * c * RtoC x) + B * cexp (- (Ci * c * RtoC x))))); [ring|].
  rewrite Ci_sq. ring.
Qed.
Lemma shift c A B z zc : wave c (A * cexp (- (Ci * c * RtoC zc))) (B * cexp (Ci * c * RtoC zc)) z = wave c A B (z - zc).
Proof.
  unfold wave. rewrite RtoC_minus.
  replace (Ci * c * (RtoC z - RtoC zc)) with (- (Ci * c * RtoC zc) + Ci * c * RtoC z) by ring.
  replace (- (- (Ci * c * RtoC zc) + Ci * c * RtoC z)) with (Ci * c * RtoC zc + - (Ci * c * RtoC z)) by ring.
  rewrite !cexp_plus. ring.
Qed.
Lemma dshift c A B z zc : dwave c (A * cexp (- (Ci * c * RtoC zc))) (B * cexp (Ci * c * RtoC zc)) z = dwave c A B (z - zc).
Proof.
  unfold dwave. rewrite RtoC_minus.
  replace (Ci * c * (RtoC z - RtoC zc)) with (- (Ci * c * RtoC zc) + Ci * c * RtoC z) by ring.
  replace (- (- (Ci * c * RtoC zc) + Ci * c * RtoC z)) with (Ci * c * RtoC zc + - (Ci * c * RtoC z)) by ring.
  rewrite !cexp_plus. ring.
Qed.

Lemma trip {A} (a b c a' b' c' : A) : a = a' -> b = b' -> c = c' -> (a, b, c) = (a', b', c').
Proof. congruence. Qed.

(** ** one basis function in one layer *)
Section One.
Variables (P : phc) (eps : list R) (d : gkdata) (omega : R) (m : nat * gmode) (i lind : nat).
Let N := List.length eps.
Let g := md_g (snd m) i.
Definition zref : R := if Nat.eqb lind 0 then ly_zmax (pc_clad_l P) else if Nat.eqb lind (N - 1) then ly_zmin (pc_clad_u P) else z_cent P lind.
Definition ampA : C := if Nat.eqb lind 0 then 0 else md_A (snd m) lind i.
Definition ampB : C := if Nat.eqb lind 0 then md_B (snd m) lind i else if Nat.eqb lind (N - 1) then 0 else md_B (snd m) lind i.
Let c := md_chi (snd m) lind i.
Let w z := wave c ampA ampB (z - zref).
Let dw z := dwave c ampA ampB (z - zref).

Lemma H_form z : basis_H P eps d m i lind z =
  if Nat.even (fst m) then (- RtoC (pkx d g) * dw z, - RtoC (pky d g) * dw z, Ci * RtoC (gk_len d g) * w z)
  else (RtoC (pky d g) * w z, - RtoC (pkx d g) * w z, RtoC 0).
Proof.
  unfold basis_H, w, dw, wave, dwave, zref, ampA, ampB. fold N g.
  destruct (Nat.eqb_spec lind 0) as [E|E]; [|destruct (Nat.eqb_spec lind (N - 1)) as [E'|E']].
  - unfold c. rewrite E. replace (- Ci * md_chi (snd m) 0%nat i * RtoC (z - ly_zmax (pc_clad_l P))) with (- (Ci * md_chi (snd m) 0%nat i * RtoC (z - ly_zmax (pc_clad_l P)))) by ring.
    destruct (Nat.even (fst m)); rewrite ?RtoC_opp; apply trip; ring.
  - unfold c. rewrite <- E'. destruct (Nat.even (fst m)); rewrite ?RtoC_opp; apply trip; ring.
  - unfold c. replace (- Ci * md_chi (snd m) lind i * RtoC (z - z_cent P lind)) with (- (Ci * md_chi (snd m) lind i * RtoC (z - z_cent P lind))) by ring.
    destruct (Nat.even (fst m)); rewrite ?RtoC_opp; apply trip; ring.
Qed.
Let e := nth lind eps 0%R.
Let om := md_om (snd m) i.
Lemma D_form z : omega <> 0%R -> basis_D P eps d omega m i lind z =
  if Nat.even (fst m) then (Ci / RtoC omega * (RtoC (om * om * e * pky d g) * w z), Ci / RtoC omega * (- RtoC (om * om * e * pkx d g) * w z), RtoC 0)
  else (- (Ci / RtoC omega) * (RtoC (pkx d g) * dw z), - (Ci / RtoC omega) * (RtoC (pky d g) * dw z), - (RtoC 1 / RtoC omega) * (RtoC (gk_len d g) * w z)).
Proof.
  intros Ho. assert (Ho' : RtoC omega <> 0) by (apply RtoC_neq0; auto).
  unfold basis_D, w, dw, wave, dwave, zref, ampA, ampB. fold N g om.
  assert (I2 : forall x : C, Ci * Ci * x = - x) by (intros; rewrite Ci_sq; ring).
  destruct (Nat.eqb_spec lind 0) as [E|E]; [|destruct (Nat.eqb_spec lind (N - 1)) as [E'|E']].
  - unfold c, e. rewrite E. replace (- Ci * md_chi (snd m) 0%nat i * RtoC (z - ly_zmax (pc_clad_l P))) with (- (Ci * md_chi (snd m) 0%nat i * RtoC (z - ly_zmax (pc_clad_l P)))) by ring.
    set (x := cexp (- _)). set (y := cexp (Ci * _ * _)). set (B := md_B (snd m) 0%nat i).
    destruct (Nat.even (fst m)); rewrite ?RtoC_opp, ?RtoC_mult; apply trip; try (unfold Cdiv; ring).
    rewrite <- !(Cmult_assoc _ Ci), (Cmult_comm _ (Ci * _)), <- !Cmult_assoc. unfold Cdiv.
    transitivity (Ci * Ci * (/ RtoC omega * B * x * RtoC (gk_len d g))); [ring|]. rewrite I2. ring.
  - unfold c, e. rewrite <- E'. set (x := cexp (- _)). set (y := cexp (Ci * _ * _)). set (A := md_A (snd m) lind i).
    destruct (Nat.even (fst m)); rewrite ?RtoC_opp, ?RtoC_mult; apply trip; try (unfold Cdiv; ring).
    unfold Cdiv.
    transitivity (Ci * Ci * (/ RtoC omega * A * y * RtoC (gk_len d g))); [ring|]. rewrite I2. ring.
  - unfold c, e. replace (- Ci * md_chi (snd m) lind i * RtoC (z - z_cent P lind)) with (- (Ci * md_chi (snd m) lind i * RtoC (z - z_cent P lind))) by ring.
    set (x := cexp (- _)). set (y := cexp (Ci * _ * _)). set (A := md_A (snd m) lind i). set (B := md_B (snd m) lind i).
    set (ch := md_chi (snd m) lind i).
    destruct (Nat.even (fst m)); rewrite ?RtoC_opp, ?RtoC_mult; apply trip; try (unfold Cdiv; ring).
    + unfold Cdiv. transitivity (- (Ci * Ci * (/ RtoC omega * ch * (A * y - B * x) * RtoC (pkx d g)))); [rewrite I2|]; ring.
    + unfold Cdiv. transitivity (- (Ci * Ci * (/ RtoC omega * ch * (A * y - B * x) * RtoC (pky d g)))); [rewrite I2|]; ring.
Qed.

Hypothesis Hg : gk_len d g = sqrt (gk_x d g * gk_x d g + gk_y d g * gk_y d g).
Hypothesis Hg0 : (gk_x d g * gk_x d g + gk_y d g * gk_y d g <> 0)%R.
Hypothesis Hc : c * c = RtoC (e * (om * om) - gk_len d g * gk_len d g).

Lemma len_pos : (0 < gk_len d g)%R.
Proof. rewrite Hg. apply sqrt_lt_R0. pose proof (Rle_0_sqr (gk_x d g)). pose proof (Rle_0_sqr (gk_y d g)). unfold Rsqr in *. lra. Qed.
Lemma len_sq : (gk_len d g * gk_len d g = gk_x d g * gk_x d g + gk_y d g * gk_y d g)%R.
Proof. rewrite Hg. apply sqrt_sqrt. pose proof (Rle_0_sqr (gk_x d g)). pose proof (Rle_0_sqr (gk_y d g)). unfold Rsqr in *. lra. Qed.
Lemma x_px : gk_x d g = (gk_len d g * pkx d g)%R.
Proof. unfold pkx. field. pose proof len_pos. lra. Qed.
Lemma y_py : gk_y d g = (gk_len d g * pky d g)%R.
Proof. unfold pky. field. pose proof len_pos. lra. Qed.
Lemma p_unit : (pkx d g * pkx d g + pky d g * pky d g = 1)%R.
Proof.
  pose proof len_pos. pose proof len_sq as E. rewrite x_px, y_py in E.
  apply Rmult_eq_reg_l with (gk_len d g * gk_len d g)%R; nra.
Qed.

Lemma w_derive z : is_cderive w z (dw z).
Proof.
  unfold w, dw. rewrite <- dshift. eapply is_cderive_ext; [|apply wave_derive]. intros t. cbv beta. apply shift.
Qed.
Lemma dw_derive z : is_cderive dw z (- (c * c) * w z).
Proof.
  unfold w, dw. rewrite <- shift. eapply is_cderive_ext; [|apply dwave_derive]. intros t. cbv beta. apply dshift.
Qed.

Lemma curl_basis z : is_curl (gk_x d g) (gk_y d g) (fun t => cx (basis_H P eps d m i lind t)) (fun t => cy (basis_H P eps d m i lind t)) (fun t => cz (basis_H P eps d m i lind t)) z
  (curl_field (Nat.even (fst m)) (gk_x d g) (gk_y d g) om e c ampA ampB (z - zref)).
Proof.
  unfold is_curl, curl_field. rewrite <- Hg. fold (w z) (dw z). fold (pkx d g) (pky d g).
  replace (- gk_x d g / gk_len d g)%R with (- pkx d g)%R by (unfold pkx; pose proof len_pos; field; lra).
  rewrite H_form.
  pose proof len_sq as LS. pose proof x_px as PX. pose proof y_py as PY.
  destruct (Nat.even (fst m)) eqn:Ev.
  - exists (- RtoC (pkx d g) * (- (c * c) * w z)), (- RtoC (pky d g) * (- (c * c) * w z)).
    split; [|split].
    + eapply is_cderive_ext; [|apply is_cderive_scal, dw_derive]. intros t. rewrite H_form, Ev. reflexivity.
    + eapply is_cderive_ext; [|apply is_cderive_scal, dw_derive]. intros t. rewrite H_form, Ev. reflexivity.
    + unfold cx, cy, cz. cbn [fst snd]. rewrite Hc, PX, PY.
      f_equal; [f_equal|]; rewrite ?RtoC_opp, ?RtoC_minus, ?RtoC_mult, ?RtoC_opp, ?RtoC_mult.
      * transitivity (Ci * Ci * (RtoC (gk_len d g) * RtoC (pky d g) * (RtoC (gk_len d g) * w z)) - RtoC (pky d g) * ((RtoC e * (RtoC om * RtoC om) - RtoC (gk_len d g) * RtoC (gk_len d g)) * w z)); [rewrite Ci_sq|]; ring.
      * transitivity (- (Ci * Ci * (RtoC (gk_len d g) * RtoC (pkx d g) * (RtoC (gk_len d g) * w z))) + RtoC (pkx d g) * ((RtoC e * (RtoC om * RtoC om) - RtoC (gk_len d g) * RtoC (gk_len d g)) * w z)); [rewrite Ci_sq|]; ring.
      * ring.
  - exists (RtoC (pky d g) * dw z), (- RtoC (pkx d g) * dw z).
    split; [|split].
    + eapply is_cderive_ext; [|apply is_cderive_scal, w_derive]. intros t. rewrite H_form, Ev. reflexivity.
    + eapply is_cderive_ext; [|apply is_cderive_scal, w_derive]. intros t. rewrite H_form, Ev. reflexivity.
    + unfold cx, cy, cz. cbn [fst snd]. rewrite PX, PY.
      f_equal; [f_equal|]; rewrite ?RtoC_mult.
      * ring.
      * ring.
      * pose proof p_unit as PU. apply (f_equal RtoC) in PU. rewrite RtoC_plus, !RtoC_mult in PU.
        transitivity (- Ci * RtoC (gk_len d g) * w z * (RtoC (pkx d g) * RtoC (pkx d g) + RtoC (pky d g) * RtoC (pky d g))); [rewrite PU|]; ring.
Qed.

Lemma D_curl z : omega <> 0%R -> basis_D P eps d omega m i lind z =
  let '(a, b, f) := curl_field (Nat.even (fst m)) (gk_x d g) (gk_y d g) om e c ampA ampB (z - zref) in
  (- (Ci / RtoC omega) * a, - (Ci / RtoC omega) * b, - (Ci / RtoC omega) * f).
Proof.
  intros Ho. rewrite D_form by auto. unfold curl_field. rewrite <- Hg. fold (w z) (dw z). fold (pkx d g) (pky d g).
  replace (- gk_x d g / gk_len d g)%R with (- pkx d g)%R by (unfold pkx; pose proof len_pos; field; lra).
  destruct (Nat.even (fst m)); apply trip; rewrite ?RtoC_opp, ?RtoC_mult, ?RtoC_opp; unfold Cdiv; try ring.
  transitivity (Ci * Ci * (/ RtoC omega * (RtoC (gk_len d g) * w z))); [rewrite Ci_sq|]; ring.
Qed.

Lemma maxwell_basis z : omega <> 0%R -> maxwell (gk_x d g) (gk_y d g) omega
  (fun t => cx (basis_H P eps d m i lind t)) (fun t => cy (basis_H P eps d m i lind t)) (fun t => cz (basis_H P eps d m i lind t))
  (fun t => cx (basis_D P eps d omega m i lind t)) (fun t => cy (basis_D P eps d omega m i lind t)) (fun t => cz (basis_D P eps d omega m i lind t)) z.
Proof.
  intros Ho. destruct (curl_basis z) as [hx [hy [H1 [H2 H3]]]].
  pose proof (D_curl z Ho) as D. rewrite H3 in D. cbv zeta in D.
  pose proof p_unit as PU. apply (f_equal RtoC) in PU. rewrite RtoC_plus, !RtoC_mult in PU.
  pose proof x_px as PX. pose proof y_py as PY.
  exists hx, hy, (if Nat.even (fst m) then Ci * RtoC (gk_len d g) * dw z else RtoC 0),
    (if Nat.even (fst m) then RtoC 0 else - (RtoC 1 / RtoC omega) * (RtoC (gk_len d g) * dw z)).
  split; auto. split; auto. split; [|split; [|split; [|split; [|rewrite D; auto]]]].
  - destruct (Nat.even (fst m)) eqn:Ev.
    + eapply is_cderive_ext; [|apply is_cderive_scal, w_derive]. intros t. rewrite H_form, Ev. reflexivity.
    + eapply is_cderive_ext; [|apply is_cderive_zero]. intros t. rewrite H_form, Ev. reflexivity.
  - destruct (Nat.even (fst m)) eqn:Ev.
    + eapply is_cderive_ext; [|apply is_cderive_zero]. intros t. rewrite D_form, Ev by auto. reflexivity.
    + eapply is_cderive_ext; [|apply is_cderive_scal, is_cderive_scal, w_derive]. intros t. rewrite D_form, Ev by auto. reflexivity.
  - rewrite H_form, PX, PY, !RtoC_mult. destruct (Nat.even (fst m)); unfold cx, cy, cz; cbn [fst snd].
    + transitivity (Ci * RtoC (gk_len d g) * dw z * (1 - (RtoC (pkx d g) * RtoC (pkx d g) + RtoC (pky d g) * RtoC (pky d g)))); [|rewrite PU]; ring.
    + ring.
  - rewrite D_form, PX, PY, !RtoC_mult by auto. destruct (Nat.even (fst m)); unfold cx, cy, cz; cbn [fst snd].
    + ring.
    + unfold Cdiv. transitivity (- (Ci * Ci) * / RtoC omega * RtoC (gk_len d g) * dw z * (RtoC (pkx d g) * RtoC (pkx d g) + RtoC (pky d g) * RtoC (pky d g)) - / RtoC omega * RtoC (gk_len d g) * dw z); [ring|]. rewrite PU, Ci_sq. ring.
Qed.
End One.

(** ** superposition *)
Lemma maxwell_zero kx ky om z : maxwell kx ky om (fun _ => RtoC 0) (fun _ => RtoC 0) (fun _ => RtoC 0) (fun _ => RtoC 0) (fun _ => RtoC 0) (fun _ => RtoC 0) z.
Proof. exists 0, 0, 0, 0. repeat (split; [apply is_cderive_zero|]). repeat split; ring. Qed.
Lemma maxwell_scal kx ky om Hx Hy Hz Dx Dy Dz z (s : C) : maxwell kx ky om Hx Hy Hz Dx Dy Dz z ->
  maxwell kx ky om (fun t => s * Hx t) (fun t => s * Hy t) (fun t => s * Hz t) (fun t => s * Dx t) (fun t => s * Dy t) (fun t => s * Dz t) z.
Proof.
  intros [hx [hy [hz [dz [E1 [E2 [E3 [E4 [F1 [F2 [F3 [F4 F5]]]]]]]]]]]].
  exists (s * hx), (s * hy), (s * hz), (s * dz). repeat (split; [apply is_cderive_scal; assumption|]).
  split; [transitivity (s * (Ci * RtoC kx * Hx z + Ci * RtoC ky * Hy z + hz)); [ring|rewrite F1; ring]|].
  split; [transitivity (s * (Ci * RtoC kx * Dx z + Ci * RtoC ky * Dy z + dz)); [ring|rewrite F2; ring]|].
  split; [rewrite F3|split; [rewrite F4|rewrite F5]]; unfold Cdiv; ring.
Qed.
Lemma maxwell_plus kx ky om Hx Hy Hz Dx Dy Dz Hx' Hy' Hz' Dx' Dy' Dz' z :
  maxwell kx ky om Hx Hy Hz Dx Dy Dz z -> maxwell kx ky om Hx' Hy' Hz' Dx' Dy' Dz' z ->
  maxwell kx ky om (fun t => Hx t + Hx' t) (fun t => Hy t + Hy' t) (fun t => Hz t + Hz' t) (fun t => Dx t + Dx' t) (fun t => Dy t + Dy' t) (fun t => Dz t + Dz' t) z.
Proof.
  intros [hx [hy [hz [dz [E1 [E2 [E3 [E4 [F1 [F2 [F3 [F4 F5]]]]]]]]]]]] [hx' [hy' [hz' [dz' [E1' [E2' [E3' [E4' [F1' [F2' [F3' [F4' F5']]]]]]]]]]]].
  exists (hx + hx'), (hy + hy'), (hz + hz'), (dz + dz'). repeat (split; [apply is_cderive_plus; assumption|]).
  split; [transitivity ((Ci * RtoC kx * Hx z + Ci * RtoC ky * Hy z + hz) + (Ci * RtoC kx * Hx' z + Ci * RtoC ky * Hy' z + hz')); [ring|rewrite F1, F1'; ring]|].
  split; [transitivity ((Ci * RtoC kx * Dx z + Ci * RtoC ky * Dy z + dz) + (Ci * RtoC kx * Dx' z + Ci * RtoC ky * Dy' z + dz')); [ring|rewrite F2, F2'; ring]|].
  split; [rewrite F3, F3'|split; [rewrite F4, F4'|rewrite F5, F5']]; unfold Cdiv; ring.
Qed.
Lemma maxwell_ext kx ky om Hx Hy Hz Dx Dy Dz Hx' Hy' Hz' Dx' Dy' Dz' z :
  locally z (fun t => Hx t = Hx' t /\ Hy t = Hy' t /\ Hz t = Hz' t /\ Dx t = Dx' t /\ Dy t = Dy' t /\ Dz t = Dz' t) ->
  maxwell kx ky om Hx Hy Hz Dx Dy Dz z -> maxwell kx ky om Hx' Hy' Hz' Dx' Dy' Dz' z.
Proof.
  intros L [hx [hy [hz [dz [E1 [E2 [E3 [E4 [F1 [F2 [F3 [F4 F5]]]]]]]]]]]].
  pose proof (locally_singleton _ _ L) as (A1 & A2 & A3 & A4 & A5 & A6). cbv beta in *.
  exists hx, hy, hz, dz. rewrite <- A1, <- A2, <- A3, <- A4, <- A5, <- A6.
  split; [eapply is_cderive_loc; [|exact E1]; eapply filter_imp; [|exact L]; cbv beta; tauto|].
  split; [eapply is_cderive_loc; [|exact E2]; eapply filter_imp; [|exact L]; cbv beta; tauto|].
  split; [eapply is_cderive_loc; [|exact E3]; eapply filter_imp; [|exact L]; cbv beta; tauto|].
  split; [eapply is_cderive_loc; [|exact E4]; eapply filter_imp; [|exact L]; cbv beta; tauto|].
  repeat split; auto.
Qed.

(** ** extend and the sum over modes *)
Lemma extend_pick inds n : (exists r, (r < List.length inds)%nat /\ nth r inds 0%nat = n /\ forall vals, extend vals inds n = vals r) \/ (forall vals, extend vals inds n = 0).
Proof.
  unfold extend.
  assert (G : forall l, (forall r, In r l -> (r < List.length inds)%nat) ->
    (exists r, (r < List.length inds)%nat /\ nth r inds 0%nat = n /\ forall (vals : nat -> C) acc, fold_left (fun acc r => if Nat.eqb (nth r inds 0%nat) n then vals r else acc) l acc = vals r) \/
    (forall (vals : nat -> C) acc, fold_left (fun acc r => if Nat.eqb (nth r inds 0%nat) n then vals r else acc) l acc = acc)).
  { induction l as [|r l IH]; intros Hl; [right; auto|].
    destruct IH as [[q [Q1 [Q2 Q3]]]|IH]; [intros; apply Hl; right; auto| |].
    - left. exists q. split; auto. split; auto. intros. simpl. apply Q3.
    - destruct (Nat.eqb_spec (nth r inds 0%nat) n) as [E|E].
      + left. exists r. split; [apply Hl; left; auto|]. split; auto. intros. cbn [fold_left]. rewrite IH. apply Nat.eqb_eq in E. rewrite E. auto.
      + right. intros. cbn [fold_left]. rewrite IH. apply Nat.eqb_neq in E. rewrite E. auto. }
  destruct (G (seq 0 (List.length inds))) as [[r [R1 [R2 R3]]]|R].
  - intros r. rewrite in_seq. lia.
  - left. exists r. auto.
  - right. auto.
Qed.
Lemma ft_modes_acc val evec area : forall ms count acc n,
  ft_modes val evec area count ms acc n = acc n + ft_modes val evec area count ms (fun _ => 0) n.
Proof.
  induction ms as [|m ms IH]; intros count acc n; cbn [ft_modes]; [ring|].
  rewrite IH. rewrite (IH _ (fun n => 0 + _)). ring.
Qed.

Section All.
Variables (P : phc) (eps : list R) (d : gkdata) (omega : R) (evec : nat -> C) (n lind : nat).
Hypothesis Ho : omega <> 0%R.
Hypothesis Hg : gk_len d n = sqrt (gk_x d n * gk_x d n + gk_y d n * gk_y d n).
Hypothesis Hg0 : (gk_x d n * gk_x d n + gk_y d n * gk_y d n <> 0)%R.
Definition good (m : nat * gmode) : Prop := forall il i, md_chi (snd m) il i * md_chi (snd m) il i =
  RtoC (nth il eps 0%R * (md_om (snd m) i * md_om (snd m) i) - gk_len d (md_g (snd m) i) * gk_len d (md_g (snd m) i)).
Let area := lt_ec_area (pc_lattice P).
Let fld (b : nat * gmode -> nat -> nat -> R -> C * C * C) (pr : C * C * C -> C) count ms z :=
  ft_modes (fun m i => pr (b m i lind z)) evec area count ms (fun _ => 0) n.
Let bH := basis_H P eps d.
Let bD := basis_D P eps d omega.

Lemma fld_cons b pr count m ms z : fld b pr count (m :: ms) z =
  extend (fun r => evec (count + r)%nat * pr (b m r lind z) / RtoC (sqrt area)) (md_ind (snd m)) n + fld b pr (count + md_size (snd m)) ms z.
Proof. unfold fld. cbn [ft_modes]. rewrite ft_modes_acc. ring. Qed.

Lemma maxwell_all z : forall ms count, Forall good ms ->
  maxwell (gk_x d n) (gk_y d n) omega (fld bH cx count ms) (fld bH cy count ms) (fld bH cz count ms)
    (fld bD cx count ms) (fld bD cy count ms) (fld bD cz count ms) z.
Proof.
  induction ms as [|m ms IH]; intros count F.
  - unfold fld. cbn [ft_modes]. apply maxwell_zero.
  - inversion F as [|? ? G F']; subst. specialize (IH (count + md_size (snd m))%nat F').
    set (ex := fun (b : nat * gmode -> nat -> nat -> R -> C * C * C) (pr : C * C * C -> C) (t : R) =>
      extend (fun r => evec (count + r)%nat * pr (b m r lind t) / RtoC (sqrt area)) (md_ind (snd m)) n).
    apply (maxwell_ext (gk_x d n) (gk_y d n) omega
      (fun t => ex bH cx t + fld bH cx (count + md_size (snd m)) ms t) (fun t => ex bH cy t + fld bH cy (count + md_size (snd m)) ms t)
      (fun t => ex bH cz t + fld bH cz (count + md_size (snd m)) ms t) (fun t => ex bD cx t + fld bD cx (count + md_size (snd m)) ms t)
      (fun t => ex bD cy t + fld bD cy (count + md_size (snd m)) ms t) (fun t => ex bD cz t + fld bD cz (count + md_size (snd m)) ms t)).
    { apply filter_forall. intros t. repeat split; symmetry; apply fld_cons. }
    apply maxwell_plus; [|exact IH]. unfold ex.
    destruct (extend_pick (md_ind (snd m)) n) as [[r [R1 [R2 R3]]]|R].
    + pose proof (maxwell_basis P eps d omega m r lind) as MB. unfold md_g in MB. rewrite R2 in MB.
      specialize (MB Hg Hg0). specialize (MB ltac:(rewrite G; unfold md_g; rewrite R2; reflexivity) z Ho).
      eapply maxwell_ext; [|exact (maxwell_scal _ _ _ _ _ _ _ _ _ _ (evec (count + r)%nat / RtoC (sqrt area)) MB)].
      apply filter_forall. intros t. repeat split; rewrite R3; unfold Cdiv; unfold bH, bD; ring.
    + eapply maxwell_ext; [|apply maxwell_zero]. apply filter_forall. intros t. repeat split; rewrite R; reflexivity.
Qed.
End All.

(** ** the layer index is locally constant off the interfaces *)
Lemma lt_loc a z : z <> a -> locally z (fun t => Rltb a t = Rltb a z).
Proof.
  intros N. destruct (Rltb a z) eqn:E.
  - apply Rltb_true in E. exists (mkposreal (z - a) ltac:(lra)). intros t Ht. unfold ball in Ht. simpl in Ht. unfold AbsRing_ball, abs, minus, plus, opp in Ht. simpl in Ht.
    apply Rabs_def2 in Ht. apply Rltb_true. lra.
  - apply Rltb_false in E. exists (mkposreal (a - z) ltac:(lra)). intros t Ht. unfold ball in Ht. simpl in Ht. unfold AbsRing_ball, abs, minus, plus, opp in Ht. simpl in Ht.
    apply Rabs_def2 in Ht. apply Rltb_false. lra.
Qed.
Lemma z_loop_loc z : forall rest zm lind, z <> zm -> List.Forall (fun ly => z <> ly_zmax ly) rest ->
  locally z (fun t => fst (z_loop t zm lind rest) = fst (z_loop z zm lind rest) /\ snd (z_loop t zm lind rest) = snd (z_loop z zm lind rest)) /\ z <> snd (z_loop z zm lind rest).
Proof.
  induction rest as [|ly rest IH]; intros zm lind N F.
  - split.
    + apply filter_forall. intros t. cbn [z_loop]. destruct (Rltb zm t), (Rltb zm z); auto.
    + cbn [z_loop]. destruct (Rltb zm z); auto.
  - inversion F; subst. destruct (IH (ly_zmax ly) (Datatypes.S lind)) as [L1 L2]; auto. split.
    + pose proof (filter_and _ _ (lt_loc zm z N) L1) as L. eapply filter_imp; [|exact L]. cbv beta. intros t [E1 E2].
      cbn [z_loop]. rewrite E1. destruct (Rltb zm z); auto.
    + cbn [z_loop]. destruct (Rltb zm z); auto.
Qed.
Lemma lind_loc P z : z <> ly_zmax (pc_clad_l P) -> List.Forall (fun ly => z <> ly_zmax ly) (pc_layers P) ->
  locally z (fun t => z_to_lind P t = z_to_lind P z).
Proof.
  intros H1 H2. destruct (z_loop_loc z (pc_layers P) (ly_zmax (pc_clad_l P)) 0 H1 H2) as [L1 L2].
  pose proof (filter_and _ _ L1 (lt_loc _ z L2)) as L. eapply filter_imp; [|exact L]. cbv beta. intros t [[E1 E2] E3].
  unfold z_to_lind. destruct (z_loop t _ _ _) as [l1 z1], (z_loop z _ _ _) as [l2 z2]. simpl in *. subst. rewrite E3. auto.
Qed.

Lemma guided_good gvec k dgx garr te tm eps m g : get_guided (List.length gvec) (gk_len (gk_data gvec k dgx)) garr te tm eps m = Ok g ->
  good eps (gk_data gvec k dgx) (m, g).
Proof.
  unfold get_guided. destruct (nth_error _ _) as [[oms cs]|]; [|discriminate].
  destruct (last_n _ garr) as [|g0 t]; [discriminate|]. injection 1 as <-.
  intros il i. cbn [snd md_chi md_om md_g md_ind]. apply chi_sq.
Qed.

Lemma field_maxwell P eps gvec k dgx garr te tm einv ms evec omega n z :
  omega <> 0%R ->
  let d := gk_data gvec k dgx in
  (gk_x d n * gk_x d n + gk_y d n * gk_y d n <> 0)%R ->
  List.Forall (fun x => get_guided (List.length gvec) (gk_len d) garr te tm eps (fst x) = Ok (snd x)) ms ->
  z <> ly_zmax (pc_clad_l P) -> List.Forall (fun ly => z <> ly_zmax ly) (pc_layers P) ->
  exists Hx Hy Hz Dx Dy Dz,
    (forall t, ft_field_xy P eps d (List.length gvec) einv ms evec omega "H" t = Some (Hx t, Hy t, Hz t)) /\
    (forall t, ft_field_xy P eps d (List.length gvec) einv ms evec omega "D" t = Some (Dx t, Dy t, Dz t)) /\
    maxwell (gk_x d n) (gk_y d n) omega (fun t => Hx t n) (fun t => Hy t n) (fun t => Hz t n)
      (fun t => Dx t n) (fun t => Dy t n) (fun t => Dz t n) z.
Proof.
  intros Ho d Hg0 F Z1 Z2. unfold ft_field_xy. cbn [lower lower_ascii String.eqb].
  do 6 eexists. split; [intros t; reflexivity|]. split; [intros t; reflexivity|].
  assert (G : Forall (good eps d) ms).
  { eapply Forall_impl; [|exact F]. intros [m g] E. simpl in E. eapply guided_good. exact E. }
  eapply maxwell_ext; [|exact (maxwell_all P eps d omega evec n (z_to_lind P z) Ho eq_refl Hg0 z ms 0%nat G)].
  eapply filter_imp; [|exact (lind_loc P z Z1 Z2)]. cbv beta. intros t E. rewrite E. repeat split.
Qed.
