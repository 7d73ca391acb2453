(** Normalisation of the modes returned by the search (C35). *)
From Verif Require Import Py CBase CInt SlabModel SlabSpec SlabProofs SlabProofs2 SlabProofs3 SlabProofs4 SlabProofs5 SlabProofs6.
From Coquelicot Require Import Hierarchy RInt Derive Lim_seq Continuity Rbar.
Open Scope string_scope.
Open Scope list_scope.
Open Scope R_scope.

Lemma sq_csqrt z : sq (csqrt z) = Cmod z.
Proof.
  unfold sq, csqrt. destruct z as [x y].
  assert (M : Rabs x <= Cmod (x, y)).
  { pose proof (Rmax_Cmod (x, y)) as H. simpl in H. eapply Rle_trans; [apply Rmax_l|exact H]. }
  assert (M2 : - Cmod (x, y) <= x <= Cmod (x, y)).
  { pose proof (Rle_abs x). pose proof (Rle_abs (- x)). rewrite Rabs_Ropp in *. lra. }
  cbn [fst snd] in *.
  repeat match goal with |- context [Rltb ?a ?b] => destruct (Rltb a b) end; cbn [fst snd];
    rewrite ?Rmult_opp_opp, ?sqrt_sqrt by lra; lra.
Qed.

Lemma sq_Cmod z : sq z = Cmod z * Cmod z.
Proof. unfold sq. rewrite Cmod_sq. ring. Qed.
Lemma sq_div a s : s <> RtoC 0 -> sq (a / s)%C = / sq s * sq a.
Proof.
  intros H. rewrite !sq_Cmod. unfold Cdiv. rewrite Cmod_mult, Cmod_inv by auto.
  field. apply Rgt_not_eq, Cmod_gt_0; auto.
Qed.
Lemma wave_div c A B s z : s <> RtoC 0 -> wave c (A / s)%C (B / s)%C z = (wave c A B z / s)%C.
Proof. intros H. unfold wave. field; auto. Qed.
Lemma dwave_div c A B s z : s <> RtoC 0 -> dwave c (A / s)%C (B / s)%C z = (dwave c A B z / s)%C.
Proof. intros H. unfold dwave. field; auto. Qed.
Lemma density_div te g c A B s z : s <> RtoC 0 ->
  energy_density te g c (A / s)%C (B / s)%C z = / sq s * energy_density te g c A B z.
Proof.
  intros H. unfold energy_density. rewrite wave_div, dwave_div, !sq_div by auto. destruct te; ring.
Qed.
Lemma majorant_div te g c A B s z : s <> RtoC 0 ->
  majorant te g c (A / s)%C (B / s)%C z = / sq s * majorant te g c A B z.
Proof.
  intros H. unfold majorant. rewrite (sq_Cmod s). unfold Cdiv. rewrite !Cmod_mult, !Cmod_inv by auto.
  field. apply Rgt_not_eq, Cmod_gt_0; auto.
Qed.
Lemma tail_scal f v k : is_tail_int f v -> is_tail_int (fun z => k * f z) (k * v).
Proof.
  intros [H1 H2]. split.
  - intros L. apply (ex_RInt_scal (V := R_NormedModule) f 0 L k). auto.
  - apply (is_lim_ext (fun L => k * RInt f 0 L)).
    + intros L. symmetry. apply (RInt_scal (V := R_CompleteNormedModule) f 0 L k). auto.
    + apply (is_lim_scal_l (fun L => RInt f 0 L) k p_infty v). auto.
Qed.
Lemma tail_ext f h v : (forall z, f z = h z) -> is_tail_int f v -> is_tail_int h v.
Proof.
  intros E [H1 H2]. split.
  - intros L. apply (ex_RInt_ext f); auto.
  - apply (is_lim_ext (fun L => RInt f 0 L)); auto. intros L. apply RInt_ext. auto.
Qed.

Definition divs (s : C) (ab : C * C) : C * C := (fst ab / s, snd ab / s)%C.
Lemma layers_scal te g s cs ABs ds E K : s <> RtoC 0 ->
  layers_energy te g cs ABs ds E K ->
  layers_energy te g cs (map (divs s) ABs) ds (/ sq s * E) (/ sq s * K).
Proof.
  intros Hs H. induction H as [|c A B d cs ABs ds E K E1 K1 H1 H2 H3 IH].
  - rewrite Rmult_0_r. constructor.
  - simpl map. unfold divs at 1. cbn [fst snd].
    replace (/ sq s * (E1 + E)) with (/ sq s * E1 + / sq s * E) by ring.
    replace (/ sq s * (d / 2 * K1 + K)) with (d / 2 * (/ sq s * K1) + / sq s * K) by ring.
    constructor; auto.
    + apply (is_RInt_ext (fun z => / sq s * energy_density te g c A B z)).
      { intros z _. symmetry. apply density_div; auto. }
      apply (is_RInt_scal (V := R_NormedModule) (energy_density te g c A B) _ _ (/ sq s) E1). auto.
    + apply (is_RInt_ext (fun z => / sq s * majorant te g c A B z)).
      { intros z _. symmetry. apply majorant_div; auto. }
      apply (is_RInt_scal (V := R_NormedModule) (majorant te g c A B) _ _ (/ sq s) K1). auto.
Qed.
Lemma mode_scal te g s c0 B0 cs ABs cl Al ds E K : s <> RtoC 0 -> snd c0 <> 0 -> snd cl <> 0 ->
  mode_energy te g c0 B0 cs ABs cl Al ds E K ->
  mode_energy te g c0 (B0 / s)%C cs (map (divs s) ABs) cl (Al / s)%C ds (/ sq s * E) (/ sq s * K).
Proof.
  intros Hs Z0 Zl [E0 [El [Ei [Ki [H1 [H2 [H3 [-> ->]]]]]]]].
  exists (/ sq s * E0), (/ sq s * El), (/ sq s * Ei), (/ sq s * Ki).
  assert (D0 : (RtoC 0 / s = RtoC 0)%C) by (field; auto).
  split; [|split; [|split; [|split]]].
  - apply (tail_ext (fun z => / sq s * energy_density te g c0 0 B0 (- z))); [|apply tail_scal; auto].
    intros z. rewrite <- density_div by auto. rewrite D0. reflexivity.
  - apply (tail_ext (fun z => / sq s * energy_density te g cl Al 0 z)); [|apply tail_scal; auto].
    intros z. rewrite <- density_div by auto. rewrite D0. reflexivity.
  - apply layers_scal; auto.
  - ring.
  - unfold Rdiv. ring.
Qed.

Lemma mapM_in {A B} (f : A -> result B) l r : mapM f l = Ok r -> forall y, In y r -> exists x, In x l /\ f x = Ok y.
Proof.
  revert r. induction l as [|a l IH]; intros r E; cbn [mapM] in E.
  - injection E as <-. intros y [].
  - destruct (f a) eqn:Ea; [|discriminate]. cbn [bind] in E.
    destruct (mapM f l) eqn:El; [|discriminate]. cbn [bind] in E. injection E as <-.
    intros y [<-|Hy]; [exists a; split; simpl; auto|].
    destruct (IH _ eq_refl y Hy) as [x [H1 H2]]. exists x. split; simpl; auto.
Qed.
Lemma combine_fst_snd {A B} (l : list (A * B)) : combine (map fst l) (map snd l) = l.
Proof. induction l as [|[a b] l IH]; simpl; congruence. Qed.

(** every mode the search returns has unit energy, up to the regulariser *)
Lemma returned_energy root te g e0 el ei ds n lb ub step tol oms cs w co :
  List.length ds = List.length ei -> ei <> nil -> List.Forall (fun d => 0 < d) ds ->
  guided_mode_given_g root (pol_exact te) g (e0 :: ei ++ (el :: nil)) ds n lb ub step tol = Ok (oms, cs) ->
  In (w, co) (combine oms cs) ->
  e0 * (w * w) < g * g -> el * (w * w) < g * g ->
  List.Forall (fun e => 2 * fst (chi w g e) <> reg) ei ->
  exists B0 mid Al Bl, co = (RtoC 0, B0) :: mid ++ ((Al, Bl) :: nil) /\ List.length mid = List.length ei /\
    (B0 <> RtoC 0 -> exists E K,
      mode_energy te g (chi w g e0) B0 (map (chi w g) ei) mid (chi w g el) Al ds E K /\ 0 < E /\
      Rabs (E - 1) <= reg * K).
Proof.
  intros Hl Hne Hd H Hin W0 Wl HF.
  set (eps := e0 :: ei ++ (el :: nil)) in *.
  assert (Hlen : (List.length ds + 2 = List.length eps)%nat) by (unfold eps; simpl; rewrite app_length; simpl; lia).
  assert (Hdn : ds <> nil) by (intros ->; destruct ei; [congruence|discriminate]).
  unfold guided_mode_given_g in H.
  match type of H with bind ?X _ = _ => destruct X as [lb'|] eqn:E1; [|discriminate] end. cbn [bind] in H.
  match type of H with bind ?X _ = _ => destruct X as [zs|] eqn:E2; [|discriminate] end. cbn [bind] in H.
  match type of H with bind ?X _ = _ => destruct X as [sols|] eqn:E3; [|discriminate] end. cbn [bind] in H.
  injection H as <- <-. rewrite combine_fst_snd in Hin.
  destruct (mapM_in _ _ _ E3 _ Hin) as [br [_ Hs]].
  destruct (solve_ok root te g eps ds Hlen Hdn br) as [AB [N [EA [EN ES]]]].
  unfold pol_exact in Hs. rewrite ES in Hs. injection Hs as Hw Hco.
  rewrite Hw in EA, EN. clear ES Hw.
  destruct (AB_total (if te then "TE" else "TM") w g eps ds) as [AB' [EA' [LA HA]]]; [destruct te; reflexivity|auto|auto|].
  rewrite EA in EA'. injection EA' as <-.
  destruct AB as [|ab0 AB]; [unfold eps in LA; simpl in LA; discriminate|]. simpl in HA. subst ab0.
  destruct (exists_last (l := AB)) as [mid [[Al Bl] ->]].
  { intros ->. unfold eps in LA. simpl in LA. rewrite app_length in LA. simpl in LA. lia. }
  assert (Lm : List.length mid = List.length ei).
  { unfold eps in LA. simpl in LA. rewrite !app_length in LA. simpl in LA. lia. }
  pose proof (chi_evan w g e0 W0) as V0. pose proof (chi_evan w g el Wl) as Vl.
  assert (R0 : 0 < reg) by (unfold reg; apply Rinv_0_lt_compat, pow_lt; lra).
  destruct (norm_energy te g reg (chi w g e0) (map (chi w g) ei) (chi w g el) mid (RtoC 0) (RtoC 1) Al Bl eps ds R0 V0 Vl)
    as [N' [E [K [EN' [HE [P0 [P1 HN]]]]]]]; rewrite ?map_length; auto.
  { rewrite List.Forall_map. auto. }
  unfold chi_array, eps in EN. rewrite map_cons, map_app in EN. cbn [map] in EN. fold eps in EN.
  unfold pol_exact in EN'. rewrite EN in EN'. injection EN' as <-.
  set (s := csqrt N) in *.
  exists (RtoC 1 / s)%C, (map (divs s) mid), (Al / s)%C, (Bl / s)%C. split; [|split; [rewrite map_length; auto|]].
  - rewrite <- Hco. rewrite map_cons, map_app. cbn [map fst snd]. f_equal. f_equal.
    unfold Cdiv. ring.
  - intros HB.
    assert (Hs : s <> RtoC 0).
    { intros Z. apply HB. rewrite Z. unfold Cdiv. apply Ceq; simpl; unfold Rdiv; rewrite !Rmult_0_l, ?Rplus_0_l, ?Ropp_0, ?Rmult_0_l; ring. }
    assert (Hq : sq s = Cmod N) by apply sq_csqrt.
    assert (HP : 0 < sq s).
    { rewrite sq_Cmod. pose proof (proj1 (Cmod_gt_0 s) Hs). nra. }
    exists (/ sq s * E), (/ sq s * K).
    assert (C1 : RtoC 1 <> RtoC 0) by (apply RtoC_neq0; lra).
    assert (I : 0 < / sq s) by (apply Rinv_0_lt_compat; auto).
    split; [|split].
    + apply mode_scal; auto; [destruct V0|destruct Vl]; lra.
    + apply Rmult_lt_0_compat; auto.
    + replace (/ sq s * E - 1) with (/ sq s * (E - sq s)) by (field; lra).
      rewrite Rabs_mult, (Rabs_right (/ sq s)) by lra.
      replace (reg * (/ sq s * K)) with (/ sq s * (reg * K)) by ring.
      apply Rmult_le_compat_l; [lra|].
      eapply Rle_trans; [|exact HN].
      rewrite Hq, Rabs_minus_sym. 
      replace E with (Cmod (RtoC E)) at 1 by (rewrite Cmod_R; apply Rabs_right; lra).
      rewrite Rabs_minus_sym. apply Rabs_le. 
      pose proof (Cmod_triangle (N - RtoC E)%C (RtoC E)) as T1. pose proof (Cmod_triangle (RtoC E - N)%C N) as T2.
      replace (N - RtoC E + RtoC E)%C with N in T1 by ring. replace (RtoC E - N + N)%C with (RtoC E) in T2 by ring.
      replace (RtoC E - N)%C with (- (N - RtoC E))%C in T2 by ring. rewrite Cmod_opp in T2. lra.
Qed.
