(** Lemmas behind PhcProps.v, fourth part (C16, C17) *)
From Verif Require Import Py LatticeModel LatticeSpec LatticeProofs CBase PhcModel PhcSpec PhcProofs PhcProofs2 PhcProofs3.
Open Scope R_scope.

(** ** C16 *)
Lemma maxabs_nonneg l : 0 <= maxabs l.
Proof. induction l; simpl; [lra|]. eapply Rle_trans; [apply IHl|apply Rmax_r]. Qed.
Lemma maxabs_ge l x : In x l -> Rabs x <= maxabs l.
Proof.
  induction l as [|y l IH]; simpl; intros []; subst.
  - apply Rmax_l.
  - eapply Rle_trans; [apply IH; auto|apply Rmax_r].
Qed.
Lemma Int_part_le x : IZR (Int_part x) <= x < IZR (Int_part x) + 1.
Proof. pose proof (base_Int_part x). lra. Qed.
Lemma Int_part_unique x n : IZR n <= x < IZR n + 1 -> Int_part x = n.
Proof.
  intros H. pose proof (Int_part_le x) as H'.
  assert (A : IZR n < IZR (Int_part x + 1)) by (rewrite plus_IZR; lra).
  assert (B : IZR (Int_part x) < IZR (n + 1)) by (rewrite plus_IZR; lra).
  apply lt_IZR in A, B. lia.
Qed.

Definition nrm2 (v : R * R) := Rsqr (fst v) + Rsqr (snd v).
Lemma nrm2_nonneg v : 0 <= nrm2 v.
Proof. unfold nrm2. pose proof (Rle_0_sqr (fst v)). pose proof (Rle_0_sqr (snd v)). lra. Qed.
Lemma cauchy p v : Rabs (fst p * fst v + snd p * snd v) <= sqrt (nrm2 p) * sqrt (nrm2 v).
Proof.
  rewrite <- sqrt_mult by apply nrm2_nonneg. rewrite <- sqrt_Rsqr_abs. apply sqrt_le_1_alt.
  unfold nrm2, Rsqr. destruct p as [a b], v as [c d]; simpl.
  pose proof (Rle_0_sqr (a * d - b * c)) as H. unfold Rsqr in H. nra.
Qed.

Lemma image_index_bound p v ap n w : 0 < ap -> ap <= sqrt (nrm2 v) ->
  w = fst p * fst v + snd p * snd v + IZR n * nrm2 v -> Rabs w < nrm2 v ->
  Rabs (IZR n) < sqrt (nrm2 p) / ap + 1.
Proof.
  intros Hap Hv Ew Hw. pose proof (cauchy p v) as Hc.
  assert (Hs : 0 < sqrt (nrm2 v)) by lra.
  assert (Hsq : sqrt (nrm2 v) * sqrt (nrm2 v) = nrm2 v) by (apply sqrt_sqrt, nrm2_nonneg).
  assert (H1 : Rabs (IZR n) * nrm2 v < sqrt (nrm2 p) * sqrt (nrm2 v) + nrm2 v).
  { assert (IZR n * nrm2 v = w - (fst p * fst v + snd p * snd v)) by lra.
    rewrite <- (Rabs_pos_eq (nrm2 v)) at 1 by apply nrm2_nonneg. rewrite <- Rabs_mult, H.
    eapply Rle_lt_trans; [apply Rabs_triang|]. rewrite Rabs_Ropp. lra. }
  assert (H2 : Rabs (IZR n) < sqrt (nrm2 p) / sqrt (nrm2 v) + 1).
  { apply (Rmult_lt_reg_r (nrm2 v)); [nra|]. rewrite <- Hsq at 3.
    replace ((sqrt (nrm2 p) / sqrt (nrm2 v) + 1) * (sqrt (nrm2 v) * sqrt (nrm2 v))) with
      (sqrt (nrm2 p) * sqrt (nrm2 v) + sqrt (nrm2 v) * sqrt (nrm2 v)) by (field; lra).
    rewrite Hsq. exact H1. }
  assert (sqrt (nrm2 p) / sqrt (nrm2 v) <= sqrt (nrm2 p) / ap); [|lra].
  apply Rmult_le_compat_l; [apply sqrt_pos|]. apply Rinv_le_contravar; auto.
Qed.

Lemma nmax_covers L pts s p : In p pts ->
  independent (lt_a1 L) (lt_a2 L) -> inner (lt_a1 L) (lt_a2 L) = 0 ->
  within_one_period L s -> (covers L (nmax_of L pts) s p <-> covers_any L s p).
Proof.
  intros Hin Hind Horth Hw. split; [intros H; exists (nmax_of L pts); auto|].
  intros (N & n1 & n2 & _ & _ & H). exists n1, n2.
  assert (Ha1 : 0 < sqrt (nrm2 (lt_a1 L))).
  { apply sqrt_lt_R0. unfold nrm2. unfold independent, det in Hind.
    destruct (Req_dec (fst (lt_a1 L)) 0) as [E1|E1], (Req_dec (snd (lt_a1 L)) 0) as [E2|E2].
    - exfalso; apply Hind; rewrite E1, E2; ring.
    - pose proof (Rsqr_pos_lt _ E2). pose proof (Rle_0_sqr (fst (lt_a1 L))). lra.
    - pose proof (Rsqr_pos_lt _ E1). pose proof (Rle_0_sqr (snd (lt_a1 L))). lra.
    - pose proof (Rsqr_pos_lt _ E1). pose proof (Rle_0_sqr (snd (lt_a1 L))). lra. }
  assert (Ha2 : 0 < sqrt (nrm2 (lt_a2 L))).
  { apply sqrt_lt_R0. unfold nrm2. unfold independent, det in Hind.
    destruct (Req_dec (fst (lt_a2 L)) 0) as [E1|E1], (Req_dec (snd (lt_a2 L)) 0) as [E2|E2].
    - exfalso; apply Hind; rewrite E1, E2; ring.
    - pose proof (Rsqr_pos_lt _ E2). pose proof (Rle_0_sqr (fst (lt_a2 L))). lra.
    - pose proof (Rsqr_pos_lt _ E1). pose proof (Rle_0_sqr (snd (lt_a2 L))). lra.
    - pose proof (Rsqr_pos_lt _ E1). pose proof (Rle_0_sqr (snd (lt_a2 L))). lra. }
  set (ap := Rmin (sqrt (nrm2 (lt_a1 L))) (sqrt (nrm2 (lt_a2 L)))).
  assert (Hap : 0 < ap) by (unfold ap; apply Rmin_glb_lt; auto).
  set (M := sqrt (Rsqr (maxabs (map fst pts)) + Rsqr (maxabs (map snd pts)))).
  assert (HM : sqrt (nrm2 p) <= M).
  { apply sqrt_le_1_alt. unfold nrm2. apply Rplus_le_compat; apply Rsqr_le_abs_1;
    rewrite (Rabs_pos_eq (maxabs _)) by apply maxabs_nonneg; apply maxabs_ge, in_map; auto. }
  assert (Hn : nmax_of L pts = (Int_part (M / ap) + 1)%Z) by reflexivity.
  destruct (Hw _ _ H) as [W1 W2]. unfold inner in Horth.
  assert (B : forall n, Rabs (IZR n) < sqrt (nrm2 p) / ap + 1 -> (- nmax_of L pts <= n <= nmax_of L pts)%Z).
  { intros n Hb. assert (Hq : sqrt (nrm2 p) / ap <= M / ap).
    { apply Rmult_le_compat_r; auto. left; apply Rinv_0_lt_compat; auto. }
    pose proof (Int_part_le (M / ap)) as HI. rewrite Hn.
    assert (Hlt : IZR (Z.abs n) < IZR (Int_part (M / ap) + 2)).
    { rewrite plus_IZR. rewrite abs_IZR. lra. }
    apply lt_IZR in Hlt. lia. }
  split; [|split; [|auto]]; apply B.
  - apply (image_index_bound p (lt_a1 L) ap n1
      ((fst p + IZR n1 * fst (lt_a1 L) + IZR n2 * fst (lt_a2 L)) * fst (lt_a1 L) +
       (snd p + IZR n1 * snd (lt_a1 L) + IZR n2 * snd (lt_a2 L)) * snd (lt_a1 L))); auto.
    + apply Rmin_l.
    + unfold nrm2, Rsqr.
      match goal with |- _ = ?r => transitivity (r + IZR n2 * (fst (lt_a1 L) * fst (lt_a2 L) + snd (lt_a1 L) * snd (lt_a2 L))) end;
      [ring|rewrite Horth; ring].
  - apply (image_index_bound p (lt_a2 L) ap n2
      ((fst p + IZR n1 * fst (lt_a1 L) + IZR n2 * fst (lt_a2 L)) * fst (lt_a2 L) +
       (snd p + IZR n1 * snd (lt_a1 L) + IZR n2 * snd (lt_a2 L)) * snd (lt_a2 L))); auto.
    + apply Rmin_r.
    + unfold nrm2, Rsqr.
      match goal with |- _ = ?r => transitivity (r + IZR n1 * (fst (lt_a1 L) * fst (lt_a2 L) + snd (lt_a1 L) * snd (lt_a2 L))) end;
      [ring|rewrite Horth; ring].
Qed.

Lemma covers_shift L s p m n :
  covers_any L s (fst p + fst (comb m n (lt_a1 L) (lt_a2 L)), snd p + snd (comb m n (lt_a1 L) (lt_a2 L)))
  <-> covers_any L s p.
Proof.
  unfold covers_any, covers, comb; simpl. split.
  - intros (N & n1 & n2 & _ & _ & H). exists (Z.abs (n1 + m) + Z.abs (n2 + n))%Z, (n1 + m)%Z, (n2 + n)%Z.
    split; [lia|]. split; [lia|]. rewrite !plus_IZR.
    match goal with |- sh_inside s ?x ?y = true => match type of H with sh_inside s ?x' ?y' = true =>
      replace x with x' by ring; replace y with y' by ring; auto end end.
  - intros (N & n1 & n2 & _ & _ & H). exists (Z.abs (n1 - m) + Z.abs (n2 - n))%Z, (n1 - m)%Z, (n2 - n)%Z.
    split; [lia|]. split; [lia|]. rewrite !minus_IZR.
    match goal with |- sh_inside s ?x ?y = true => match type of H with sh_inside s ?x' ?y' = true =>
      replace x with x' by ring; replace y with y' by ring; auto end end.
Qed.

Lemma orth_value L ly pts vs j p v :
  independent (lt_a1 L) (lt_a2 L) -> inner (lt_a1 L) (lt_a2 L) = 0 ->
  (forall s, In s (ly_shapes ly) -> within_one_period L s) ->
  layer_get_eps L ly pts = Ok vs -> nth_error pts j = Some p -> nth_error vs j = Some v ->
  last_wins (fun s => covers_any L s p) (ly_epsb ly) (ly_shapes ly) v.
Proof.
  intros Hi Ho Hs H Hp Hv. pose proof (layer_value L ly pts vs j p v H Hp Hv) as Hl.
  eapply last_wins_ext; [|exact Hl]. intros s Hin. apply nmax_covers; auto.
  eapply nth_error_In; eauto.
Qed.

Lemma orth_periodic L ly pts pts' vs vs' j j' p p' v v' m n :
  independent (lt_a1 L) (lt_a2 L) -> inner (lt_a1 L) (lt_a2 L) = 0 ->
  (forall s, In s (ly_shapes ly) -> within_one_period L s) ->
  layer_get_eps L ly pts = Ok vs -> nth_error pts j = Some p -> nth_error vs j = Some v ->
  layer_get_eps L ly pts' = Ok vs' -> nth_error pts' j' = Some p' -> nth_error vs' j' = Some v' ->
  p' = (fst p + fst (comb m n (lt_a1 L) (lt_a2 L)), snd p + snd (comb m n (lt_a1 L) (lt_a2 L))) ->
  v' = v.
Proof.
  intros Hi Ho Hs H Hp Hv H' Hp' Hv' E.
  pose proof (orth_value L ly pts vs j p v Hi Ho Hs H Hp Hv) as A.
  pose proof (orth_value L ly pts' vs' j' p' v' Hi Ho Hs H' Hp' Hv') as B. subst p'.
  eapply last_wins_fun; [|exact A].
  eapply last_wins_ext; [|exact B]. intros s _. cbn beta. apply covers_shift.
Qed.

Lemma single_shape_value L s eb N p v :
  (v = sh_eps s /\ covers L N s p) \/ (v = eb /\ ~ covers L N s p) ->
  forall zmin zmax zm d ea, eps_at L (mkLayer zmin zmax zm d eb ea [s]) N p = v.
Proof.
  intros H zmin zmax zm d ea. rewrite eps_at_eq. simpl.
  destruct (coverb L N s p) eqn:E.
  - apply coverb_iff in E. destruct H as [[-> _]|[_ H]]; tauto.
  - destruct H as [[-> H]|[-> _]]; auto. apply coverb_iff in H. congruence.
Qed.

Lemma disc_inside ft e xc yc r x y : sh_inside (disc ft e xc yc r) x y = true <->
  Rsqr (x - xc) + Rsqr (y - yc) <= Rsqr r.
Proof. unfold disc; simpl. destruct (Rle_dec _ _); split; intros; auto; try discriminate; contradiction. Qed.

Lemma pointwise_refuted : exists L, lattice_init (LatName "square") = Ok L /\
  forall ft, exists ly p q vs ws,
   ly = fst (layer_add_shape (lt_ec_area L) (shapes_layer 0 1 12) (ShOne (disc ft 1 2 0 (1/5)))) /\
   layer_get_eps L ly [p] = Ok vs /\ layer_get_eps L ly [p; q] = Ok ws /\
   nth_error vs 0 = Some 12 /\ nth_error ws 0 = Some 1.
Proof.
  eexists; split; [reflexivity|]. intros ft.
  eexists. exists (0, 0), (5, 0). do 2 eexists. split; [reflexivity|].
  split; [reflexivity|]. split; [reflexivity|]. cbn [map nth_error].
  assert (S1 : sqrt (Rsqr 1 + Rsqr 0) = 1).
  { replace (Rsqr 1 + Rsqr 0) with 1 by (unfold Rsqr; ring). apply sqrt_1. }
  assert (S2 : sqrt (Rsqr 0 + Rsqr 1) = 1).
  { replace (Rsqr 0 + Rsqr 1) with 1 by (unfold Rsqr; ring). apply sqrt_1. }
  split; f_equal; apply single_shape_value.
  - right. split; auto. unfold nmax_of; simpl. rewrite S1, S2.
    rewrite Rabs_R0, (Rmax_left 0 0) by lra.
    replace (Rsqr 0 + Rsqr 0) with 0 by (unfold Rsqr; ring). rewrite sqrt_0.
    rewrite (Int_part_unique _ 0) by (rewrite Rmin_left by lra; lra).
    intros (n1 & n2 & H1 & H2 & H). apply disc_inside in H. simpl in H.
    assert (IZR n1 <= 1) by (apply IZR_le; lia). unfold Rsqr in H.
    pose proof (Rle_0_sqr (0 + IZR n1 * 0 + IZR n2 * 1 - 0)) as Q. unfold Rsqr in Q. nra.
  - left. split; auto. unfold nmax_of; simpl. rewrite S1, S2.
    rewrite Rabs_R0, (Rabs_pos_eq 5) by lra.
    rewrite (Rmax_left 5 0), (Rmax_right 0 5), (Rmax_left 0 0) by lra.
    rewrite (Rmax_left 0 0) by lra.
    replace (Rsqr 5 + Rsqr 0) with (Rsqr 5) by (unfold Rsqr; ring). rewrite sqrt_Rsqr by lra.
    rewrite (Int_part_unique _ 5) by (rewrite Rmin_left by lra; lra).
    exists 2%Z, 0%Z. repeat split; try lia. apply disc_inside. simpl. unfold Rsqr; lra.
Qed.

Lemma periodic_refuted : exists L, lattice_init (LatName "hexagonal") = Ok L /\
  forall ft, exists ly vs ws,
   ly = fst (layer_add_shape (lt_ec_area L) (shapes_layer 0 1 12) (ShOne (disc ft 1 0 0 (1/5)))) /\
   layer_get_eps L ly [(0, 0)] = Ok vs /\
   layer_get_eps L ly [comb 20 10 (lt_a1 L) (lt_a2 L)] = Ok ws /\
   nth_error vs 0 = Some 1 /\ nth_error ws 0 = Some 12.
Proof.
  eexists; split; [reflexivity|]. intros ft.
  do 3 eexists. split; [reflexivity|].
  split; [reflexivity|]. split; [reflexivity|]. cbn [map nth_error].
  pose proof sqrt3_sq as S3.
  assert (S1 : sqrt (Rsqr (1/2) + Rsqr (sqrt 3 / 2)) = 1).
  { replace (Rsqr (1/2) + Rsqr (sqrt 3 / 2)) with 1 by (unfold Rsqr; lra). apply sqrt_1. }
  assert (S2 : sqrt (Rsqr (1/2) + Rsqr (- sqrt 3 / 2)) = 1).
  { replace (Rsqr (1/2) + Rsqr (- sqrt 3 / 2)) with 1 by (unfold Rsqr; lra). apply sqrt_1. }
  split; f_equal; apply single_shape_value.
  - left. split; auto. unfold nmax_of; simpl. rewrite S1, S2.
    rewrite Rabs_R0, (Rmax_left 0 0) by lra.
    replace (Rsqr 0 + Rsqr 0) with 0 by (unfold Rsqr; ring). rewrite sqrt_0.
    rewrite (Int_part_unique _ 0) by (rewrite Rmin_left by lra; lra).
    exists 0%Z, 0%Z. repeat split; try lia. apply disc_inside. simpl. unfold Rsqr; lra.
  - right. split; auto. unfold nmax_of; simpl. rewrite S1, S2.
    pose proof sqrt3_pos.
    replace (20 * (1 / 2) + 10 * (1 / 2)) with 15 by lra.
    replace (20 * (sqrt 3 / 2) + 10 * (- sqrt 3 / 2)) with (5 * sqrt 3) by lra.
    rewrite (Rabs_pos_eq 15), (Rabs_pos_eq (5 * sqrt 3)) by lra.
    rewrite (Rmax_left 15 0), (Rmax_left (5 * sqrt 3) 0) by lra.
    replace (Rsqr 15 + Rsqr (5 * sqrt 3)) with 300 by (unfold Rsqr; nra).
    assert (Hq : 17 <= sqrt 300 < 18).
    { split.
      - rewrite <- (sqrt_Rsqr 17) by lra. apply sqrt_le_1_alt. unfold Rsqr; lra.
      - rewrite <- (sqrt_Rsqr 18) by lra. apply sqrt_lt_1_alt. unfold Rsqr; lra. }
    rewrite (Int_part_unique _ 17) by (rewrite Rmin_left by lra; lra).
    intros (n1 & n2 & H1 & H2 & H0). apply disc_inside in H0. simpl in H0.
    assert (Hn1 : -18 <= IZR n1) by (apply IZR_le; lia).
    assert (E : Rsqr (15 + IZR n1 * (1 / 2) + IZR n2 * (1 / 2) - 0) +
                Rsqr (5 * sqrt 3 + IZR n1 * (sqrt 3 / 2) + IZR n2 * (- sqrt 3 / 2) - 0) =
       3 / 4 * ((20 + IZR n1) * (20 + IZR n1)) +
       ((10 + IZR n2) - (20 + IZR n1) / 2) * ((10 + IZR n2) - (20 + IZR n1) / 2)).
    { unfold Rsqr. replace (5 * sqrt 3 + IZR n1 * (sqrt 3 / 2) + IZR n2 * (- sqrt 3 / 2) - 0) with
        (sqrt 3 * ((10 + IZR n1 - IZR n2) / 2)) by field.
      replace (sqrt 3 * ((10 + IZR n1 - IZR n2) / 2) * (sqrt 3 * ((10 + IZR n1 - IZR n2) / 2))) with
       (sqrt 3 * sqrt 3 * ((10 + IZR n1 - IZR n2) / 2 * ((10 + IZR n1 - IZR n2) / 2))) by ring.
      rewrite S3. field. }
    replace (20 * (1 / 2) + 10 * (1 / 2)) with 15 in H0 by lra.
    replace (20 * (sqrt 3 / 2) + 10 * (- sqrt 3 / 2)) with (5 * sqrt 3) in H0 by lra.
    rewrite E in H0. unfold Rsqr in H0.
    pose proof (Rle_0_sqr ((10 + IZR n2) - (20 + IZR n1) / 2)) as Q. unfold Rsqr in Q.
    assert (4 <= (20 + IZR n1) * (20 + IZR n1)) by nra. lra.
Qed.

(** ** C17 *)
(** what the loop computes when no shift is triggered *)
Definition horner (area Vmax : R) (g : R * R) (ss : list shape) (acc : C) : C :=
  fold_left (fun acc s => Cdiv (Cplus acc (Cmult (RtoC Vmax) (sh_ft s g))) (RtoC area)) ss acc.

Lemma zip_with_map {A B D} (f : A -> B -> D) (h : A -> B) l : zip_with f l (map h l) = map (fun a => f a (h a)) l.
Proof. induction l; simpl; auto. rewrite IHl; auto. Qed.
Lemma first_zero_map (h : R * R -> C) gs : (exists g, In g gs /\ is_g0 g) ->
  exists g, In g gs /\ is_g0 g /\ first_zero gs (map h gs) = Some (h g).
Proof.
  induction gs as [|g gs IH]; intros (g0 & Hin & H0); simpl in *; [contradiction|].
  destruct (near_zero g) eqn:E.
  - exists g; repeat split; auto. apply near_zero_iff; auto.
  - destruct IH as (g1 & A & B & D).
    + exists g0; split; auto. destruct Hin as [<-|]; auto. apply near_zero_iff in H0; congruence.
    + exists g1; auto.
Qed.
Lemma c_lt0_nonneg z : 0 <= fst z -> snd z = 0 -> c_lt0 z = false.
Proof.
  intros H1 H2. unfold c_lt0. assert (Rltb (fst z) 0 = false) by (apply Rltb_false; auto).
  rewrite H, H2. simpl. assert (Rltb 0 0 = false) by (apply Rltb_false; lra). rewrite H0.
  apply andb_false_r.
Qed.
Definition nonneg_real (z : C) : Prop := 0 <= fst z /\ snd z = 0.
Lemma horner_nonneg_step area Vmax g s acc : 0 < area -> 0 < Vmax ->
  nonneg_real acc -> nonneg_real (sh_ft s g) ->
  nonneg_real (Cdiv (Cplus acc (Cmult (RtoC Vmax) (sh_ft s g))) (RtoC area)).
Proof.
  intros Ha Hv [A1 A2] [B1 B2]. unfold Cdiv. rewrite <- RtoC_inv by lra.
  unfold nonneg_real; simpl. rewrite A2, B2.
  assert (0 < / area) by (apply Rinv_0_lt_compat; auto). split; [|ring].
  match goal with |- 0 <= ?x => replace x with ((fst acc + Vmax * fst (sh_ft s g)) * / area) by ring end.
  apply Rmult_le_pos; [|lra]. assert (0 <= Vmax * fst (sh_ft s g)) by (apply Rmult_le_pos; lra). lra.
Qed.

Lemma exc_loop_horner area Vmax gs : 0 < area -> 0 < Vmax -> (exists g, In g gs /\ is_g0 g) ->
  forall ss (h : R * R -> C),
  (forall s g, In s ss -> In g gs -> is_g0 g -> nonneg_real (sh_ft s g)) ->
  (forall g, In g gs -> is_g0 g -> nonneg_real (h g)) ->
  exc_ft_loop area Vmax gs ss (map h gs) = Ok (map (fun g => horner area Vmax g ss (h g)) gs).
Proof.
  intros Ha Hv H0 ss; induction ss as [|s ss IH]; intros h Hs Hh; [reflexivity|].
  cbn [exc_ft_loop]. rewrite zip_with_map.
  set (h' := fun g => Cdiv (Cplus (h g) (Cmult (RtoC Vmax) (sh_ft s g))) (RtoC area)).
  destruct (first_zero_map h' gs H0) as (g & Hin & Hg & E). rewrite E.
  assert (Hh' : forall g, In g gs -> is_g0 g -> nonneg_real (h' g)).
  { intros g1 Hi1 Hg1. apply horner_nonneg_step; auto. apply Hs; auto; left; auto. }
  destruct (Hh' g Hin Hg) as [N1 N2]. rewrite (c_lt0_nonneg (h' g) N1 N2).
  rewrite (IH h'); auto. intros s' g' Hi'. apply Hs; right; auto.
Qed.

Lemma horner_unit Vmax g ss acc : horner 1 Vmax g ss acc =
  Cplus acc (Cmult (RtoC Vmax) (clsum (map (fun s => sh_ft s g) ss))).
Proof.
  unfold horner. revert acc; induction ss as [|s ss IH]; intros acc; simpl; [ring|].
  rewrite IH. field. apply RtoC_neq0; lra.
Qed.

Lemma exc_ft_unit_area area ly Vmax gs : area = 1 -> 0 < Vmax -> (exists g, In g gs /\ is_g0 g) ->
  (forall s g, In s (ly_shapes ly) -> In g gs -> is_g0 g -> 0 <= fst (sh_ft s g) /\ snd (sh_ft s g) = 0) ->
  layer_exc_ft area ly Vmax gs =
    Ok (map (fun g => Cdiv (Cmult (RtoC Vmax) (clsum (map (fun s => sh_ft s g) (ly_shapes ly)))) (RtoC area)) gs).
Proof.
  intros -> Hv H0 Hs. unfold layer_exc_ft. rewrite exc_loop_horner; auto; try lra.
  - f_equal. apply map_ext. intros g. rewrite horner_unit. field. apply RtoC_neq0; lra.
  - intros g _ _. unfold nonneg_real; simpl; lra.
Qed.
Lemma exc_ft_one_shape area ly s Vmax gs : 0 < area -> ly_shapes ly = [s] -> 0 < Vmax ->
  (exists g, In g gs /\ is_g0 g) ->
  (forall g, In g gs -> is_g0 g -> 0 <= fst (sh_ft s g) /\ snd (sh_ft s g) = 0) ->
  layer_exc_ft area ly Vmax gs = Ok (map (fun g => Cdiv (Cmult (RtoC Vmax) (sh_ft s g)) (RtoC area)) gs).
Proof.
  intros Ha E Hv H0 Hs. unfold layer_exc_ft. rewrite E, exc_loop_horner; auto.
  - f_equal. apply map_ext. intros g. unfold horner; simpl. f_equal. ring.
  - intros s' g' Hin; destruct Hin as [<-|[]]; intros; apply Hs; auto.
  - intros g Hg1 Hg2; unfold nonneg_real; simpl; lra.
Qed.

Lemma exc_ft_refuted : exists L ly s1 s2 Vmax,
  lattice_init (LatVecs (2, 0) (0, 1)) = Ok L /\ ly_shapes ly = [s1; s2] /\ 0 < Vmax /\
  sh_ft s1 (0,0) = RtoC (sh_area s1) /\ sh_ft s2 (0,0) = RtoC (sh_area s2) /\
  0 < sh_area s1 /\ 0 < sh_area s2 /\
  exists v, layer_exc_ft (lt_ec_area L) ly Vmax [(0,0)] = Ok [v] /\
   v <> Cdiv (Cmult (RtoC Vmax) (clsum (map (fun s => sh_ft s (0,0)) (ly_shapes ly)))) (RtoC (lt_ec_area L)).
Proof.
  destruct (init_vecs (2,0) (0,1)) as (L & HL & E1 & E2 & _).
  assert (HA : lt_ec_area L = 2).
  { destruct (areas _ _ HL) as [-> _]; rewrite E1, E2; unfold independent, det; simpl; [lra|].
    rewrite Rabs_pos_eq; lra. }
  exists L.
  set (s1 := mkShape 1 (1/10) (fun _ _ => true) (fun _ => RtoC (1/10))).
  set (s2 := mkShape 1 (1/10) (fun _ _ => true) (fun _ => RtoC (1/10))).
  exists (mkLayer 0 1 0 1 12 12 [s1; s2]), s1, s2, 1.
  split; auto. simpl. split; auto. split; [lra|]. split; auto. split; auto. split; [lra|]. split; [lra|].
  eexists; split.
  - unfold layer_exc_ft. change (map (fun _ : R * R => RtoC 0) [(0,0)]) with (map (fun _ : R * R => RtoC 0) [(0:R,0:R)]).
    rewrite exc_loop_horner.
    + reflexivity.
    + rewrite HA; lra.
    + lra.
    + exists (0,0); split; [left; auto|]. unfold is_g0; simpl. rewrite Rabs_R0.
      pose proof (Rinv_0_lt_compat _ ten10_pos). lra.
    + intros s g [<-|[<-|[]]] _ _; unfold nonneg_real; simpl; lra.
    + intros; unfold nonneg_real; simpl; lra.
  - rewrite HA. unfold horner; simpl. intros E. apply (f_equal fst) in E.
    unfold Cdiv in E. rewrite <- RtoC_inv in E by lra. simpl in E. lra.
Qed.

(** ** small packaging lemmas for PhcProps.v *)
Lemma lookup_refuted L el eu : exists ops z,
  let P := run_ops (phc_init L el eu) ops in
  Forall (fun d => 0 < d) (thicknesses ops) /\ - 10 ^ 10 <= z < 10 ^ 10 /\
  exists ly, lind_layer P (z_to_lind P z) = Some ly /\ ~ (ly_zmin ly <= z < ly_zmax ly).
Proof.
  exists [OpLayer 1 12 "shapes"], 1. cbn zeta.
  assert (T : thicknesses [OpLayer 1 12 "shapes"] = [1]) by reflexivity.
  assert (H10 : 1 < 10 ^ 10) by (apply Rlt_pow_R1; [lra|lia]).
  destruct (lookup_at_interface L el eu [OpLayer 1 12 "shapes"] 1) as (b & a & Hb & _ & _ & Hn);
    rewrite ?T in *.
  - repeat constructor; lra.
  - simpl; lia.
  - simpl; lra.
  - replace (total (firstn 1 [1])) with 1 in * by (simpl; ring).
    split; [repeat constructor; lra|]. split; [lra|]. eauto.
Qed.

Lemma rejected_refuted L el eu s : exists ops o,
  let P := run_ops (phc_init L el eu) ops in
  snd (step P o) = Some ValueError /\ fst (step P o) <> P /\
  o = OpShape (ShMany [Some s; None]) (-1) CladNone.
Proof.
  exists [OpLayer 1 12 "shapes"]. eexists. cbn zeta. split; [|split; [|reflexivity]].
  - reflexivity.
  - intros E. apply (f_equal (fun P => map (fun l => List.length (ly_shapes l)) (pc_layers P))) in E. discriminate.
Qed.

Lemma layer_ft_laws area ly g : area <> 0 ->
  (is_g0 g -> layer_ft_at area ly g = RtoC (ly_epsavg ly)) /\
  (~ is_g0 g -> layer_ft_at area ly g =
     Cdiv (clsum (map (fun s => Cmult (RtoC (sh_eps s - ly_epsb ly)) (sh_ft s g)) (ly_shapes ly))) (RtoC area)).
Proof. intros _. split; [apply layer_ft_zero|apply layer_ft_nonzero]. Qed.

Lemma layer_ft_order area ly ly' g : Permutation.Permutation (ly_shapes ly) (ly_shapes ly') ->
  ly_epsb ly = ly_epsb ly' -> avg_ok area ly -> avg_ok area ly' ->
  layer_ft_at area ly g = layer_ft_at area ly' g.
Proof.
  intros Hp Hb A A'. destruct (Rlt_dec (Rabs (fst g) + Rabs (snd g)) (/ 10 ^ 10)) as [H|H].
  - rewrite !layer_ft_zero by exact H. f_equal. unfold avg_ok in *. rewrite A, A', Hb. apply mean_eps_perm; auto.
  - rewrite !layer_ft_nonzero by exact H. rewrite Hb. f_equal. apply clsum_perm.
    apply Permutation.Permutation_map; auto.
Qed.
Lemma layer_ft_order_reach L el eu ops ops' ly ly' g :
  region_of (run_ops (phc_init L el eu) ops) ly -> region_of (run_ops (phc_init L el eu) ops') ly' ->
  Permutation.Permutation (ly_shapes ly) (ly_shapes ly') -> ly_epsb ly = ly_epsb ly' ->
  layer_ft_at (lt_ec_area L) ly g = layer_ft_at (lt_ec_area L) ly' g /\ ly_epsavg ly = ly_epsavg ly'.
Proof.
  intros H H' Hp Hb.
  pose proof (eps_avg_mean L el eu ops ly H) as A. pose proof (eps_avg_mean L el eu ops' ly' H') as A'.
  split; [apply layer_ft_order; auto|]. rewrite A, A', Hb. apply mean_eps_perm; auto.
Qed.
Lemma layer_ft_background area ly s g : sh_eps s = ly_epsb ly ->
  layer_ft_at area (fst (layer_add_shape area ly (ShOne s))) g = layer_ft_at area ly g.
Proof.
  intros E. simpl. destruct (Rlt_dec (Rabs (fst g) + Rabs (snd g)) (/ 10 ^ 10)) as [H|H].
  - rewrite !layer_ft_zero by exact H. simpl. rewrite E. f_equal. unfold Rdiv; ring.
  - rewrite !layer_ft_nonzero by exact H. simpl. rewrite map_app, clsum_app. simpl.
    unfold contrib at 2. rewrite E. f_equal.
    replace (ly_epsb ly - ly_epsb ly) with 0 by ring. ring.
Qed.
Lemma layer_ft_herm area ly g :
  (forall s, In s (ly_shapes ly) -> sh_ft s (- fst g, - snd g) = Cconj (sh_ft s g)) ->
  layer_ft_at area ly (- fst g, - snd g) = Cconj (layer_ft_at area ly g).
Proof.
  apply layer_ft_hermitian. unfold is_g0. destruct (Rlt_dec (Rabs (fst g) + Rabs (snd g)) (/ 10 ^ 10)); auto.
Qed.
