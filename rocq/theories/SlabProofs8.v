(** A concrete slab: eps = 1, 4, 1, thickness 3/2, g = 1 (C33, C36). *)
From Verif Require Import Py CBase SlabModel SlabSpec SlabProofs SlabProofs2 SlabProofs5 SlabProofs6 SlabProofs7.
From Coquelicot Require Coquelicot.
From Coquelicot Require Import Hierarchy Continuity Derive ElemFct AutoDerive.
Open Scope string_scope.
Open Scope list_scope.
Open Scope R_scope.

Definition ex_eps : list R := 1 :: 4 :: 1 :: nil.
Definition ex_ds : list R := 3 / 2 :: nil.
Definition exD (w : R) : R :=
  let k := sqrt (1 * 1 - 1 * (w * w)) in let x := sqrt (- (1 * 1) + 4 * (w * w)) in
  x * (k + k) * cos (x * (3 / 2)) + (k * k - x * x) * sin (x * (3 / 2)).

Lemma ccos_R t : ccos (RtoC t) = RtoC (cos t).
Proof.
  unfold ccos. rewrite cexp_i. replace (- (Ci * RtoC t))%C with (Ci * RtoC (- t))%C by (rewrite RtoC_opp; ring).
  rewrite cexp_i. apply Ceq; simpl; rewrite ?cos_neg, ?sin_neg; field.
Qed.
Lemma csin_R t : csin (RtoC t) = RtoC (sin t).
Proof.
  unfold csin. rewrite cexp_i. replace (- (Ci * RtoC t))%C with (Ci * RtoC (- t))%C by (rewrite RtoC_opp; ring).
  rewrite cexp_i. apply Ceq; simpl; rewrite ?cos_neg, ?sin_neg; field.
Qed.

Lemma exD_D22 w : D22real "TE" 1 ex_eps ex_ds w = exD w.
Proof.
  unfold D22real, ex_eps, ex_ds, exD. cbn [D22]. unfold D22_3layer, chis_3layer.
  replace (is_te "TE") with true by reflexivity.
  set (k := sqrt (1 * 1 - 1 * (w * w))). set (x := sqrt (- (1 * 1) + 4 * (w * w))).
  rewrite <- !RtoC_mult, ccos_R, csin_R. simpl. ring.
Qed.
Lemma exD_cont : continuity exD.
Proof.
  intros w. apply continuity_pt_filterlim. unfold exD.
  assert (K : continuous (fun w => sqrt (1 * 1 - 1 * (w * w))) w).
  { apply (continuous_comp (fun w => 1 * 1 - 1 * (w * w)) sqrt); [|apply continuous_sqrt].
    apply (ex_derive_continuous (V := R_NormedModule)). auto_derive. auto. }
  assert (X : continuous (fun w => sqrt (- (1 * 1) + 4 * (w * w))) w).
  { apply (continuous_comp (fun w => - (1 * 1) + 4 * (w * w)) sqrt); [|apply continuous_sqrt].
    apply (ex_derive_continuous (V := R_NormedModule)). auto_derive. auto. }
  set (k := fun w => sqrt (1 * 1 - 1 * (w * w))) in *. set (x := fun w => sqrt (- (1 * 1) + 4 * (w * w))) in *.
  assert (X2 : continuous (fun w => x w * (3 / 2)) w) by (apply (continuous_mult (K := R_AbsRing) x); [exact X|apply continuous_const]).
  apply (continuous_plus (V := R_NormedModule) (fun w => x w * (k w + k w) * cos (x w * (3 / 2))) (fun w => (k w * k w - x w * x w) * sin (x w * (3 / 2)))).
  - apply (continuous_mult (K := R_AbsRing) (fun w => x w * (k w + k w)) (fun w => cos (x w * (3 / 2)))).
    + apply (continuous_mult (K := R_AbsRing) x (fun w => k w + k w)); auto.
      apply (continuous_plus (V := R_NormedModule) k k); auto.
    + apply (continuous_comp (fun w => x w * (3 / 2)) cos); auto. apply continuous_cos.
  - apply (continuous_mult (K := R_AbsRing) (fun w => k w * k w - x w * x w) (fun w => sin (x w * (3 / 2)))).
    + apply (continuous_minus (V := R_NormedModule) (fun w => k w * k w) (fun w => x w * x w)).
      * apply (continuous_mult (K := R_AbsRing) k k); auto.
      * apply (continuous_mult (K := R_AbsRing) x x); auto.
    + apply (continuous_comp (fun w => x w * (3 / 2)) sin); auto. apply continuous_sin.
Qed.

(** a root finder for this slab, from the intermediate value theorem *)
Lemma ex_root : exists root, finds_roots root (D22real "TE" 1 ex_eps ex_ds).
Proof.
  set (rt := fun (f : R -> R) (a b : R) =>
    match Rle_dec a b with
    | left Hab => match Rle_dec (exD a * exD b) 0 with
                  | left H0 => proj1_sig (IVT_cor exD a b exD_cont Hab H0)
                  | right _ => a end
    | right _ => a end).
  exists rt. intros a b Hab H. rewrite !exD_D22 in *. unfold rt.
  destruct (Rle_dec a b) as [L|]; [|lra]. destruct (Rle_dec (exD a * exD b) 0) as [M|]; [|lra].
  destruct (IVT_cor exD a b exD_cont L M) as [z [[Z1 Z2] Z3]]. simpl proj1_sig. split; auto.
  split.
  - destruct Z1 as [|Z1]; auto. subst z. rewrite Z3 in H. lra.
  - destruct Z2 as [|Z2]; auto. subst z. rewrite Z3 in H. lra.
Qed.

Lemma exD_low : 0 < exD (11 / 20).
Proof.
  unfold exD. set (k := sqrt (1 * 1 - _)). set (x := sqrt (- (1 * 1) + _)). cbv zeta.
  assert (K : k * k = 279 / 400) by (unfold k; rewrite sqrt_sqrt; lra).
  assert (X : x * x = 21 / 100) by (unfold x; rewrite sqrt_sqrt; lra).
  assert (K0 : 0 <= k) by apply sqrt_pos. assert (X0 : 0 <= x) by apply sqrt_pos.
  assert (X1 : 0 < x < 1) by nra. assert (K1 : 0 < k) by nra.
  pose proof PI2_3_2 as PP. 
  assert (C : 0 < cos (x * (3 / 2))) by (apply cos_gt_0; lra).
  assert (S : 0 < sin (x * (3 / 2))) by (apply sin_gt_0; lra).
  rewrite K, X. apply Rplus_lt_0_compat; apply Rmult_lt_0_compat; nra.
Qed.
Lemma exD_high : exD (9 / 10) < 0.
Proof.
  unfold exD. set (k := sqrt (1 * 1 - _)). set (x := sqrt (- (1 * 1) + _)). cbv zeta.
  assert (K : k * k = 19 / 100) by (unfold k; rewrite sqrt_sqrt; lra).
  assert (X : x * x = 224 / 100) by (unfold x; rewrite sqrt_sqrt; lra).
  assert (K0 : 0 <= k) by apply sqrt_pos. assert (X0 : 0 <= x) by apply sqrt_pos.
  assert (X1 : 14 / 10 < x < 3 / 2) by nra. assert (K1 : 0 < k) by nra.
  pose proof PI2_3_2 as PP. pose proof PI_4 as P4.
  assert (C : cos (x * (3 / 2)) < 0).
  { apply cos_lt_0; lra. }
  assert (S : 0 < sin (x * (3 / 2))) by (apply sin_gt_0; lra).
  rewrite K, X.
  assert (0 < x * (k + k)) by nra.
  assert (x * (k + k) * cos (x * (3 / 2)) < 0) by nra. nra.
Qed.

Lemma ex_bounds : omega_bounds (1 / 2) 1 1 (1 / 10) = 11 / 20 :: 9 / 10 :: nil.
Proof.
  unfold omega_bounds.
  destruct (arange_n (1 / 2 * (1 + 1 / 10)) (1 * (1 - 1 / 10)) 1) as [n [E [B1 B2]]]; [lra|lra|].
  rewrite E. destruct n as [|n]; [|rewrite S_INR in B1; pose proof (pos_INR n); lra].
  simpl. f_equal; [lra|]. f_equal. lra.
Qed.
Lemma ex_filter : filter (sc (D22real "TE" 1 ex_eps ex_ds)) (pairs (11 / 20 :: 9 / 10 :: nil)) = (11 / 20, 9 / 10) :: nil.
Proof.
  simpl. unfold sc. cbn [fst snd]. rewrite !exD_D22. pose proof exD_low. pose proof exD_high.
  replace (Rltb _ _) with true; auto. symmetry. apply Rltb_true. nra.
Qed.
Lemma ex_len : (List.length ex_ds + 2 = List.length ex_eps)%nat. Proof. reflexivity. Qed.

Lemma ex_TE root : exists om cs,
  guided_mode_given_g root "TE" 1 ex_eps ex_ds 1 (Some (1 / 2)) (Some 1) 1 (1 / 10) = Ok (om :: nil, cs).
Proof.
  destruct (given_g_ok root true 1 ex_eps ex_ds 1 ex_len ltac:(discriminate) (1 / 2) 1 1 (1 / 10)) as [cs [E _]].
  rewrite ex_bounds in E. unfold roots in E. rewrite ex_filter in E. simpl in E.
  eexists; eexists; exact E.
Qed.
Lemma ex_te root :
  guided_mode_given_g root "te" 1 ex_eps ex_ds 1 (Some (1 / 2)) (Some 1) 1 (1 / 10) = Raise PyException.
Proof.
  unfold guided_mode_given_g. cbn [bind]. rewrite ex_bounds.
  destruct (D22s_ok true 1 ex_eps ex_ds ex_len (11 / 20 :: 9 / 10 :: nil)) as [zs [E1 E2]].
  pose proof (D22s_upper "te" (11 / 20 :: 9 / 10 :: nil) 1 ex_eps ex_ds) as U.
  change (upper "te") with "TE" in U. rewrite <- U, E1. cbn [bind]. rewrite E2, sign_changes_eq, ex_filter.
  cbn [firstn mapM]. unfold solve_mode. change (is_te "te" || is_tm "te") with true. cbn iota.
  match goal with |- context [AB_matrices "te" ?w 1 ex_eps ex_ds] => 
    destruct (AB_total "te" w 1 ex_eps ex_ds) as [AB [EA _]] end; [reflexivity|reflexivity|discriminate|].
  rewrite EA. reflexivity.
Qed.
Lemma ex_step root pol : guided_modes root pol (1 :: nil) ex_eps ex_ds 1 1 (1 / 10) =
  let* r := guided_mode_given_g root pol 1 ex_eps ex_ds 1 (Some (1 / 2)) (Some 1) 1 (1 / 10) in Ok (r :: nil).
Proof.
  unfold guided_modes. cbn [guided_loop guided_step]. unfold guided_step.
  assert (E1 : Rmax 1 (/ 10 ^ 4) = 1) by (apply Rmax_left; lra).
  assert (E2 : rmaxl (map sqrt (inner ex_eps)) = Ok 2).
  { unfold ex_eps, inner. simpl. f_equal. replace 4 with (2 * 2) by ring. apply sqrt_square. lra. }
  assert (E3 : Rmax (hd 0 ex_eps) (last ex_eps 0) = 1) by (unfold ex_eps; simpl; apply Rmax_left; lra).
  rewrite E1, E2, E3, sqrt_1. cbn [bind]. replace (1 / 1) with 1 by field.
  destruct (guided_mode_given_g root pol 1 ex_eps ex_ds 1 (Some (1 / 2)) (Some 1) 1 (1 / 10)); reflexivity.
Qed.

(** ** radiative modes of the homogeneous medium *)
Lemma Sf_same y : y <> RtoC 0 -> Sy y y = M2 (RtoC 1) (RtoC 0) (RtoC 0) (RtoC 1).
Proof.
  intros H. unfold Sy. assert (T : (RtoC (/ 2) + RtoC (/ 2) = RtoC 1)%C) by (rewrite <- RtoC_plus; f_equal; field).
  apply m2_eq; cbn [m11 m12 m21 m22].
  - transitivity (RtoC (/ 2) + RtoC (/ 2))%C; [field; auto|exact T].
  - field; auto.
  - field; auto.
  - transitivity (RtoC (/ 2) + RtoC (/ 2))%C; [field; auto|exact T].
Qed.

Lemma rad_differ : rad_modes "TE" 0 2 (1 :: nil) (1 :: 1 :: 1 :: nil) (1 :: nil) <> rad_modes "te" 0 2 (1 :: nil) (1 :: 1 :: 1 :: nil) (1 :: nil).
Proof.
  unfold rad_modes. cbn [mapM]. unfold rad_mode.
  change (is_te "TE") with true. change (is_te "te") with true. cbn [andb Nat.eqb rev app].
  change S_TE with (Sf true). rewrite ST_lists by reflexivity. cbn [bind fst snd].
  rewrite !Slist_cons. change (Slist true 2 (Rmax 1 (/ 10 ^ 10)) (1 :: nil)) with (@nil m2).
  rewrite Tlist_cons. change (Tlist 2 (Rmax 1 (/ 10 ^ 10)) (1 :: nil) nil) with (@nil m2).
  cbn [rad_chain bind]. rewrite !Sf_Sy. unfold ce, adm. cbn [fst].
  assert (E1 : Rmax 1 (/ 10 ^ 10) = 1) by (apply Rmax_left; lra). rewrite E1.
  set (c := chi 2 1 1).
  assert (Hc : c <> RtoC 0).
  { unfold c. rewrite chi_ge by lra. apply RtoC_neq0, Rgt_not_eq, sqrt_lt_R0. lra. }
  rewrite (Sf_same c Hc).
  unfold T_half, m2vec. cbn [m11 m12 m21 m22 fst snd].
  set (a := cexp (Ci * c * RtoC 1 / RtoC 2)%C). set (b := cexp (- Ci * c * RtoC 1 / RtoC 2)%C).
  assert (Hb : b <> RtoC 0) by apply cexp_neq0.
  cbn -[Cmult Cplus Cdiv a b c RtoC sqrt].
  set (n := (0 * (a * (a * _ + _) + _) + _)%C).
  assert (N : n = (b * b)%C) by (unfold n; ring).
  assert (Hn : n <> RtoC 0) by (rewrite N; apply Cmult_neq_0; auto).
  intros E.
  set (get := fun r : result (list (list C * list C)) =>
    match r with Ok (p :: nil) => hd (RtoC 0) (snd p) | _ => RtoC 0 end).
  apply (f_equal get) in E. unfold get in E. cbn [hd snd] in E.
  replace (n / n)%C with (RtoC 1) in E by (field; auto).
  rewrite sqrt_1, <- !RtoC_div in E by lra. apply RtoC_inj in E. lra.
Qed.
