(** Orthogonality for every entry of guided_modes (C118). *)
From Verif Require Import Py CBase SlabModel SlabSpec SlabProofs SlabProofs5 SlabProofs6 SlabProofs7 SlabProofs10 MatElSpec OrthSpec OrthProofs OrthProofs2.
Open Scope string_scope.
Open Scope list_scope.
Open Scope R_scope.

Section Origin.
Variables (root : (R -> R) -> R -> R -> R) (pol : string) (eps ds : list R) (n : nat) (step tol : R).

(** [r] comes from a search at wave vector g *)
Definition fresh (g : R) (r : list R * list (list (C * C))) : Prop :=
  exists m ub, rmaxl (map sqrt (inner eps)) = Ok m /\ ub <= g / sqrt (Rmax (hd 0 eps) (last eps 0)) /\
    guided_mode_given_g root pol g eps ds n (Some (g / m)) (Some ub) step tol = Ok r.

Lemma step_origin st g r : guided_step root pol eps ds n step tol st g = Ok r ->
  fresh (Rmax g (/ 10 ^ 4)) r \/ exists gp, st = Some (gp, r).
Proof.
  unfold guided_step, fresh. destruct (rmaxl (map sqrt (inner eps))) as [m|]; [|discriminate]. cbn [bind].
  destruct st as [[gp [os co]]|].
  - match goal with |- bind ?X _ = _ -> _ => destruct X as [ub|] eqn:E; [|discriminate] end. cbn [bind].
    destruct (Rltb _ _); intros H.
    + left. exists m, ub. split; auto. split; auto.
      destruct (Nat.eqb (List.length os) n); [|injection E as <-; apply Rle_refl].
      destruct os; [discriminate|]. injection E as <-. apply Rmin_l.
    + right. exists gp. congruence.
  - intros H. left. eexists m, _. split; auto. split; [|exact H]. apply Rle_refl.
Qed.
Lemma loop_origin gs : forall st rs, guided_loop root pol eps ds n step tol st gs = Ok rs ->
  forall i, (i < List.length gs)%nat ->
    (exists j, (j <= i)%nat /\ fresh (Rmax (nth j gs 0) (/ 10 ^ 4)) (nth i rs dflt)) \/ exists gp, st = Some (gp, nth i rs dflt).
Proof.
  induction gs as [|g gs IH]; intros st rs H i Hi; [cbn in Hi; lia|].
  cbn [guided_loop] in H. destruct (guided_step root pol eps ds n step tol st g) as [r|] eqn:E; [|discriminate]. cbn [bind] in H.
  destruct (guided_loop root pol eps ds n step tol (Some (g, r)) gs) as [rs'|] eqn:E2; [|discriminate]. cbn [bind] in H. injection H as <-.
  pose proof (step_origin _ _ _ E) as S0. destruct i as [|i].
  - cbn [nth]. destruct S0 as [F|F]; [left; exists 0%nat; split; [lia|exact F]|right; exact F].
  - cbn [nth]. cbn in Hi. destruct (IH _ _ E2 i ltac:(lia)) as [[j [J1 J2]]|[gp J]].
    + left. exists (S j). split; [lia|exact J2].
    + injection J as -> ->. destruct S0 as [F|F]; [left; exists 0%nat; split; [lia|exact F]|right; exact F].
Qed.
End Origin.

Lemma guided_orthogonal root (te : bool) e0 el ei ds n step tol gs rs :
  (forall g, finds_roots root (D22real (if te then "TE" else "TM") g (e0 :: ei ++ [el]) ds)) ->
  List.length ds = List.length ei -> ei <> [] -> List.Forall (fun e => 0 < e) (e0 :: ei ++ [el]) ->
  0 < step -> 0 < tol < 1 ->
  guided_modes root (if te then "TE" else "TM") gs (e0 :: ei ++ [el]) ds n step tol = Ok rs ->
  forall k, (k < List.length gs)%nat -> exists k', (k' <= k)%nat /\
    let g := Rmax (nth k' gs 0) (/ 10 ^ 4) in let oms := fst (nth k rs ([], [])) in let cs := snd (nth k rs ([], [])) in
    forall i j, (i < List.length oms)%nat -> (j < List.length oms)%nat -> i <> j ->
    let w1 := nth i oms 0 in let w2 := nth j oms 0 in let co1 := nth i cs [] in let co2 := nth j cs [] in
    List.Forall (fun e => chi w1 g e <> RtoC 0) ei -> List.Forall (fun e => chi w2 g e <> RtoC 0) ei ->
    snd (hd (RtoC 0, RtoC 0) co1) <> RtoC 0 -> snd (hd (RtoC 0, RtoC 0) co2) <> RtoC 0 ->
    exists B1 mid1 A1 B2 mid2 A2,
      co1 = (RtoC 0, B1) :: mid1 ++ [(A1, RtoC 0)] /\ co2 = (RtoC 0, B2) :: mid2 ++ [(A2, RtoC 0)] /\
      mode_overlap te g (Mode (chi w1 g e0) B1 (map (chi w1 g) ei) mid1 (chi w1 g el) A1)
        (Mode (chi w2 g e0) B2 (map (chi w2 g) ei) mid2 (chi w2 g el) A2) ds (RtoC 0).
Proof.
  intros HR Hl Hne HP Hs Ht H k Hk.
  destruct (loop_origin root _ _ ds n step tol gs None rs H k Hk) as [[k' [Hk' F]]|[? F]]; [|discriminate F].
  exists k'. split; auto. unfold dflt in F. destruct (nth k rs ([], [])) as [oms cs]. cbn [fst snd].
  set (g := Rmax (nth k' gs 0) (/ 10 ^ 4)) in *. cbv zeta.
  intros i j Hi Hj Hij. set (w1 := nth i oms 0). set (w2 := nth j oms 0). set (co1 := nth i cs []). set (co2 := nth j cs []). intros C1 C2 N1 N2.
  destruct F as [sm [ub [Em [Hub E]]]].
  rewrite inner_ends' in Em. rewrite last_ends in Hub. cbn [hd] in Hub.
  assert (Hg : 0 < g).
  { unfold g. eapply Rlt_le_trans; [|apply Rmax_r]. apply Rinv_0_lt_compat. apply pow_lt. lra. }
  assert (PI : forall e, In e ei -> 0 < e).
  { intros e He. rewrite Forall_forall in HP. apply HP. right. apply in_or_app. auto. }
  destruct (sqrt_max ei sm PI Em) as [m [M1 [-> M2]]].
  destruct (given_g_search root te g (e0 :: ei ++ [el]) ds n (len_eps e0 el ei ds Hl) (ds_ne ei ds Hl Hne) _ _ step tol _ _ (HR g) Hs E) as [SP L].
  destruct (search_window te g e0 el ei ds n step tol HP Hg Ht m ub oms M1 M2 Hub SP) as [WW _].
  assert (IN : forall k, (k < List.length oms)%nat -> In (nth k oms 0, nth k cs []) (combine oms cs)).
  { intros q Hq. rewrite <- combine_nth by auto. apply nth_In. rewrite combine_length. lia. }
  assert (WH : forall k, (k < List.length oms)%nat -> let w := nth k oms 0 in
    0 < w /\ e0 * (w * w) < g * g /\ el * (w * w) < g * g /\ (List.length ei = 1%nat -> List.Forall (fun e => g * g < e * (w * w)) ei)).
  { intros q Hq w. destruct (WW w) as [Q1 [[e [Q2 Q3]] [Q4 Q5]]]; [apply nth_In; auto|].
    split; auto. split; auto. split; auto. intros L1. destruct ei as [|e1 [|? ?]]; try discriminate L1.
    destruct Q2 as [<-|[]]. constructor; auto. }
  apply (modes_orthogonal root te g e0 el ei ds n _ _ step tol oms cs w1 co1 w2 co2 (HR g) Hl Hne HP E Hs).
  - apply IN; auto.
  - apply IN; auto.
  - destruct SP as [_ [INC _]]. unfold w1, w2. destruct (Nat.lt_trichotomy i j) as [K|[K|K]]; [|congruence|].
    + apply Rlt_not_eq, (INC i j). lia.
    + apply Rgt_not_eq, (INC j i). lia.
  - intros w co [Q|Q]; injection Q as -> ->.
    + destruct (WH i Hi) as [Q1 [Q2 [Q3 Q4]]]. unfold w1 in *. split; auto.
    + destruct (WH j Hj) as [Q1 [Q2 [Q3 Q4]]]. unfold w2 in *. split; auto.
Qed.
