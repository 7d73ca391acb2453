(** Interpolation of the guided modes. *)
From Verif Require Import Py CBase SlabModel MatElModel MatElSpec.
From Coq Require Import Lra Lia.
Open Scope R_scope.
Open Scope list_scope.

Lemma Rltb_cases (x y : R) : (Rltb x y = true /\ x < y) \/ (Rltb x y = false /\ y <= x).
Proof. unfold Rltb. destruct (Rlt_dec x y); [left|right]; split; auto; lra. Qed.

Lemma asc_tail g gs : ascending (g :: gs) -> ascending gs.
Proof. intros H i j L. apply (H (S i) (S j)). cbn [List.length]. lia. Qed.
Lemma agree_tail g gs y ys : agree (g :: gs) (y :: ys) -> agree gs ys.
Proof. intros H i j A B. apply (H (S i) (S j)); cbn [List.length]; lia. Qed.

Lemma lerp_from x : forall gs ys g0 y0, List.length ys = List.length gs -> ascending (g0 :: gs) -> agree (g0 :: gs) (y0 :: ys) -> g0 <= x ->
  lerp (g0 :: gs) (y0 :: ys) x (interp_from x g0 y0 (combine gs ys)).
Proof.
  induction gs as [|g1 gs IH]; intros [|y1 ys] g0 y0 HL HA HG Hx; try discriminate.
  - cbn [combine interp_from]. unfold lerp. cbn [List.length Nat.sub nth]. repeat split; auto. intros i Hi; lia.
  - cbn [combine interp_from]. injection HL as HL.
    assert (A01 : g0 <= g1) by (apply (HA 0%nat 1%nat); cbn [List.length]; lia).
    destruct (Rltb_cases x g1) as [[-> Lt]|[-> Ge]].
    + split; [|split].
      * cbn [nth]. intros Q. assert (x = g0) by lra. subst x.
        replace (g0 - g0) with 0 by lra. ring.
      * intros Q. exfalso.
        assert (nth 1 (g0 :: g1 :: gs) 0 <= nth (List.length (g0 :: g1 :: gs) - 1) (g0 :: g1 :: gs) 0) by (apply HA; cbn [List.length]; lia).
        change (nth 1 (g0 :: g1 :: gs) 0) with g1 in H. lra.
      * intros [|i] Hi Q.
        -- cbn [nth]. cbn [nth] in Q.
           assert (N : RtoC (g1 - g0) <> RtoC 0) by (intros E; apply RtoC_inj in E; lra).
           rewrite !RtoC_minus in *. field. exact N.
        -- exfalso. assert (nth 1 (g0 :: g1 :: gs) 0 <= nth (S i) (g0 :: g1 :: gs) 0) by (apply HA; cbn [List.length] in *; lia).
           change (nth 1 (g0 :: g1 :: gs) 0) with g1 in H. lra.
    + destruct (IH ys g1 y1 HL (asc_tail _ _ HA) (agree_tail _ _ _ _ HG) Ge) as [I1 [I2 I3]].
      cbn [nth] in I1.
      split; [|split].
      * cbn [nth]. intros Q. assert (g0 = g1) by lra.
        rewrite I1 by lra. symmetry. apply (HG 0%nat 1%nat); cbn [List.length nth]; try lia; auto.
      * intros Q. cbn [List.length Nat.sub] in *. rewrite Nat.sub_0_r in *. cbn [nth] in *. apply I2. exact Q.
      * intros [|i] Hi Q.
        -- cbn [nth]. cbn [nth] in Q. assert (x = g1) by lra. subst x.
           rewrite I1 by lra. replace (g1 - g1) with 0 by lra. ring.
        -- apply (I3 i); [cbn [List.length] in *; lia|exact Q].
Qed.

Lemma lerp_interp x gs ys : (0 < List.length gs)%nat -> List.length ys = List.length gs -> ascending gs -> agree gs ys ->
  lerp gs ys x (interp x gs ys).
Proof.
  destruct gs as [|g0 gs], ys as [|y0 ys]; cbn [List.length]; intros H0 HL HA HG; try lia.
  injection HL as HL. unfold interp. cbn [combine].
  destruct (Rltb_cases x g0) as [[-> Lt]|[-> Ge]]; [|apply lerp_from; auto].
  split; [|split].
  - reflexivity.
  - intros Q. exfalso.
    assert (nth 0 (g0 :: gs) 0 <= nth (List.length (g0 :: gs) - 1) (g0 :: gs) 0) by (apply HA; cbn [List.length]; lia).
    change (nth 0 (g0 :: gs) 0) with g0 in H. lra.
  - intros i Hi Q. exfalso.
    assert (nth 0 (g0 :: gs) 0 <= nth i (g0 :: gs) 0) by (apply HA; cbn [List.length] in *; lia).
    change (nth 0 (g0 :: gs) 0) with g0 in H. lra.
Qed.

Lemma lerp_real gs ys x v : lerp gs (map RtoC ys) x v -> (0 < List.length gs)%nat -> List.length ys = List.length gs -> ascending gs -> v = RtoC (fst v).
Proof.
  intros [H1 [H2 H3]] H0 HL HA.
  assert (N : forall i, nth i (map RtoC ys) (RtoC 0) = RtoC (nth i ys 0)).
  { intros i. rewrite <- (map_nth RtoC). reflexivity. }
  destruct (Rle_dec x (nth 0 gs 0)) as [L|L].
  - rewrite (H1 L), N. reflexivity.
  - destruct (Rle_dec (nth (List.length gs - 1) gs 0) x) as [M|M].
    + rewrite (H2 M), N. reflexivity.
    + assert (E : forall n, (n < List.length gs)%nat -> x < nth n gs 0 -> exists i, (S i < List.length gs)%nat /\ nth i gs 0 <= x < nth (S i) gs 0).
      { induction n; intros Hn Q; [lra|]. destruct (Rle_dec (nth n gs 0) x); [exists n; split; [lia|lra]|apply IHn; [lia|lra]]. }
      destruct (E (List.length gs - 1)%nat) as [i [Hi Q]]; [lia|lra|].
      pose proof (H3 i Hi ltac:(lra)) as K. rewrite !N in K.
      apply (f_equal snd) in K. unfold Cmult, Cplus, RtoC in K. cbn [fst snd] in K.
      destruct v as [a b]. unfold RtoC. cbn [fst snd] in *. f_equal.
      assert (b * (nth (S i) gs 0 - nth i gs 0) = 0) by lra.
      apply Rmult_integral in H. destruct H; [auto|lra].
Qed.

Lemma guided_interpolated ng gk garr te tm eps m oms cs m' :
  entry te tm m = Some (oms, cs) -> (0 < List.length oms <= List.length garr)%nat -> List.length cs = List.length oms ->
  let gs := skipn (List.length garr - List.length oms) garr in
  ascending gs -> agree gs (map RtoC oms) ->
  get_guided ng gk garr te tm eps m = Ok m' ->
  forall i, let x := gk (md_g m' i) in
    lerp gs (map RtoC oms) x (RtoC (md_om m' i)) /\
    forall il, md_chi m' il i = chi (md_om m' i) x (nth il eps 0) /\
      (agree gs (map (fun c => fst (c il)) cs) -> lerp gs (map (fun c => fst (c il)) cs) x (md_A m' il i)) /\
      (agree gs (map (fun c => snd (c il)) cs) -> lerp gs (map (fun c => snd (c il)) cs) x (md_B m' il i)).
Proof.
  intros He Hl Hc gs HA HG H i x. unfold get_guided in H. unfold entry in He. rewrite He in H.
  assert (EG : last_n (List.length oms) garr = gs).
  { unfold last_n, gs. destruct (List.length oms); [lia|reflexivity]. }
  rewrite EG in H.
  assert (LG : List.length gs = List.length oms) by (unfold gs; rewrite skipn_length; lia).
  destruct gs as [|g0 gs'] eqn:EGS; [cbn [List.length] in LG; lia|]. rewrite <- EGS in *. clear EGS.
  assert (H' := f_equal (fun x => match x with Ok a => a | _ => m' end) H). cbv beta iota in H'.
  clear H. subst m'. unfold md_g in x. cbn [md_ind md_om md_A md_B md_chi] in *.
  split.
  - rewrite <- (lerp_real gs oms x); try lia; auto.
    + apply lerp_interp; auto; [lia|rewrite map_length; lia].
    + apply lerp_interp; auto; [lia|rewrite map_length; lia].
  - intros il. split; [reflexivity|]. split; intros HG'; apply lerp_interp; auto; try lia; rewrite map_length; lia.
Qed.
