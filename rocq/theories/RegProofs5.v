(** Interpolated modes decay where the nodes do (C147). *)
From Coq Require Import Lra Lia List.
From Verif Require Import Py CBase SlabModel SlabSpec SlabProofs MatElModel MatElSpec MatElProofs2 MatElProofs3 RegSpec.
Open Scope R_scope.
Open Scope list_scope.

Lemma lin_re (y0 y1 : C) a b x : a <> b -> fst (y0 + (y1 - y0) / RtoC (b - a) * RtoC (x - a))%C = fst y0 + (fst y1 - fst y0) * ((x - a) / (b - a)).
Proof.
  intros H. assert (b - a <> 0) by lra. replace ((y1 - y0) / RtoC (b - a))%C with ((y1 - y0) * RtoC (/ (b - a)))%C by (unfold Cdiv; rewrite RtoC_inv by auto; reflexivity).
  destruct y0 as [p0 q0], y1 as [p1 q1]. cbn. field. auto.
Qed.
(** between nodes below a light line *)
Lemma below_line c x x0 y0 l : x0 <= x -> (0 <= fst y0 /\ c * fst y0 < x0) -> (forall g y, In (g, y) l -> 0 <= fst y /\ c * fst y < g) ->
  0 <= fst (interp_from x x0 y0 l) /\ c * fst (interp_from x x0 y0 l) < x.
Proof.
  revert x0 y0. induction l as [|[x1 y1] l IH]; intros x0 y0 Hx H0 Hl; cbn [interp_from]; [lra|].
  destruct (Hl x1 y1 (or_introl eq_refl)) as [Y1 Y2]. destruct (Rltb x x1) eqn:E.
  - apply Rltb_true in E. rewrite lin_re by lra. set (t := (x - x0) / (x1 - x0)).
    assert (T0 : 0 <= t) by (apply Rmult_le_pos; [lra|apply Rlt_le, Rinv_0_lt_compat; lra]).
    assert (T : t * (x1 - x0) = x - x0) by (unfold t; field; lra). assert (T1 : t < 1) by nra. destruct H0 as [A B]. split; [nra|].
    replace x with (x0 + t * (x1 - x0)) by lra.
    replace (c * (fst y0 + (fst y1 - fst y0) * t)) with ((1 - t) * (c * fst y0) + t * (c * fst y1)) by ring. 
    replace (x0 + t * (x1 - x0)) with ((1 - t) * x0 + t * x1) by ring. assert ((1 - t) * (c * fst y0) < (1 - t) * x0) by nra. assert (t * (c * fst y1) <= t * x1) by (apply Rmult_le_compat_l; lra). lra.
  - apply Rltb_false in E. apply IH; auto. intros g y H. apply Hl. right. auto.
Qed.
Lemma zero_line x x0 l : (forall g y, In (g, y) l -> y = RtoC 0) -> interp_from x x0 (RtoC 0) l = RtoC 0.
Proof.
  revert x0. induction l as [|[x1 y1] l IH]; intros x0 Hl; cbn [interp_from]; [reflexivity|]. rewrite (Hl x1 y1 (or_introl eq_refl)).
  destruct (Rltb x x1); [unfold Cdiv; ring|]. apply IH. intros g y H. apply (Hl g). right. auto.
Qed.
Lemma interp_zero x gs (ys : list C) : (forall y, In y ys -> y = RtoC 0) -> interp x gs ys = RtoC 0.
Proof.
  intros H. assert (L : forall g y, In (g, y) (combine gs ys) -> y = RtoC 0) by (intros g y X; apply H; eapply in_combine_r; eauto).
  unfold interp. destruct (combine gs ys) as [|[g0 y0] t]; [reflexivity|]. rewrite (L g0 y0 (or_introl eq_refl)). destruct (Rltb x g0); [reflexivity|].
  apply zero_line. intros g y X. apply (L g). right. auto.
Qed.
Lemma light_line eps w g : 0 <= eps -> 0 <= w -> 0 <= g -> (eps * (w * w) < g * g <-> sqrt eps * w < g).
Proof.
  intros He Hw Hg. assert (S := sqrt_sqrt eps He). assert (P := sqrt_pos eps). assert (Q : 0 <= sqrt eps * w) by (apply Rmult_le_pos; auto).
  replace (eps * (w * w)) with ((sqrt eps * w) * (sqrt eps * w)) by (rewrite <- S at 3; ring). split; intros H; [|nra]. apply Rnot_le_lt. intros G. nra.
Qed.

Lemma nth_skip a (l : list R) i : nth i (skipn a l) 0 = nth (a + i) l 0.
Proof. revert l. induction a as [|a IH]; intros [|x l]; cbn [skipn nth Nat.add]; auto. destruct i; reflexivity. Qed.
Lemma decaying_nodes gvec k dgx inds garr te tm eps : 0 <= nth 0 eps 0 -> 0 <= nth (List.length eps - 1) eps 0 ->
  (forall m oms cs, In m inds -> entry te tm m = Some (oms, cs) -> nodes_decay eps garr oms cs) -> (forall m, In m inds -> reaches_node gvec k dgx garr te tm m) ->
  decaying_at gvec k dgx inds garr te tm eps.
Proof.
  intros He0 HeN H HR m x Hm E r Hr. unfold present in Hm. apply filter_In in Hm. destruct Hm as [Hm _].
  specialize (HR m Hm). unfold reaches_node, supports in HR. unfold get_guided in E. unfold entry in *. specialize (H m).
  destruct (nth_error (if Nat.even m then te else tm) (m / 2)) as [[oms cs]|] eqn:En; [|discriminate].
  destruct (H oms cs Hm eq_refl) as (L & Lo & Nd). specialize (fun i => HR i oms cs).
  assert (EL : last_n (List.length oms) garr = skipn (List.length garr - List.length oms) garr) by (unfold last_n; destruct (List.length oms); [lia|reflexivity]).
  rewrite EL in E. set (GS := skipn _ garr) in *. assert (LG : List.length GS = List.length oms) by (unfold GS; rewrite skipn_length; lia).
  assert (NG : forall i, nth i GS 0 = nth (List.length garr - List.length oms + i) garr 0).
  { intros i. unfold GS. apply nth_skip. }
  destruct GS as [|g0 gs] eqn:Eg; [cbn in LG; lia|]. assert (G0' := NG 0%nat). rewrite Nat.add_0_r in G0'. cbn [nth] in G0'.
  injection E as <-. cbn [md_ind] in Hr. cbn [md_ind md_om md_A md_B md_chi].
  set (ind := argwhere_gt _ _ _) in *. set (g := gk_len (gk_data gvec k dgx) (nth r ind 0%nat)).
  assert (Ig : In (nth r ind 0%nat) ind) by (apply nth_In; auto). unfold ind in Ig at 2. unfold argwhere_gt in Ig. apply filter_In in Ig. destruct Ig as [I1 I2].
  apply in_seq in I1. apply Rltb_true in I2. fold g in I2.
  assert (G0 : g0 <= g).
  { rewrite G0'. apply HR; [|reflexivity]. split; [lia|]. exists oms, cs, g0. split; [reflexivity|]. split; [rewrite G0'; apply nth_error_nth'; lia|]. exact I2. }
  assert (Cb : forall (f : R -> C) gg y, In (gg, y) (combine (g0 :: gs) (map f oms)) -> exists i, (i < List.length oms)%nat /\ gg = nth (List.length garr - List.length oms + i) garr 0 /\ y = f (nth i oms 0)).
  { intros f gg y X. apply (In_nth _ _ (0, f 0)) in X. destruct X as (i & Hi & X). rewrite combine_length, map_length, LG in Hi. rewrite combine_nth in X by (rewrite map_length; auto).
    injection X as <- <-. exists i. split; [lia|]. split; [apply NG|]. rewrite (map_nth f). reflexivity. }
  set (om := fst (interp g (g0 :: gs) (map RtoC oms))).
  assert (Om : forall e, 0 <= e -> (forall i, (i < List.length oms)%nat -> e * (nth i oms 0 * nth i oms 0) < nth (List.length garr - List.length oms + i) garr 0 * nth (List.length garr - List.length oms + i) garr 0) -> e * (om * om) < g * g).
  { intros e He Hi.
    assert (Q : forall gg y, In (gg, y) (combine (g0 :: gs) (map RtoC oms)) -> 0 <= fst y /\ sqrt e * fst y < gg).
    { intros gg y X. destruct (Cb RtoC gg y X) as (i & Hi' & -> & ->). cbn [fst RtoC]. destruct (Nd i Hi') as (N1 & N2 & _). split; [exact N1|]. apply light_line; auto. }
    unfold om, interp. destruct (combine (g0 :: gs) (map RtoC oms)) as [|[g1 y1] t] eqn:Ec.
    { exfalso. destruct oms; [cbn in Lo; lia|discriminate]. }
    assert (g1 = g0) as -> by (destruct oms; [discriminate|injection Ec as <- _ _; reflexivity]).
    rewrite (proj2 (Rltb_false g g0) G0). destruct (below_line (sqrt e) g g0 y1 t G0 (Q g0 y1 (or_introl eq_refl)) (fun gg y X => Q gg y (or_intror X))) as [B1 B2].
    apply light_line; auto. apply Rle_trans with g0; [|exact G0]. rewrite G0'. destruct (Nd 0%nat ltac:(lia)) as (_ & N2 & _). rewrite Nat.add_0_r in N2. exact N2. }
  assert (Zc : forall (f : (nat -> C * C) -> C), (forall i, (i < List.length oms)%nat -> f (nth i cs (fun _ => (RtoC 0, RtoC 0))) = RtoC 0) -> interp g (g0 :: gs) (map f cs) = RtoC 0).
  { intros f Hf. apply interp_zero. intros y Hy. apply in_map_iff in Hy. destruct Hy as (c & <- & Hc). apply (In_nth _ _ (fun _ => (RtoC 0, RtoC 0))) in Hc. destruct Hc as (i & Hi & <-). apply Hf. lia. }
  split; split.
  - apply chi_evan. apply Om; auto. intros i Hi. apply (Nd i Hi).
  - apply (Zc (fun c => fst (c 0%nat))). intros i Hi. apply (Nd i Hi).
  - apply chi_evan. apply Om; auto. intros i Hi. apply (Nd i Hi).
  - apply (Zc (fun c => snd (c (List.length eps - 1)%nat))). intros i Hi. apply (Nd i Hi).
Qed.
