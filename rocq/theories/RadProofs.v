(** Proofs about radiative losses. *)
From Verif Require Import Py CBase SlabModel MatElModel RadSpec RadModel.
Open Scope R_scope.
Open Scope list_scope.

(** ** the square root *)
Lemma im_sqrt_val w r : 0 <= r -> im_sqrt w r = sqrt ((sqrt (w * w * (w * w) + r * r) - w * w) / 2).
Proof.
  intros Hr. unfold im_sqrt, csqrt.
  replace (snd (RtoC (w * w) + Ci * RtoC r)%C) with r by (simpl; ring).
  replace (fst (RtoC (w * w) + Ci * RtoC r)%C) with (w * w) by (simpl; ring).
  simpl snd. destruct (Rltb r 0) eqn:E; [apply Rltb_true in E; lra|].
  f_equal. f_equal. f_equal. unfold Cmod. f_equal. simpl. ring.
Qed.
Lemma rad_ge w r : w * w <= sqrt (w * w * (w * w) + r * r).
Proof.
  rewrite <- (sqrt_square (w * w)) at 1 by nra. apply sqrt_le_1_alt. nra.
Qed.
Lemma im_sqrt_rate w r : 0 <= r -> loss_rate w r (im_sqrt w r).
Proof.
  intros Hr. rewrite im_sqrt_val by exact Hr. pose proof (rad_ge w r) as G.
  split; [apply sqrt_pos|].
  exists (sqrt ((sqrt (w * w * (w * w) + r * r) + w * w) / 2)).
  assert (P : 0 <= w * w) by nra. set (s := sqrt (w * w * (w * w) + r * r)) in *.
  assert (S2 : s * s = w * w * (w * w) + r * r) by (apply sqrt_sqrt; nra).
  apply Ceq; simpl.
  - rewrite !sqrt_sqrt by lra. lra.
  - rewrite <- sqrt_mult by lra. rewrite (Rmult_comm (sqrt ((s - w * w) / 2))), <- sqrt_mult by lra.
    replace ((s + w * w) / 2 * ((s - w * w) / 2)) with (Rsqr (r / 2)); [|unfold Rsqr; nra].
    rewrite sqrt_Rsqr by lra. lra.
Qed.
Lemma rate_inv w r y : loss_rate w r y -> 0 <= y /\ 4 * (y * y) * (y * y + w * w) = r * r.
Proof.
  intros [Hy [x E]]. split; [exact Hy|].
  injection E as E1 E2. replace (y * y + w * w) with (x * x) by lra. rewrite <- E2. ring.
Qed.
Lemma rate_mono w r r' y y' : 0 <= r -> loss_rate w r y -> loss_rate w r' y' -> y <= y' -> 0 <= r' -> r <= r'.
Proof.
  intros Hr H H' L Hr'. apply rate_inv in H as [P E]. apply rate_inv in H' as [P' E'].
  apply Rsqr_incr_0; [|lra|lra]. unfold Rsqr. rewrite <- E, <- E'.
  assert (y * y <= y' * y') by nra. assert (0 <= w * w) by nra. assert (0 <= y * y) by nra.
  apply Rmult_le_compat; nra.
Qed.
Lemma rate_unique w r y y' : 0 <= r -> loss_rate w r y -> loss_rate w r y' -> y = y'.
Proof.
  intros Hr H H'. pose proof (rate_inv w r y H) as [P E]. pose proof (rate_inv w r y' H') as [P' E'].
  assert (A : 4 * (y * y) * (y * y + w * w) = 4 * (y' * y') * (y' * y' + w * w)) by lra.
  assert (B : (y * y - y' * y') * (y * y + y' * y' + w * w) = 0) by nra.
  apply Rmult_integral in B as [B|B]; [nra|].
  assert (y = 0) by nra. assert (y' = 0) by nra. lra.
Qed.
Lemma rate_strict w r r' y y' : 0 <= r -> r < r' -> loss_rate w r y -> loss_rate w r' y' -> y < y'.
Proof.
  intros Hr L H H'. destruct (Rlt_le_dec y y') as [K|K]; [exact K|].
  pose proof (rate_mono w r' r y' y ltac:(lra) H' H K Hr). lra.
Qed.
Lemma rate_zero w r y : 0 <= r -> loss_rate w r y -> (y = 0 <-> r = 0).
Proof.
  intros Hr H. pose proof (rate_inv w r y H) as [P E]. split; intros Z; subst.
  - assert (r * r = 0) by lra. nra.
  - assert (F : y * y * (y * y + w * w) = 0) by lra. apply Rmult_integral in F as [F|F]; nra.
Qed.
(** concavity: the rates of two channels add up to at least the joint rate *)
Lemma rate_subadd w r r' y y' z : 0 <= r -> 0 <= r' -> loss_rate w r y -> loss_rate w r' y' -> loss_rate w (r + r') z -> z <= y + y'.
Proof.
  intros Hr Hr' [P [x E]] [P' [x' E']] Hz.
  injection E as E1 E2. injection E' as E1' E2'.
  destruct (Rle_lt_dec z (y + y')) as [K|K]; [exact K|]. exfalso.
  (* 2 s sqrt(s^2+w^2) at s = y + y' is at least r + r' *)
  pose proof (rate_inv w (r + r') z Hz) as [Pz Ez].
  assert (M : (r + r') * (r + r') <= 4 * ((y + y') * (y + y')) * ((y + y') * (y + y') + w * w)).
  { assert (X : x * x = y * y + w * w) by lra. assert (X' : x' * x' = y' * y' + w * w) by lra.
    set (s := y + y'). assert (Q : x * x <= s * s + w * w) by (unfold s; nra).
    assert (Q' : x' * x' <= s * s + w * w) by (unfold s; nra).
    replace (r + r') with (2 * (x * y + x' * y')) by lra.
    set (T := s * s + w * w) in *. assert (0 <= T) by (unfold T; nra).
    set (t := sqrt T). assert (t * t = T) by (apply sqrt_sqrt; lra). assert (0 <= t) by apply sqrt_pos.
    assert (x <= t) by nra. assert (x' <= t) by nra. assert (- t <= x) by nra. assert (- t <= x') by nra.
    assert (x * y + x' * y' <= t * s) by (unfold s; nra).
    assert (- (t * s) <= x * y + x' * y') by (unfold s; nra).
    assert (0 <= t * s) by (unfold s; nra).
    replace (4 * (s * s) * T) with ((2 * (t * s)) * (2 * (t * s))) by nra.
    set (u := x * y + x' * y') in *. set (v := t * s) in *. nra. }
  assert (Y : (y + y') * (y + y') < z * z) by nra.
  assert (0 <= (y + y') * (y + y')) by nra. assert (0 <= w * w) by nra.
  rewrite <- Ez in M. set (a := (y + y') * (y + y')) in *. set (b := z * z) in *. nra.
Qed.

(** ** the couplings *)
Lemma power_total l : power l = total l.
Proof.
  unfold power, total. induction l as [|z l IH]; [reflexivity|].
  cbn [map rsuml fold_right]. f_equal; [|exact IH].
  unfold Cmod. rewrite sqrt_sqrt; [ring|]. nra.
Qed.
Lemma total_pos l : 0 <= total l.
Proof. unfold total. induction l as [|z l IH]; cbn [fold_right]; [lra|]. nra. Qed.
Lemma total_app l l' : total (l ++ l') = total l + total l'.
Proof. unfold total. induction l as [|z l IH]; cbn [app fold_right]; [lra|]. rewrite IH. lra. Qed.

Lemma rad_one_rates dl e f v r : rad_one dl e f v = Ok r ->
  let w := 2 * PI * f in
  loss_rate w (total (rr_lte r ++ rr_ute r ++ rr_ltm r ++ rr_utm r)) (rr_tot r) /\
  loss_rate w (total (rr_lte r ++ rr_ute r)) (rr_te r) /\
  loss_rate w (total (rr_ltm r ++ rr_utm r)) (rr_tm r).
Proof.
  intros H w. unfold rad_one in H.
  repeat match type of H with bind ?x _ = _ => destruct x; [cbn [bind] in H|discriminate H] end.
  injection H as <-. cbn [rr_tot rr_te rr_tm rr_lte rr_ltm rr_ute rr_utm].
  rewrite !total_app, !power_total. fold w. split; [|split].
  - match goal with |- loss_rate _ ?a (im_sqrt _ ?b) => replace a with b by lra end.
    apply im_sqrt_rate. repeat apply Rplus_le_le_0_compat; apply total_pos.
  - apply im_sqrt_rate. apply Rplus_le_le_0_compat; apply total_pos.
  - apply im_sqrt_rate. apply Rplus_le_le_0_compat; apply total_pos.
Qed.
Lemma rad_one_order dl e f v r : rad_one dl e f v = Ok r ->
  0 <= rr_te r /\ 0 <= rr_tm r /\ rr_te r <= rr_tot r /\ rr_tm r <= rr_tot r /\ rr_tot r <= rr_te r + rr_tm r.
Proof.
  intros H. destruct (rad_one_rates dl e f v r H) as [A [B D]].
  replace (rr_lte r ++ rr_ute r ++ rr_ltm r ++ rr_utm r) with ((rr_lte r ++ rr_ute r) ++ (rr_ltm r ++ rr_utm r)) in A
    by (rewrite !app_assoc; reflexivity).
  rewrite total_app in A.
  set (a := total (rr_lte r ++ rr_ute r)) in *. set (b := total (rr_ltm r ++ rr_utm r)) in *.
  assert (Pa : 0 <= a) by apply total_pos. assert (Pb : 0 <= b) by apply total_pos.
  split; [apply B|]. split; [apply D|].
  assert (L : forall y s, loss_rate (2 * PI * f) s y -> 0 <= s -> s <= a + b -> y <= rr_tot r).
  { intros y s Hy Hs Hl. destruct (Rle_lt_or_eq_dec s (a + b) Hl) as [K|K].
    - apply Rlt_le, (rate_strict (2 * PI * f) s (a + b)); assumption.
    - subst s. apply Req_le, (rate_unique (2 * PI * f) (a + b)); assumption. }
  split; [apply (L _ a); [exact B|lra|lra]|]. split; [apply (L _ b); [exact D|lra|lra]|].
  apply (rate_subadd (2 * PI * f) a b); assumption.
Qed.

(** ** below the light line *)
Lemma gk_sq gvec k dgx i : gk_len (gk_data gvec k dgx) i * gk_len (gk_data gvec k dgx) i = sq_len (nth i gvec (0, 0)) k dgx.
Proof. cbn [gk_data gk_len]. unfold sq_len. apply sqrt_sqrt. apply Rplus_le_le_0_compat; apply Rle_0_sqr. Qed.
Lemma below_none gvec k dgx ec w : Forall (below_light_line ec w dgx k) gvec ->
  rad_inds (List.length gvec) (gk_len (gk_data gvec k dgx)) ec w = [].
Proof.
  intros H. unfold rad_inds.
  assert (A : forall l, (forall i, In i l -> (i < List.length gvec)%nat) ->
    filter (fun i => Rleb (gk_len (gk_data gvec k dgx) i * gk_len (gk_data gvec k dgx) i) (ec * (w * w))) l = []).
  { induction l as [|i l IH]; intros Hl; [reflexivity|]. cbn [filter].
    destruct (Rleb _ _) eqn:E.
    - apply Rleb_true in E. rewrite gk_sq in E. exfalso.
      rewrite Forall_forall in H. specialize (H (nth i gvec (0, 0)) (nth_In _ _ (Hl i (or_introl eq_refl)))).
      unfold below_light_line in H. lra.
    - apply IH. intros j Hj. apply Hl. right; exact Hj. }
  apply A. intros i Hi. apply in_seq in Hi. lia.
Qed.
Lemma coupling_none ng gk ec w rc : rad_inds ng gk ec w = [] -> coupling ng gk ec w rc = [].
Proof. intros H. unfold coupling. rewrite H. reflexivity. Qed.
Lemma im_sqrt_0 w : im_sqrt w 0 = 0.
Proof.
  apply (rate_zero w 0); [lra| |reflexivity]. apply im_sqrt_rate. lra.
Qed.

Lemma below_zero dl e f v r : rad_one dl e f v = Ok r ->
  Forall (below_light_line (re_clad_l e) (2 * PI * f) (re_dgx e) (re_k e)) (re_gvec e) ->
  Forall (below_light_line (re_clad_u e) (2 * PI * f) (re_dgx e) (re_k e)) (re_gvec e) ->
  r = RadRes 0 0 0 [] [] [] [] [] [].
Proof.
  unfold rad_one. intros H Hl Hu.
  rewrite (below_none _ _ _ _ _ Hl), (below_none _ _ _ _ _ Hu) in H.
  repeat match type of H with bind ?x _ = _ => destruct x; [cbn [bind] in H|discriminate H] end.
  injection H as <-.
  rewrite !(coupling_none _ _ _ _ _ (below_none _ _ _ _ _ Hl)), !(coupling_none _ _ _ _ _ (below_none _ _ _ _ _ Hu)).
  change (power []) with 0. rewrite !Rplus_0_r, !im_sqrt_0. reflexivity.
Qed.

(** ** the routine does not fail on consistent data *)
Definition consistent (e : rad_env) (n : nat) : Prop :=
  exists gs, Forall2 (fun m g => re_get e m = Ok g) (re_inc e) gs /\ re_numg e = map md_size gs /\
             n = list_sum (map md_size gs).
Lemma rad_loop_ok ov te evec get inc gs : Forall2 (fun m g => get m = Ok g) inc gs ->
  (forall m g, nr (ov (m, g)) = md_size g) ->
  forall count acc, (count + list_sum (map md_size gs) <= fst evec)%nat ->
  exists a, rad_loop ov te evec get count inc (map md_size gs) acc = Ok a.
Proof.
  intros F Hov. induction F as [|m g inc gs Hg F IH]; intros count acc L; [eexists; reflexivity|].
  cbn [rad_loop map]. rewrite Hg. cbn [bind]. unfold rad_term. rewrite Hov, Nat.eqb_refl.
  change (list_sum (map md_size (g :: gs))) with (md_size g + list_sum (map md_size gs))%nat in L.
  destruct (Nat.leb_spec (count + md_size g) (fst evec)) as [K|K]; [|lia].
  cbn [andb bind]. apply IH. lia.
Qed.
Lemma ov_rows dl eps ds einv d te r m g : nr (rad_overlap dl eps ds einv d (m, g) te r) = md_size g.
Proof. unfold rad_overlap. cbn [fst snd]. destruct (Nat.even m), te; reflexivity. Qed.
Lemma below_ok dl e f v : consistent e (fst v) ->
  Forall (below_light_line (re_clad_l e) (2 * PI * f) (re_dgx e) (re_k e)) (re_gvec e) ->
  Forall (below_light_line (re_clad_u e) (2 * PI * f) (re_dgx e) (re_k e)) (re_gvec e) ->
  rad_one dl e f v = Ok (RadRes 0 0 0 [] [] [] [] [] []).
Proof.
  intros [gs [F [Hn Hs]]] Hl Hu.
  destruct (rad_one dl e f v) as [r|x] eqn:E; [f_equal; apply (below_zero dl e f v r E Hl Hu)|].
  exfalso. unfold rad_one in E. rewrite (below_none _ _ _ _ _ Hl), (below_none _ _ _ _ _ Hu) in E.
  unfold get_rad in E. cbn [map rad_modes mapM bind] in E. rewrite Hn in E.
  unfold rad_modes in E. cbn [mapM bind] in E.
  assert (K : forall te r, exists a, rad_loop (fun m => rad_overlap dl (re_eps e) (re_ds e) (re_einv e)
      (gk_data (re_gvec e) (re_k e) (re_dgx e)) m te r) te v (re_get e) 0 (re_inc e) (map md_size gs) (fun _ => RtoC 0) = Ok a).
  { intros te r. apply rad_loop_ok; [exact F|intros; apply ov_rows|rewrite Hs; apply Nat.le_refl]. }
  repeat match type of E with context [rad_loop (fun m => rad_overlap _ _ _ _ _ m ?te ?r) _ _ _ _ _ _ _] =>
    let a := fresh in let Ha := fresh in destruct (K te r) as [a Ha]; rewrite Ha in E; cbn [bind] in E end.
  discriminate E.
Qed.

(** ** unbalance *)
Lemma unbalance_range tot te tm : 0 <= te -> 0 <= tm -> 0 <= unbalance tot te tm < 1.
Proof.
  intros A B. unfold unbalance. destruct (Rltb _ _); [lra|].
  assert (D : 0 < te + tm + 1 / 10 ^ 15) by lra. split.
  - apply Rmult_le_pos; [exact A|]. apply Rlt_le, Rinv_0_lt_compat, D.
  - apply (Rmult_lt_reg_r (te + tm + 1 / 10 ^ 15)); [exact D|]. unfold Rdiv.
    rewrite Rmult_assoc, Rinv_l by lra. lra.
Qed.
Lemma unbalance_half tot te tm : 0 <= te -> 0 <= tm -> 1 / 10 ^ 15 <= Rabs tot ->
  (unbalance tot te tm < 1 / 2 <-> te < tm + 1 / 10 ^ 15) /\ (1 / 2 < unbalance tot te tm <-> tm + 1 / 10 ^ 15 < te).
Proof.
  intros A B T. unfold unbalance. destruct (Rltb _ _) eqn:E; [apply Rltb_true in E; lra|].
  assert (D : 0 < te + tm + 1 / 10 ^ 15) by lra.
  assert (Q : te / (te + tm + 1 / 10 ^ 15) * (te + tm + 1 / 10 ^ 15) = te) by (field; lra).
  set (q := te / (te + tm + 1 / 10 ^ 15)) in *. set (s := te + tm + 1 / 10 ^ 15) in *.
  assert (S : te < tm + 1 / 10 ^ 15 <-> te < s / 2) by (unfold s; split; lra).
  assert (S' : tm + 1 / 10 ^ 15 < te <-> s / 2 < te) by (unfold s; split; lra).
  rewrite S, S'. rewrite <- Q. split; split; intros H; nra.
Qed.
Lemma unbalance_zero te tm : unbalance 0 te tm = 1 / 2.
Proof.
  unfold unbalance. rewrite Rabs_R0. destruct (Rltb _ _) eqn:E; [reflexivity|].
  apply Rltb_false in E. assert (0 < 1 / 10 ^ 15) by lra. lra.
Qed.
