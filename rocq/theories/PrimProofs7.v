(** The gradients of fsolve, sqrt and fmap; the gradient of eig; examples. *)
From Verif Require Import Py CBase LatticeModel LatticeSpec RecipModel RecipSpec RecipProofs RecipProofs3 PrimSpec PrimModel PrimProofs PrimProofs2 PrimProofs3 PrimProofs4 PrimProofs5 PrimProofs6.
Open Scope R_scope.
Open Scope list_scope.

(** ** fsolve *)
Lemma rsuml_snoc l x : rsuml (l ++ [x]) = rsuml l + x.
Proof. induction l; simpl in *; [ring|]. unfold rsuml in *. simpl. rewrite IHl. ring. Qed.
Lemma rsumf_rs m f : rsumf m f = rs m f.
Proof. unfold rsumf. induction m; [reflexivity|]. rewrite seq_S, map_app. cbn [map Nat.add]. rewrite rsuml_snoc, IHm. reflexivity. Qed.
Lemma dlim_small r : r 0 = 0 -> (forall e, 0 < e -> exists d, 0 < d /\ forall s, Rabs s < d -> Rabs (r s) <= e * Rabs s) -> derivable_pt_lim r 0 0.
Proof.
  intros R0 H eps He. destruct (H (eps / 2) ltac:(lra)) as (d & Hd & B). exists (mkposreal d Hd). intros h Hh Hlt. cbn [pos] in Hlt.
  rewrite Rplus_0_l, R0, !Rminus_0_r. pose proof (B h Hlt) as X. assert (P : 0 < Rabs h) by (apply Rabs_pos_lt; auto).
  unfold Rdiv. rewrite Rabs_mult, Rabs_inv. apply (Rmult_lt_reg_r (Rabs h)); auto. rewrite Rmult_assoc, Rinv_l by lra. nra.
Qed.
Lemma rs_abs m f : Rabs (rs m f) <= rs m (fun i => Rabs (f i)).
Proof. induction m; simpl; [rewrite Rabs_R0; lra|]. eapply Rle_trans; [apply Rabs_triang|]. lra. Qed.
Lemma rs_dlim m (f : R -> nat -> R) df : (forall i, (i < m)%nat -> derivable_pt_lim (fun s => f s i) 0 (df i)) -> derivable_pt_lim (fun s => rs m (f s)) 0 (rs m df).
Proof.
  induction m; intros H; cbn [rs]; [apply derivable_pt_lim_const|].
  apply (derivable_pt_lim_plus (fun s => rs m (f s)) (fun s => f s m)); auto.
Qed.
Lemma implicit m f (x : R -> R) (y : R -> nat -> R) a b dy : partials m f (x 0) (y 0) a b -> a <> 0 ->
  nearby (fun s => f (x s) (y s) = 0) -> continuity_pt x 0 -> curveR m y dy ->
  derivable_pt_lim x 0 (rsumf m (fun i => - 1 / a * b i * dy i)).
Proof.
  intros HP Ha (d0 & Hd0 & F) Hx Hy.
  set (k s := rs m (fun i => Rabs (y s i - y 0 i))). set (Sx s := rs m (fun i => b i * (y s i - y 0 i))).
  assert (LB : linear_bound k) by (apply lb_rs; intros i Hi; apply (lb_dlim (fun s => y s i) (dy i)); auto).
  destruct LB as (K & d1 & Hd1 & HK & LB).
  set (B := rs m (fun i => Rabs (b i))). assert (HB : 0 <= B) by (apply rs_nonneg; intros; apply Rabs_pos).
  assert (K0 : forall s, 0 <= k s) by (intros; apply rs_nonneg; intros; apply Rabs_pos).
  assert (SB : forall s, Rabs (Sx s) <= B * k s).
  { intros s. eapply Rle_trans; [apply rs_abs|]. unfold B. rewrite <- rs_scal_r. apply rs_le. intros i Hi. rewrite Rabs_mult. apply Rmult_le_compat_l; [apply Rabs_pos|].
    apply (rs_term m (fun i => Rabs (y s i - y 0 i))); auto. intros; apply Rabs_pos. }
  assert (A : 0 < Rabs a) by (apply Rabs_pos_lt; auto).
  set (C := (2 * B + Rabs a) / Rabs a). assert (HC : 0 <= C) by (apply Rmult_le_pos; [lra|left; apply Rinv_0_lt_compat; auto]).
  assert (Ca : C * Rabs a = 2 * B + Rabs a) by (unfold C; field; lra).
  set (r s := x s - x 0 + / a * Sx s).
  assert (R : derivable_pt_lim r 0 0).
  { apply dlim_small.
    - unfold r, Sx. rewrite Rminus_eq_0. rewrite (rs_ext m _ (fun _ => 0)) by (intros; ring). rewrite rs_zero. ring.
    - intros e He. set (e' := Rmin (Rabs a / 2) (e * Rabs a / ((C + 1) * (K + 1)))).
      assert (He' : 0 < e') by (apply Rmin_pos; [lra|apply Rdiv_lt_0_compat; nra]).
      assert (E1 : e' <= Rabs a / 2) by apply Rmin_l. assert (E2 : e' <= e * Rabs a / ((C + 1) * (K + 1))) by apply Rmin_r.
      destruct (HP e' He') as (d & Hd & P). destruct (Hx d Hd) as (d2 & Hd2 & Cx).
      assert (Hyd : exists d3, 0 < d3 /\ forall s, Rabs s < d3 -> forall i, (i < m)%nat -> Rabs (y s i - y 0 i) < d).
      { exists (Rmin d1 (d / (K + 1))). split; [apply Rmin_pos; auto; apply Rdiv_lt_0_compat; lra|]. intros s Hs i Hi.
        pose proof (Rmin_l d1 (d / (K + 1))). pose proof (Rmin_r d1 (d / (K + 1))).
        pose proof (LB s ltac:(lra)) as L. pose proof (rs_term m (fun i => Rabs (y s i - y 0 i)) i ltac:(intros; apply Rabs_pos) Hi) as T. cbv beta in T. fold (k s) in T.
        assert (Z : (K + 1) * (d / (K + 1)) = d) by (field; lra). pose proof (Rabs_pos s). 
        assert ((K + 1) * Rabs s < d) by (rewrite <- Z; apply Rmult_lt_compat_l; lra). nra. }
      destruct Hyd as (d3 & Hd3 & Cy).
      exists (Rmin (Rmin d0 d1) (Rmin d2 d3)). split; [repeat apply Rmin_pos; auto|]. intros s Hs.
      pose proof (Rmin_l (Rmin d0 d1) (Rmin d2 d3)). pose proof (Rmin_r (Rmin d0 d1) (Rmin d2 d3)).
      pose proof (Rmin_l d0 d1). pose proof (Rmin_r d0 d1). pose proof (Rmin_l d2 d3). pose proof (Rmin_r d2 d3).
      assert (Xs : Rabs (x s - x 0) < d).
      { destruct (Req_dec s 0) as [->|Ns]; [rewrite Rminus_eq_0, Rabs_R0; auto|]. apply Cx. split; [split; [exact Logic.I|auto]|]. cbn. unfold R_dist. rewrite Rminus_0_r. lra. }
      pose proof (P (x s) (y s) Xs (Cy s ltac:(lra))) as Q. rewrite !rsumf_rs in Q. fold (k s) in Q. fold (Sx s) in Q.
      rewrite (F s ltac:(lra)), (F 0 ltac:(rewrite Rabs_R0; auto)) in Q.
      set (h := x s - x 0) in *. replace (0 - 0 - a * h - Sx s) with (- (a * h + Sx s)) in Q by ring. rewrite Rabs_Ropp in Q.
      pose proof (SB s) as Sb. pose proof (K0 s) as Kp. pose proof (LB s ltac:(lra)) as L. pose proof (Rabs_pos h). pose proof (Rabs_pos s).
      assert (Hh : Rabs h <= C * k s).
      { assert (Rabs a * Rabs h <= e' * (Rabs h + k s) + B * k s).
        { rewrite <- Rabs_mult. replace (a * h) with ((a * h + Sx s) + - Sx s) by ring. eapply Rle_trans; [apply Rabs_triang|]. rewrite Rabs_Ropp. lra. }
        apply (Rmult_le_reg_r (Rabs a)); auto. replace (C * k s * Rabs a) with (C * Rabs a * k s) by ring. rewrite Ca.
        assert (e' * (Rabs h + k s) <= Rabs a / 2 * (Rabs h + k s)) by (apply Rmult_le_compat_r; lra). nra. }
      assert (Er : a * r s = a * h + Sx s) by (unfold r; fold h; field; auto).
      apply (Rmult_le_reg_l (Rabs a)); auto. rewrite <- Rabs_mult, Er. eapply Rle_trans; [exact Q|].
      assert (Rabs h + k s <= (C + 1) * (K * Rabs s)) by nra.
      apply (Rle_trans _ (e * Rabs a / ((C + 1) * (K + 1)) * ((C + 1) * ((K + 1) * Rabs s)))).
      + apply Rmult_le_compat; try lra; nra.
      + right. field. split; lra. }
  apply (dlim_ext (fun s => x 0 + (r s - / a * Sx s))); [intros s; unfold r; ring|].
  assert (DS : derivable_pt_lim Sx 0 (rs m (fun i => b i * dy i))).
  { apply (rs_dlim m (fun s i => b i * (y s i - y 0 i))). intros i Hi.
    eapply dlim_val; [|apply (derivable_pt_lim_mult (fun _ => b i) (fun s => y s i - y 0 i) 0 0 (dy i)); [apply derivable_pt_lim_const|]]; [cbn; ring|].
    eapply dlim_val; [|apply (derivable_pt_lim_minus (fun s => y s i) (fun _ => y 0 i) 0 (dy i) 0); [apply Hy; auto|apply derivable_pt_lim_const]]. ring. }
  eapply dlim_val; [|apply (derivable_pt_lim_plus (fun _ => x 0) (fun s => r s - / a * Sx s) 0 0 (0 - / a * rs m (fun i => b i * dy i)))].
  - rewrite rsumf_rs. rewrite (rs_ext m (fun i => - 1 / a * b i * dy i) (fun i => - / a * (b i * dy i))) by (intros; field; auto). rewrite rs_scal_l. ring.
  - apply derivable_pt_lim_const.
  - apply (derivable_pt_lim_minus r (fun s => / a * Sx s) 0 0 (/ a * rs m (fun i => b i * dy i))); auto.
    eapply dlim_val; [|apply (derivable_pt_lim_mult (fun _ => / a) Sx 0 0 _ (derivable_pt_lim_const _ 0) DS)]. cbn. ring.
Qed.
Lemma fsolve_adjoint m f (x : R -> R) (y : R -> nat -> R) a b dy g : partials m f (x 0) (y 0) a (fun i => nth i b 0) -> List.length b = m -> a <> 0 ->
  nearby (fun s => f (x s) (y s) = 0) -> continuity_pt x 0 -> curveR m y dy ->
  List.length (vjp_fsolve a b g) = m /\
  derivable_pt_lim (fun s => g * x s) 0 (rsumf m (fun i => nth i (vjp_fsolve a b g) 0 * dy i)).
Proof.
  intros HP Lb Ha HF Hx Hy. split; [unfold vjp_fsolve; rewrite map_length; auto|].
  pose proof (implicit m f x y a (fun i => nth i b 0) dy HP Ha HF Hx Hy) as D.
  eapply dlim_val; [|apply (derivable_pt_lim_mult (fun _ => g) x 0 0 _ (derivable_pt_lim_const _ 0) D)].
  rewrite Rmult_0_l, Rplus_0_l, !rsumf_rs, <- rs_scal_l. apply rs_ext. intros i Hi. unfold vjp_fsolve.
  rewrite (nth_indep (map (fun d => g * (- 1 / a * d)) b) 0 ((fun d => g * (- 1 / a * d)) 0)) by (rewrite map_length; lia). rewrite (map_nth (fun d => g * (- 1 / a * d))). ring.
Qed.

(** ** sqrt *)
Lemma vjp_sqrt_form x g : 0 <= x -> vjp_sqrt x g = g / (2 * sqrt (x + 1 / 10 ^ 10)).
Proof.
  intros Hx. unfold vjp_sqrt. set (u := x + 1 / 10 ^ 10). assert (0 < u) by (unfold u; lra).
  assert (0 < sqrt u) by (apply sqrt_lt_R0; auto). pose proof (sqrt_sqrt u ltac:(lra)) as E. rewrite <- E at 2. field. lra.
Qed.
Lemma sqrt_regularised x g : 0 <= x -> derivable_pt_lim (fun t => g * sqrt (t + 1 / 10 ^ 10)) x (vjp_sqrt x g).
Proof.
  intros Hx. rewrite vjp_sqrt_form by auto.
  replace (g / (2 * sqrt (x + 1 / 10 ^ 10))) with (0 * sqrt (x + 1 / 10 ^ 10) + g * (/ (2 * sqrt (x + 1 / 10 ^ 10)) * 1)) by (unfold Rdiv at 3; ring).
  apply (derivable_pt_lim_mult (fun _ => g) (fun t => sqrt (t + 1 / 10 ^ 10)) x 0 (/ (2 * sqrt (x + 1 / 10 ^ 10)) * 1)).
  - apply derivable_pt_lim_const.
  - apply (derivable_pt_lim_comp (fun t => t + 1 / 10 ^ 10) sqrt).
    + enough (Q : derivable_pt_lim (fun t => t + 1 / 10 ^ 10) x (1 + 0)) by (rewrite Rplus_0_r in Q; exact Q). apply (derivable_pt_lim_plus (fun t => t) (fun _ => 1 / 10 ^ 10)); [apply derivable_pt_lim_id|apply derivable_pt_lim_const].
    + apply derivable_pt_lim_sqrt. lra.
Qed.
Lemma sqrt_close x g : 0 < x -> Rabs (vjp_sqrt x g - g / (2 * sqrt x)) <= 1 / (2 * 10 ^ 10 * x) * Rabs (g / (2 * sqrt x)).
Proof.
  intros Hx. rewrite vjp_sqrt_form by lra. set (e := 1 / 10 ^ 10). assert (He : 0 < e) by (unfold e; lra).
  assert (Sx : 0 < sqrt x) by (apply sqrt_lt_R0; auto). assert (Se : 0 < sqrt (x + e)) by (apply sqrt_lt_R0; lra).
  assert (Le : sqrt x <= sqrt (x + e)) by (apply sqrt_le_1; lra).
  pose proof (sqrt_sqrt x ltac:(lra)) as E1. pose proof (sqrt_sqrt (x + e) ltac:(lra)) as E2.
  replace (g / (2 * sqrt (x + e)) - g / (2 * sqrt x)) with (- (1 - sqrt x / sqrt (x + e)) * (g / (2 * sqrt x))) by (field; lra).
  rewrite Rabs_mult, Rabs_Ropp. apply Rmult_le_compat_r; [apply Rabs_pos|].
  assert (R0 : sqrt x / sqrt (x + e) <= 1) by (apply (Rmult_le_reg_r (sqrt (x + e))); auto; unfold Rdiv; rewrite Rmult_assoc, Rinv_l by lra; lra).
  rewrite Rabs_right by lra.
  replace (1 / (2 * 10 ^ 10 * x)) with (e / (2 * x)) by (unfold e; field; lra).
  replace (1 - sqrt x / sqrt (x + e)) with (e / (sqrt (x + e) * (sqrt (x + e) + sqrt x))).
  2:{ replace e with (sqrt (x + e) * sqrt (x + e) - sqrt x * sqrt x) at 1 by (rewrite E1, E2; ring). field. split; lra. }
  unfold Rdiv. apply Rmult_le_compat_l; [lra|]. apply Rinv_le_contravar; nra.
Qed.
Lemma sqrt_bounded x g : 0 <= x -> Rabs (vjp_sqrt x g) <= 50000 * Rabs g.
Proof.
  intros Hx. rewrite vjp_sqrt_form by auto. assert (E : sqrt (1 / 10 ^ 10) = 1 / 10 ^ 5) by (apply sqrt_lem_1; lra).
  assert (L : 1 / 10 ^ 5 <= sqrt (x + 1 / 10 ^ 10)) by (rewrite <- E; apply sqrt_le_1; lra).
  unfold Rdiv. rewrite Rabs_mult, Rmult_comm. apply Rmult_le_compat_r; [apply Rabs_pos|].
  rewrite Rabs_right by (apply Rle_ge; left; apply Rinv_0_lt_compat; lra).
  apply (Rle_trans _ (/ (2 * (1 / 10 ^ 5)))); [apply Rinv_le_contravar; lra|]. lra.
Qed.

(** ** fmap *)
Lemma rsuml_rs (l : list R) : rsuml l = rs (List.length l) (fun i => nth i l 0).
Proof.
  induction l as [|x l IH]; [reflexivity|]. cbn [List.length]. unfold rsuml in *. cbn [fold_right]. rewrite IH.
  assert (F : forall n f, rs (S n) f = f 0%nat + rs n (fun i => f (S i))) by (induction n; intros f; [cbn; ring|]; cbn [rs] in *; rewrite IHn; cbn; ring).
  rewrite F. reflexivity.
Qed.
Lemma fmap_adjoint grad fns p0 np v P dP : (0 < List.length fns)%nat -> List.length v = List.length fns ->
  (forall f, In f fns -> gradient np f p0 (grad f)) -> P 0 = p0 -> (forall s, List.length (P s) = np) ->
  (forall j, (j < np)%nat -> derivable_pt_lim (fun s => nth j (P s) 0) 0 (dP j)) ->
  exists w, vjp_fmap grad fns np v = Ok w /\ List.length w = np /\
    derivable_pt_lim (fun s => rsumf (List.length fns) (fun i => nth i v 0 * nth i (fmap fns (P s)) 0)) 0 (rsumf np (fun j => nth j w 0 * dP j)).
Proof.
  intros Hn Lv HG HP0 LP HP. unfold vjp_fmap. destruct (Nat.eqb_spec (List.length fns) 0); [lia|].
  eexists. split; [reflexivity|]. split; [rewrite map_length, seq_length; auto|].
  set (nf := List.length fns) in *.
  assert (D : derivable_pt_lim (fun s => rs nf (fun i => nth i v 0 * nth i (fmap fns (P s)) 0)) 0 (rs nf (fun i => nth i v 0 * rs np (fun j => nth j (grad (nth i fns (fun _ => 0))) 0 * dP j)))).
  { apply (rs_dlim nf (fun s i => nth i v 0 * nth i (fmap fns (P s)) 0)). intros i Hi.
    assert (DF : derivable_pt_lim (fun s => nth i (fmap fns (P s)) 0) 0 (rs np (fun j => nth j (grad (nth i fns (fun _ => 0))) 0 * dP j))).
    { apply (dlim_ext (fun s => nth i fns (fun _ => 0) (P s))).
      - intros s. symmetry. exact (map_nth (fun f : list R -> R => f (P s)) fns (fun _ => 0) i).
      - destruct (HG (nth i fns (fun _ => 0)) (nth_In _ _ Hi)) as (_ & G). rewrite <- rsumf_rs. apply G; auto. }
    eapply dlim_val; [|apply (derivable_pt_lim_mult (fun _ => nth i v 0) _ 0 0 _ (derivable_pt_lim_const _ 0) DF)]. ring. }
  apply (dlim_ext (fun s => rs nf (fun i => nth i v 0 * nth i (fmap fns (P s)) 0))); [intros; symmetry; apply rsumf_rs|].
  eapply dlim_val; [|exact D]. rewrite rsumf_rs.
  transitivity (rs np (fun j => rs nf (fun i => nth i v 0 * nth j (grad (nth i fns (fun _ => 0))) 0 * dP j))).
  { rewrite rs_swap. apply rs_ext. intros i Hi. rewrite <- rs_scal_l. apply rs_ext. intros. ring. }
  apply rs_ext. intros j Hj. rewrite rs_scal_r. f_equal.
  set (h j := rsuml (map (fun vg => fst vg * nth j (snd vg) 0) (combine v (map grad fns)))).
  rewrite (nth_indep _ 0 (h 0%nat)) by (rewrite map_length, seq_length; auto). rewrite (map_nth h), seq_nth by auto. cbn [Nat.add]. unfold h.
  rewrite rsuml_rs, map_length, combine_length, map_length, Lv, Nat.min_id. fold nf. apply rs_ext. intros i Hi.
  rewrite (nth_indep (map _ (combine v (map grad fns))) 0 ((fun vg : R * list R => fst vg * nth j (snd vg) 0) (0, []))) by (rewrite map_length, combine_length, map_length, Lv, Nat.min_id; exact Hi).
  rewrite (map_nth (fun vg : R * list R => fst vg * nth j (snd vg) 0)). rewrite combine_nth by (rewrite map_length; auto). cbn [fst snd]. f_equal. f_equal.
  rewrite (nth_indep _ [] (grad (fun _ => 0))) by (rewrite map_length; auto). symmetry. apply (map_nth grad).
Qed.

(** ** eig *)
Lemma eig_fails n Hs xr e u ge gu : vjp_eig n Hs primitives_globals xr e u ge gu = Raise NameError.
Proof. reflexivity. Qed.

(** ** which arguments of fsolve have a gradient *)
Lemma makers_of ginds : List.length (fsolve_makers ginds) = (3 + List.length ginds)%nat /\
  (forall j, (j < 3)%nat -> nth j (fsolve_makers ginds) (Some 0%nat) = None) /\
  forall i, (i < List.length ginds)%nat -> nth (3 + i) (fsolve_makers ginds) None = if nth i ginds false then Some i else None.
Proof.
  unfold fsolve_makers. split; [rewrite app_length, map_length, combine_length, seq_length, Nat.min_id; reflexivity|]. split.
  - intros [|[|[|j]]] Hj; try reflexivity. lia.
  - intros i Hi. cbn [app Nat.add nth]. set (f := fun ig : nat * bool => if snd ig then Some (fst ig) else None).
    rewrite (nth_indep _ None (f (0%nat, false))) by (rewrite map_length, combine_length, seq_length, Nat.min_id; exact Hi).
    rewrite map_nth, combine_nth by apply seq_length. rewrite seq_nth by exact Hi. reflexivity.
Qed.
