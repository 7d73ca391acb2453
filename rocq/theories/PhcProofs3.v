(** Lemmas behind PhcProps.v, third part (C13-C17) *)
From Coq Require Import Permutation.
From Verif Require Import Py LatticeModel LatticeSpec LatticeProofs CBase PhcModel PhcSpec PhcProofs PhcProofs2.
Open Scope R_scope.

(** ** C13 *)
Definition avg_ok (area : R) (ly : layer) : Prop :=
  ly_epsavg ly = mean_eps area (ly_epsb ly) (ly_shapes ly).
Lemma fold_append_avg area ss ly : avg_ok area ly -> avg_ok area (fold_left (append_shape area) ss ly).
Proof.
  intros H. destruct (fold_append area ss ly) as (A & B & _ & _ & _ & _ & E).
  unfold avg_ok, mean_eps in *. rewrite A, B, E, H, map_app, total_app.
  rewrite Rplus_assoc. f_equal. f_equal. f_equal. apply map_ext. intros s. unfold Rdiv; ring.
Qed.
Lemma las_avg area ly a : avg_ok area ly -> avg_ok area (fst (layer_add_shape area ly a)).
Proof.
  intros H. destruct (snd (layer_add_shape area ly a)) as [e|] eqn:E.
  - destruct a as [s|l|]; simpl in *; auto; try discriminate.
    destruct (loop_raise _ _ _ _ E) as (pre & rest & _ & _ & ->). apply fold_append_avg; auto.
  - destruct (las_ok _ _ _ E) as (ss & _ & ->). apply fold_append_avg; auto.
Qed.
Definition AvgInv (P : phc) : Prop := forall ly, region_of P ly -> avg_ok (lt_ec_area (pc_lattice P)) ly.

Lemma in_set_nth {A} k (x : A) l y : In y (set_nth k x l) -> y = x \/ In y l.
Proof.
  revert k; induction l as [|h t IH]; intros [|k] H; simpl in *; auto.
  - destruct H; auto.
  - destruct H as [|H]; auto. destruct (IH k H); auto.
Qed.

Lemma step_lattice P o : pc_lattice (fst (step P o)) = pc_lattice P.
Proof.
  destruct o as [d eb ty|q|a li c]; simpl.
  - unfold add_layer. destruct (String.eqb _ _); auto. destruct (String.eqb _ _); auto.
  - unfold add_qw. destruct (orb _ _); auto.
  - unfold phc_add_shape. destruct (clad_target c) as [[[|]|]|]; auto.
    + destruct (layer_add_shape _ _ _); auto.
    + destruct (layer_add_shape _ _ _); auto.
    + destruct (_ <=? li)%Z; auto. destruct (py_index _ _); auto.
      destruct (nth_error _ _); auto. destruct (layer_add_shape _ _ _); auto.
Qed.
Lemma run_lattice l : forall P, pc_lattice (run_ops P l) = pc_lattice P.
Proof.
  induction l as [|o l IH]; intros P; auto. rewrite <- (step_lattice P o). apply (IH (fst (step P o))).
Qed.

Lemma AvgInv_step P o : AvgInv P -> AvgInv (fst (step P o)).
Proof.
  intros I. destruct o as [d eb ty|q|a li c]; simpl.
  - unfold add_layer. destruct (String.eqb (lower ty) "shapes"); [|destruct (String.eqb _ _); auto].
    intros ly [H|[->| ->]]; simpl in *.
    + apply in_app_or in H. destruct H as [H|[<-|[]]].
      * apply I; left; auto.
      * unfold avg_ok, mean_eps; simpl. ring.
    + apply I; right; left; auto.
    + apply (I (pc_clad_u P)); right; right; auto.
  - unfold add_qw. destruct (orb _ _); auto.
  - unfold phc_add_shape. destruct (clad_target c) as [[[|]|]|]; auto.
    + destruct (layer_add_shape _ (pc_clad_u P) a) as [ly r] eqn:E. simpl.
      intros l [H|[->| ->]]; simpl in *.
      * apply I; left; auto. * apply I; right; left; auto.
      * pose proof (las_avg (lt_ec_area (pc_lattice P)) (pc_clad_u P) a) as Q. rewrite E in Q. apply Q.
        apply I; right; right; auto.
    + destruct (layer_add_shape _ (pc_clad_l P) a) as [ly r] eqn:E. simpl.
      intros l [H|[->| ->]]; simpl in *.
      * apply I; left; auto.
      * pose proof (las_avg (lt_ec_area (pc_lattice P)) (pc_clad_l P) a) as Q. rewrite E in Q. apply Q.
        apply I; right; left; auto.
      * apply I; right; right; auto.
    + destruct (_ <=? li)%Z; auto. destruct (py_index _ _) as [k|]; auto.
      destruct (nth_error (pc_layers P) k) as [l0|] eqn:Hn; auto.
      destruct (layer_add_shape _ l0 a) as [ly r] eqn:E. simpl.
      intros l [H|[->| ->]]; simpl in *.
      * apply in_set_nth in H. destruct H as [->|H]; [|apply I; left; auto].
        pose proof (las_avg (lt_ec_area (pc_lattice P)) l0 a) as Q. rewrite E in Q. apply Q.
        apply I; left. eapply nth_error_In; eauto.
      * apply I; right; left; auto. * apply I; right; right; auto.
Qed.
Lemma AvgInv_run l : forall P, AvgInv P -> AvgInv (run_ops P l).
Proof. induction l as [|o l IH]; intros P H; simpl; auto. apply IH. apply AvgInv_step; auto. Qed.
Lemma AvgInv_reach L el eu ops : AvgInv (run_ops (phc_init L el eu) ops).
Proof.
  apply AvgInv_run. intros ly [[]|[->| ->]]; unfold avg_ok, mean_eps; simpl; ring.
Qed.

Lemma total_perm l m : Permutation l m -> total l = total m.
Proof. induction 1; simpl; try lra. Qed.
Lemma mean_eps_perm area eb l m : Permutation l m -> mean_eps area eb l = mean_eps area eb m.
Proof. intros H. unfold mean_eps. f_equal. apply total_perm. apply Permutation_map; auto. Qed.

Lemma mean_lower area eb lo ss : 0 < area -> lo <= eb ->
  (forall s, In s ss -> 0 <= sh_area s /\ lo <= sh_eps s) ->
  total (map sh_area ss) <= area -> lo <= mean_eps area eb ss.
Proof.
  intros Ha Hb Hs Ht. unfold mean_eps.
  assert (G : (lo - eb) * (total (map sh_area ss) / area) <=
     total (map (fun s => (sh_eps s - eb) * (sh_area s / area)) ss)).
  { clear Ht. induction ss as [|s ss IH]; simpl; [unfold Rdiv; lra|].
    destruct (Hs s (or_introl eq_refl)) as [A B].
    specialize (IH (fun x Hx => Hs x (or_intror Hx))).
    assert (0 <= sh_area s / area) by (apply Rmult_le_pos; auto; left; apply Rinv_0_lt_compat; auto).
    replace ((lo - eb) * ((sh_area s + total (map sh_area ss)) / area)) with
      ((lo - eb) * (sh_area s / area) + (lo - eb) * (total (map sh_area ss) / area))
      by (unfold Rdiv; ring).
    apply Rplus_le_compat; auto. apply Rmult_le_compat_r; auto. lra. }
  assert (total (map sh_area ss) / area <= 1).
  { apply (Rmult_le_reg_r area); auto. unfold Rdiv. rewrite Rmult_assoc, Rinv_l; lra. }
  assert (lo - eb <= (lo - eb) * (total (map sh_area ss) / area)); [|lra].
  rewrite <- (Rmult_1_r (lo - eb)) at 1.
  assert ((eb - lo) * (total (map sh_area ss) / area) <= (eb - lo) * 1); [|lra].
  apply Rmult_le_compat_l; lra.
Qed.
Lemma mean_upper area eb hi ss : 0 < area -> eb <= hi ->
  (forall s, In s ss -> 0 <= sh_area s /\ sh_eps s <= hi) ->
  total (map sh_area ss) <= area -> mean_eps area eb ss <= hi.
Proof.
  intros Ha Hb Hs Ht.
  set (neg := fun s => mkShape (- sh_eps s) (sh_area s) (sh_inside s) (sh_ft s)).
  pose proof (mean_lower area (- eb) (- hi) (map neg ss) Ha ltac:(lra)) as H.
  assert (E : mean_eps area (- eb) (map neg ss) = - mean_eps area eb ss).
  { unfold mean_eps. rewrite map_map. clear. induction ss as [|s ss IH]; simpl in *; [ring|].
    unfold Rdiv in *; lra. }
  rewrite E in H. rewrite map_map in H. simpl in H. 
  enough (- hi <= - mean_eps area eb ss) by lra. apply H; auto.
  intros s Hin. apply in_map_iff in Hin. destruct Hin as (s' & <- & Hin). simpl.
  destruct (Hs s' Hin); lra.
Qed.

Lemma eps_avg_mean L el eu ops ly :
  let P := run_ops (phc_init L el eu) ops in region_of P ly ->
  ly_epsavg ly = mean_eps (lt_ec_area L) (ly_epsb ly) (ly_shapes ly).
Proof.
  intros P H. pose proof (AvgInv_reach L el eu ops ly H) as A. rewrite run_lattice in A. exact A.
Qed.
Lemma eps_avg_between L el eu ops ly lo hi :
  let P := run_ops (phc_init L el eu) ops in region_of P ly ->
  0 < lt_ec_area L ->
  (forall s, In s (ly_shapes ly) -> 0 <= sh_area s /\ lo <= sh_eps s <= hi) -> lo <= ly_epsb ly <= hi ->
  total (map sh_area (ly_shapes ly)) <= lt_ec_area L -> lo <= ly_epsavg ly <= hi.
Proof.
  intros P H Ha Hs Hb Ht. rewrite (eps_avg_mean L el eu ops ly H). split.
  - apply mean_lower; auto; try lra. intros s Hin. destruct (Hs s Hin); lra.
  - apply mean_upper; auto; try lra. intros s Hin. destruct (Hs s Hin); lra.
Qed.

(** ** C14 *)
Lemma near_zero_iff g : near_zero g = true <-> is_g0 g.
Proof. unfold near_zero, is_g0. rewrite Rltb_true. unfold Rdiv. rewrite Rmult_1_l. tauto. Qed.

Definition contrib (eb : R) (g : R * R) (s : shape) : C :=
  Cmult (RtoC (sh_eps s - eb)) (sh_ft s g).
Lemma fold_contrib eb g ss acc :
  fold_left (fun acc s => Cplus acc (Cmult (RtoC (sh_eps s - eb)) (sh_ft s g))) ss acc =
  Cplus acc (clsum (map (contrib eb g) ss)).
Proof.
  revert acc; induction ss as [|s ss IH]; intros acc; simpl; [ring|].
  rewrite IH. unfold contrib at 2. ring.
Qed.
Lemma layer_ft_zero area ly g : is_g0 g -> layer_ft_at area ly g = RtoC (ly_epsavg ly).
Proof.
  intros H. apply near_zero_iff in H. unfold layer_ft_at. rewrite H.
  replace (1 - 1) with 0 by ring. rewrite Rmult_1_r. ring.
Qed.
Lemma layer_ft_nonzero area ly g : ~ is_g0 g -> layer_ft_at area ly g =
  Cdiv (clsum (map (contrib (ly_epsb ly) g) (ly_shapes ly))) (RtoC area).
Proof.
  intros H. assert (E : near_zero g = false).
  { destruct (near_zero g) eqn:E; auto. apply near_zero_iff in E. tauto. }
  unfold layer_ft_at. rewrite E, fold_contrib, Rmult_0_r, Rminus_0_r. unfold Cdiv. ring.
Qed.
Lemma clsum_perm l m : Permutation l m -> clsum l = clsum m.
Proof. induction 1; simpl; auto; try congruence. ring. Qed.
Lemma clsum_app l m : clsum (l ++ m) = Cplus (clsum l) (clsum m).
Proof. induction l; simpl; [ring|rewrite IHl; ring]. Qed.
Lemma clsum_conj l : Cconj (clsum l) = clsum (map Cconj l).
Proof. induction l; simpl; [cring|rewrite Cconj_plus, IHl; auto]. Qed.

Lemma is_g0_neg g : is_g0 (- fst g, - snd g) <-> is_g0 g.
Proof. unfold is_g0; simpl. rewrite !Rabs_Ropp. tauto. Qed.

Lemma layer_ft_hermitian area ly g : is_g0 g \/ ~ is_g0 g ->
  (forall s, In s (ly_shapes ly) -> sh_ft s (- fst g, - snd g) = Cconj (sh_ft s g)) ->
  layer_ft_at area ly (- fst g, - snd g) = Cconj (layer_ft_at area ly g).
Proof.
  intros [H|H] Hs.
  - rewrite !layer_ft_zero; auto. rewrite Cconj_R; auto. apply is_g0_neg; auto.
  - rewrite !layer_ft_nonzero; auto. 2:{ rewrite is_g0_neg; auto. }
    rewrite Cconj_div, Cconj_R, clsum_conj, map_map. f_equal. f_equal. apply map_ext_in.
    intros s Hin. unfold contrib. rewrite (Hs s Hin), Cconj_mult, Cconj_R. auto.
Qed.

(** ** C15 *)
Lemma zrange_in n k : In k (zrange n) <-> (- n <= k <= n)%Z.
Proof.
  unfold zrange. rewrite in_map_iff. split.
  - intros (j & <- & Hj). apply in_seq in Hj. lia.
  - intros H. exists (Z.to_nat (k + n)). split; [lia|]. apply in_seq. lia.
Qed.
Lemma fold_if {A} (f : A -> bool) (v : R) l : forall e,
  fold_left (fun e a => if f a then v else e) l e = if existsb f l then v else e.
Proof.
  induction l as [|a l IH]; intros e; simpl; auto. rewrite IH.
  destruct (f a); simpl; auto. destruct (existsb f l); auto.
Qed.
Definition coverb (L : lattice) (N : Z) (s : shape) (p : R * R) : bool :=
  existsb (fun n1 => existsb (fun n2 =>
     sh_inside s (fst p + IZR n1 * fst (lt_a1 L) + IZR n2 * fst (lt_a2 L))
                 (snd p + IZR n1 * snd (lt_a1 L) + IZR n2 * snd (lt_a2 L))) (zrange N)) (zrange N).
Lemma coverb_iff L N s p : coverb L N s p = true <-> covers L N s p.
Proof.
  unfold coverb, covers. rewrite existsb_exists. split.
  - intros (n1 & H1 & H). rewrite existsb_exists in H. destruct H as (n2 & H2 & H).
    exists n1, n2. rewrite <- !zrange_in. auto.
  - intros (n1 & n2 & H1 & H2 & H). exists n1. rewrite zrange_in. split; auto.
    rewrite existsb_exists. exists n2. rewrite zrange_in. auto.
Qed.
Lemma fold_left_ext {A B} (f g : A -> B -> A) l : (forall a b, f a b = g a b) ->
  forall a, fold_left f l a = fold_left g l a.
Proof. intros H; induction l as [|b l IH]; intros a; simpl; auto. rewrite H; auto. Qed.
Lemma eps_at_eq L ly N p : eps_at L ly N p =
  fold_left (fun e s => if coverb L N s p then sh_eps s else e) (ly_shapes ly) (ly_epsb ly).
Proof.
  unfold eps_at. apply fold_left_ext. intros e s.
  rewrite (fold_left_ext _ (fun e n1 => if existsb (fun n2 =>
     sh_inside s (fst p + IZR n1 * fst (lt_a1 L) + IZR n2 * fst (lt_a2 L))
                 (snd p + IZR n1 * snd (lt_a1 L) + IZR n2 * snd (lt_a2 L))) (zrange N) then sh_eps s else e)).
  - rewrite fold_if. reflexivity.
  - intros e' n1. apply fold_if.
Qed.
Lemma fold_last (f : shape -> bool) (cov : shape -> Prop) : (forall s, f s = true <-> cov s) ->
  forall ss e, last_wins cov e ss (fold_left (fun e s => if f s then sh_eps s else e) ss e).
Proof.
  intros Hf ss. induction ss as [|s ss IH] using rev_ind; intros e; simpl.
  - right; split; auto.
  - rewrite fold_left_app. simpl. destruct (f s) eqn:E.
    + left. exists ss, s, []. repeat split; auto. apply Hf; auto.
    + assert (Hn : ~ cov s) by (intros H; apply Hf in H; congruence).
      destruct (IH e) as [(pre & x & post & E1 & E2 & E3 & E4)|[E1 E2]].
      * left. exists pre, x, (post ++ [s]). rewrite E1. rewrite <- app_assoc. repeat split; auto.
        -- rewrite <- E1. exact E3.
        -- intros t Ht. apply in_app_or in Ht. destruct Ht as [Ht|[<-|[]]]; auto.
      * right. split; auto. intros t Ht. apply in_app_or in Ht. destruct Ht as [Ht|[<-|[]]]; auto.
Qed.
Lemma eps_at_last L ly N p : last_wins (fun s => covers L N s p) (ly_epsb ly) (ly_shapes ly) (eps_at L ly N p).
Proof. rewrite eps_at_eq. apply (fold_last (fun s => coverb L N s p)). intros; apply coverb_iff. Qed.

Lemma last_wins_fun cov e ss v w : last_wins cov e ss v -> last_wins cov e ss w -> v = w.
Proof.
  revert v w. induction ss as [|s ss IH] using rev_ind; intros v w Hv Hw.
  - destruct Hv as [(pre & s & post & E & _)|[-> _]]; [destruct pre; discriminate|].
    destruct Hw as [(pre & s & post & E & _)|[-> _]]; [destruct pre; discriminate|auto].
  - assert (G : forall v, last_wins cov e (ss ++ [s]) v ->
      (cov s /\ v = sh_eps s) \/ (~ cov s /\ last_wins cov e ss v)).
    { clear. intros v [(pre & x & post & E & Hc & Hv & Hp)|[-> Hn]].
      - destruct post as [|y post'] using rev_ind.
        + apply app_inj_tail in E. destruct E; subst. left; auto.
        + clear IHpost'. rewrite app_comm_cons, app_assoc in E. apply app_inj_tail in E.
          destruct E as [E1 E2]; subst y. right. split.
          * apply Hp. apply in_or_app; right; left; auto.
          * left. exists pre, x, post'. repeat split; auto. intros t Ht. apply Hp, in_or_app; auto.
      - right. split; [apply Hn, in_or_app; right; left; auto|]. right; split; auto.
        intros t Ht. apply Hn, in_or_app; auto. }
    destruct (G v Hv) as [[A1 A2]|[A1 A2]], (G w Hw) as [[B1 B2]|[B1 B2]]; subst; auto; tauto.
Qed.
Lemma last_wins_ext cov cov' e ss v : (forall s, In s ss -> (cov s <-> cov' s)) ->
  last_wins cov e ss v -> last_wins cov' e ss v.
Proof.
  intros H [(pre & s & post & E & Hc & Hv & Hp)|[-> Hn]].
  - left. exists pre, s, post. assert (In s ss) by (rewrite E; apply in_or_app; right; left; auto).
    repeat split; auto. apply H; auto. intros t Ht Hc'. apply (Hp t Ht). apply H; auto.
    rewrite E. apply in_or_app; right; right; auto.
  - right; split; auto. intros t Ht Hc. apply (Hn t Ht), H; auto.
Qed.
Lemma last_wins_present cov e ss v : last_wins cov e ss v -> v = e \/ exists s, In s ss /\ v = sh_eps s.
Proof.
  intros [(pre & s & post & E & Hc & Hv & Hp)|[-> Hn]]; auto.
  right. exists s; split; auto. rewrite E; apply in_or_app; right; left; auto.
Qed.

Lemma layer_value L ly pts vs j p v : layer_get_eps L ly pts = Ok vs ->
  nth_error pts j = Some p -> nth_error vs j = Some v ->
  last_wins (fun s => covers L (nmax_of L pts) s p) (ly_epsb ly) (ly_shapes ly) v.
Proof.
  unfold layer_get_eps. destruct pts as [|p0 t] eqn:E; [discriminate|]. rewrite <- E. intros H Hp Hv.
  injection H as <-. rewrite nth_error_map, Hp in Hv. simpl in Hv. injection Hv as <-. apply eps_at_last.
Qed.
Lemma layer_value_present L ly pts vs v : layer_get_eps L ly pts = Ok vs -> In v vs ->
  v = ly_epsb ly \/ exists s, In s (ly_shapes ly) /\ v = sh_eps s.
Proof.
  unfold layer_get_eps. destruct pts as [|p0 t] eqn:E; [discriminate|]. rewrite <- E. intros H Hv.
  injection H as <-. apply in_map_iff in Hv. destruct Hv as (p & <- & _).
  eapply last_wins_present. apply eps_at_last.
Qed.

Definition bnd_step (mm : R * R) (x : R) : R * R := (Rmin (fst mm) x, Rmax (snd mm) x).
Lemma fold_bnd l : forall mm, let r := fold_left bnd_step l mm in
  (fst r = fst mm \/ In (fst r) l) /\ (snd r = snd mm \/ In (snd r) l) /\
  fst r <= fst mm /\ snd mm <= snd r /\ (forall x, In x l -> fst r <= x <= snd r).
Proof.
  induction l as [|x l IH]; intros mm; cbn zeta; simpl.
  - repeat split; auto; try lra; contradiction.
  - destruct (IH (bnd_step mm x)) as (A & B & D & E & F). unfold bnd_step in *. simpl in *.
    pose proof (Rmin_l (fst mm) x). pose proof (Rmin_r (fst mm) x).
    pose proof (Rmax_l (snd mm) x). pose proof (Rmax_r (snd mm) x).
    repeat split.
    + destruct A as [A|A]; auto. rewrite A. unfold Rmin. destruct (Rle_dec _ _); auto.
    + destruct B as [B|B]; auto. rewrite B. unfold Rmax. destruct (Rle_dec _ _); auto.
    + lra. + lra.
    + destruct H3 as [<-|Hin]; [lra|apply F; auto].
    + destruct H3 as [<-|Hin]; [lra|apply F; auto].
Qed.
Definition all_eps (regs : list layer) : list R :=
  flat_map (fun ly => ly_epsb ly :: map sh_eps (ly_shapes ly)) regs.
Lemma bounds_eq P : get_eps_bounds P =
  fold_left bnd_step (all_eps (regions P)) (ly_epsb (pc_clad_l P), ly_epsb (pc_clad_l P)).
Proof.
  unfold get_eps_bounds. generalize (ly_epsb (pc_clad_l P), ly_epsb (pc_clad_l P)).
  induction (regions P) as [|ly regs IH]; intros mm; auto. cbn [all_eps flat_map fold_left].
  rewrite IH. rewrite <- app_comm_cons. cbn [fold_left]. rewrite fold_left_app. f_equal.
  change (Rmin (fst mm) (ly_epsb ly), Rmax (snd mm) (ly_epsb ly)) with (bnd_step mm (ly_epsb ly)).
  generalize (bnd_step mm (ly_epsb ly)). induction (ly_shapes ly) as [|s ss IHs]; intros m; simpl; auto.
Qed.
Lemma all_eps_present P e : In e (all_eps (regions P)) <-> present P e.
Proof.
  unfold all_eps, present, regions. rewrite in_flat_map. split.
  - intros (ly & Hin & [<-|He]).
    + exists ly. split; auto. apply in_app_or in Hin. destruct Hin as [|[<-|[<-|[]]]]; auto.
    + exists ly. split; [apply in_app_or in Hin; destruct Hin as [|[<-|[<-|[]]]]; auto|].
      right. apply in_map_iff in He. destruct He as (s & <- & Hs). eauto.
  - intros (ly & Hr & He). exists ly. split.
    + apply in_or_app. destruct Hr as [|[->| ->]]; simpl; auto.
    + destruct He as [->|(s & Hs & ->)]; [left; auto|right; apply in_map; auto].
Qed.
Lemma bounds_correct P : let '(lo, hi) := get_eps_bounds P in
  present P lo /\ present P hi /\ forall e, present P e -> lo <= e <= hi.
Proof.
  rewrite bounds_eq.
  pose proof (fold_bnd (all_eps (regions P)) (ly_epsb (pc_clad_l P), ly_epsb (pc_clad_l P))) as H.
  cbn zeta in H. destruct (fold_left bnd_step _ _) as [lo hi]. simpl in H.
  destruct H as (A & B & _ & _ & F).
  assert (Hc : present P (ly_epsb (pc_clad_l P))) by (exists (pc_clad_l P); split; auto).
  repeat split.
  - destruct A as [->|A]; auto. apply all_eps_present; auto.
  - destruct B as [->|B]; auto. apply all_eps_present; auto.
  - apply F. apply all_eps_present; auto. - apply F. apply all_eps_present; auto.
Qed.

Lemma get_eps_in_bounds P pts res j p v : phc_get_eps P pts = Ok res ->
  nth_error pts j = Some p -> nth_error res j = Some v ->
  (exists i, region_has P i (snd p)) -> fst (get_eps_bounds P) <= v <= snd (get_eps_bounds P).
Proof.
  intros H Hp Hv (i & ly0 & Hi & Hb).
  unfold phc_get_eps in H.
  destruct (get_eps_loop_spec (pc_lattice P) (map fst pts) (map snd pts)
     ltac:(rewrite !map_length; auto) (regions P) (map (fun _ => 0) pts)
     ltac:(rewrite !map_length; auto)) as (r & Hr & Hlr & _ & Hpt).
  rewrite H in Hr. injection Hr as <-.
  assert (Hj : (j < List.length (map snd pts))%nat).
  { rewrite map_length. apply nth_error_Some; congruence. }
  pose proof (bounds_correct P) as BC. destruct (get_eps_bounds P) as [lo hi]. simpl.
  destruct BC as (_ & _ & BC).
  destruct (Hpt j Hj) as [(ly & v' & vs & Hin & Hm & Hv' & Hvs & Hvin)|[Hno _]].
  - rewrite Hv in Hv'. injection Hv' as <-. apply BC.
    exists ly. split.
    + unfold regions in Hin. apply in_app_or in Hin. destruct Hin as [|[<-|[<-|[]]]]; auto.
    + eapply layer_value_present; eauto.
  - exfalso. pose proof (Hno ly0 (nth_error_In _ _ Hi)) as Hf.
    assert (Ht : nth_error (zmask ly0 (map snd pts)) j = Some true).
    { apply zmask_nth. exists (snd p). rewrite nth_error_map, Hp. auto. }
    congruence.
Qed.
Lemma get_eps_in_bounds_reach L el eu ops pts res j p v :
  let P := run_ops (phc_init L el eu) ops in phc_get_eps P pts = Ok res ->
  nth_error pts j = Some p -> nth_error res j = Some v -> - 10 ^ 10 <= snd p < 10 ^ 10 ->
  fst (get_eps_bounds P) <= v <= snd (get_eps_bounds P).
Proof.
  intros P H Hp Hv Hz. eapply get_eps_in_bounds; eauto.
  eapply Geo_cover; [apply Geo_reach|auto].
Qed.
