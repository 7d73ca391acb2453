(** C18-C21 continued: FourierShape, conjugate symmetry, translation, rotation. *)
From Coq Require Import Permutation Nsatz.
From Verif Require Import Py LatticeSpec CBase PhcModel ShapesModel ShapesSpec ShapesProofs.
Open Scope R_scope.
Open Scope list_scope.

(** ** FourierShape *)
Lemma rsuml_cons x l : rsuml (x :: l) = x + rsuml l. Proof. reflexivity. Qed.
Lemma add_cos_spec n f phi acc :
  add_cos n f phi acc = acc + rsuml (map (fun k => nth k f 0 * cos (INR (n + k + 1) * phi)) (seq 0 (List.length f))).
Proof.
  revert n acc. induction f as [|a t IH]; intros n acc; [unfold rsuml; simpl; ring|].
  cbn [add_cos]. rewrite IH. cbn [List.length seq map]. rewrite <- seq_shift, map_map, rsuml_cons.
  rewrite Nat.add_0_r. cbn [nth]. rewrite Rplus_assoc. f_equal. f_equal. apply rsuml_ext.
  intros k _. do 4 f_equal. lia.
Qed.
Lemma add_sin_spec n f phi acc :
  add_sin n f phi acc = acc + rsuml (map (fun k => nth k f 0 * sin (INR (n + k + 1) * phi)) (seq 0 (List.length f))).
Proof.
  revert n acc. induction f as [|a t IH]; intros n acc; [unfold rsuml; simpl; ring|].
  cbn [add_sin]. rewrite IH. cbn [List.length seq map]. rewrite <- seq_shift, map_map, rsuml_cons.
  rewrite Nat.add_0_r. cbn [nth]. rewrite Rplus_assoc. f_equal. f_equal. apply rsuml_ext.
  intros k _. do 4 f_equal. lia.
Qed.
Lemma r_phi_spec a0 fas fbs phi : r_phi a0 fas fbs phi = fourier_radius (a0 :: fas) fbs phi.
Proof.
  unfold r_phi, fourier_radius. rewrite add_sin_spec, add_cos_spec. simpl List.length.
  replace (S (List.length fas) - 1)%nat with (List.length fas) by lia.
  rewrite <- !seq_shift, !map_map. cbn [nth]. f_equal; [f_equal|]; apply rsuml_ext; intros k _.
  - replace (0 + k + 1)%nat with (S k) by lia. reflexivity.
  - replace (0 + k + 1)%nat with (S k) by lia. replace (S k - 1)%nat with k by lia. reflexivity.
Qed.

Definition sample (npts i : nat) : R := INR i * (2 * PI / INR npts).
Lemma combine_map2 {A B D} (f : A -> B) (g : A -> D) l : combine (map f l) (map g l) = map (fun x => (f x, g x)) l.
Proof. induction l; simpl; auto. f_equal; auto. Qed.

Lemma sin_step_nonneg n : 0 <= sin (2 * PI / INR n).
Proof.
  pose proof PI_RGT_0.
  destruct n as [|[|n]].
  - simpl. unfold Rdiv. rewrite Rinv_0, Rmult_0_r, sin_0. lra.
  - simpl. unfold Rdiv. rewrite Rinv_1, Rmult_1_r, sin_2PI. lra.
  - assert (2 <= INR (S (S n))) by (rewrite !S_INR; pose proof (pos_INR n); lra).
    apply sin_ge_0.
    + apply Rmult_le_pos; [lra|]. left. apply Rinv_0_lt_compat; lra.
    + apply Rmult_le_reg_r with (INR (S (S n))); [lra|]. unfold Rdiv. rewrite Rmult_assoc, Rinv_l by lra. nra.
Qed.

Lemma fourier_area (rad : R -> R) n :
  signed_area (map (fun p => (rad p * cos p, rad p * sin p)) (phis n)) =
  / 2 * sin (2 * PI / INR n) * rsuml (map (fun i => rad (sample n i) * rad (sample n (S i))) (seq 0 n)).
Proof.
  unfold signed_area. rewrite map_length. unfold phis. rewrite map_length, seq_length.
  rewrite Rmult_assoc. f_equal. rewrite map_map.
  assert (V : forall i, (i <= n)%nat -> vert (map (fun x => (rad (INR x * (2 * PI / INR n)) * cos (INR x * (2 * PI / INR n)),
        rad (INR x * (2 * PI / INR n)) * sin (INR x * (2 * PI / INR n)))) (seq 0 (S n))) i =
        (rad (sample n i) * cos (sample n i), rad (sample n i) * sin (sample n i))).
  { intros i Hi. unfold vert. rewrite map_length, seq_length, Nat.mod_small by lia.
    set (g := fun x => _). rewrite (nth_indep _ _ (g 0%nat)) by (rewrite map_length, seq_length; lia).
    rewrite map_nth, seq_nth by lia. reflexivity. }
  set (vs := map _ (seq 0 (S n))) in *.
  rewrite seq_S, map_app, rsuml_app. simpl plus.
  assert (L : rsuml (map (fun i => det (vert vs i) (vert vs (S i))) [n]) = 0).
  { unfold rsuml; simpl map; simpl fold_right. rewrite V by lia.
    assert (E : vert vs (S n) = vert vs 0).
    { unfold vert. unfold vs. rewrite map_length, seq_length, Nat.mod_same, Nat.mod_0_l by lia. auto. }
    rewrite E, V by lia. unfold det; cbn [fst snd].
    assert (S0 : sin (sample n 0) = 0) by (unfold sample; simpl INR; rewrite Rmult_0_l; apply sin_0).
    assert (Sn : sin (sample n n) = 0).
    { destruct n; [exact S0|]. unfold sample.
      replace (INR (S n) * (2 * PI / INR (S n))) with (2 * PI) by (field; apply not_0_INR; lia). apply sin_2PI. }
    rewrite S0, Sn. ring. }
  rewrite L, Rplus_0_r, <- rsuml_scal. apply rsuml_ext. intros i Hi. apply in_seq in Hi.
  rewrite !V by lia. unfold det; cbn [fst snd].
  replace (2 * PI / INR n) with (sample n (S i) - sample n i) by (unfold sample; rewrite S_INR; ring).
  rewrite sin_minus. ring.
Qed.

Lemma fourier_ok eps xc yc f_as f_bs npts : f_as <> [] ->
  (forall i, (i <= npts)%nat -> 0 <= fourier_radius f_as f_bs (INR i * (2 * PI / INR npts))) ->
  exists P, fourier_init eps xc yc f_as f_bs npts = Ok P /\ po_eps P = eps /\ 0 <= po_area P /\
   po_area P = / 2 * sin (2 * PI / INR npts) *
     rsuml (map (fun i => fourier_radius f_as f_bs (INR i * (2 * PI / INR npts)) *
                          fourier_radius f_as f_bs (INR (S i) * (2 * PI / INR npts))) (seq 0 npts)).
Proof.
  intros Hne H. destruct f_as as [|a0 fas]; [congruence|]. unfold fourier_init.
  assert (E : existsb (fun r => Rltb r 0) (map (r_phi a0 fas f_bs) (phis npts)) = false).
  { apply not_true_is_false. intros E. apply existsb_exists in E. destruct E as (r & Hr & Hlt).
    apply in_map_iff in Hr. destruct Hr as (p & <- & Hp). unfold phis in Hp. apply in_map_iff in Hp.
    destruct Hp as (i & <- & Hi). apply in_seq in Hi. apply Rltb_true in Hlt. rewrite r_phi_spec in Hlt.
    specialize (H i ltac:(lia)). lra. }
  rewrite E. clear E.
  set (rad := r_phi a0 fas f_bs). set (ar := / 2 * _ * _).
  assert (A : signed_area (combine (map (fun p => rad p * cos p + xc) (phis npts)) (map (fun p => rad p * sin p + yc) (phis npts))) = ar).
  { rewrite combine_map2.
    rewrite (map_ext (fun x => (rad x * cos x + xc, rad x * sin x + yc)) (fun x => shift (xc, yc) (rad x * cos x, rad x * sin x)))
      by reflexivity.
    rewrite <- (map_map (fun x => (rad x * cos x, rad x * sin x)) (shift (xc, yc))).
    rewrite signed_area_shift, fourier_area. unfold ar. f_equal. apply rsuml_ext. intros i _.
    unfold rad, sample. rewrite !r_phi_spec. auto. }
  assert (A0 : 0 <= ar).
  { unfold ar. apply Rmult_le_pos; [pose proof (sin_step_nonneg npts); lra|].
    assert (G : forall l, (forall i, In i l -> (S i <= npts)%nat) -> 0 <= rsuml (map (fun i =>
        fourier_radius (a0 :: fas) f_bs (INR i * (2 * PI / INR npts)) *
        fourier_radius (a0 :: fas) f_bs (INR (S i) * (2 * PI / INR npts))) l)).
    { induction l as [|i l IH]; intros Hl; [unfold rsuml; simpl; lra|]. cbn [map]. unfold rsuml in *. cbn [fold_right].
      apply Rplus_le_le_0_compat; [|apply IH; intros; apply Hl; right; auto].
      apply Rmult_le_pos; apply H; pose proof (Hl i (or_introl eq_refl)); lia. }
    apply G. intros i Hi. apply in_seq in Hi. lia. }
  destruct (poly_init_spec eps (map (fun p => rad p * cos p + xc) (phis npts)) (map (fun p => rad p * sin p + yc) (phis npts)))
    as [_ HP]; [discriminate|rewrite !map_length; auto|]. cbv zeta in HP. rewrite A in HP.
  destruct (HP A0) as (P & H1 & H2 & H3 & _). exists P. rewrite H3. auto.
Qed.
Lemma fourier_rejects eps xc yc f_as f_bs npts i : f_as <> [] -> (i <= npts)%nat ->
  fourier_radius f_as f_bs (INR i * (2 * PI / INR npts)) < 0 ->
  fourier_init eps xc yc f_as f_bs npts = Raise ValueError.
Proof.
  intros Hne Hi H. destruct f_as as [|a0 fas]; [congruence|]. unfold fourier_init.
  assert (E : existsb (fun r => Rltb r 0) (map (r_phi a0 fas f_bs) (phis npts)) = true).
  { apply existsb_exists. exists (r_phi a0 fas f_bs (sample npts i)). split.
    - apply in_map. unfold phis. apply in_map_iff. exists i. split; auto. apply in_seq; lia.
    - apply Rltb_true. rewrite r_phi_spec. auto. }
  rewrite E. auto.
Qed.

(** ** conjugate symmetry *)
Lemma csuml_conj l : Cconj (csuml l) = csuml (map Cconj l).
Proof. induction l; simpl; [cring|]. rewrite Cconj_plus, IHl. auto. Qed.
Lemma csuml_ext {A} (f g : A -> C) l : (forall x, In x l -> f x = g x) -> csuml (map f l) = csuml (map g l).
Proof. intros H. f_equal. apply map_ext_in; auto. Qed.
Lemma csuml_scal {A} (f : A -> C) c l : csuml (map (fun x => Cmult c (f x)) l) = Cmult c (csuml (map f l)).
Proof. induction l; simpl; [ring|]. rewrite IHl. ring. Qed.
Lemma csuml_plus {A} (f g : A -> C) l : csuml (map (fun x => Cplus (f x) (g x)) l) = Cplus (csuml (map f l)) (csuml (map g l)).
Proof. induction l; simpl; [ring|]. rewrite IHl. ring. Qed.

Definition neg (g : R * R) : R * R := (- fst g, - snd g).
Lemma circle_conj j1 xc yc r g : circle_ft j1 xc yc r (neg g) = Cconj (circle_ft j1 xc yc r g).
Proof.
  unfold circle_ft, neg; cbn [fst snd]. rewrite Cconj_mult, Cconj_R, expi_conj.
  replace ((- fst g) ^ 2) with (fst g ^ 2) by ring. replace ((- snd g) ^ 2) with (snd g ^ 2) by ring.
  f_equal. f_equal. ring.
Qed.
Lemma ellipse_conj j1 xc yc rx ry phi g :
  ellipse_ft j1 xc yc rx ry phi (neg g) = Cconj (ellipse_ft j1 xc yc rx ry phi g).
Proof.
  unfold ellipse_ft, neg; cbn [fst snd]. rewrite Cconj_mult, Cconj_R, expi_conj.
  replace (((- fst g * cos phi + - snd g * sin phi) * rx) ^ 2) with (((fst g * cos phi + snd g * sin phi) * rx) ^ 2) by ring.
  replace (((- - fst g * sin phi + - snd g * cos phi) * ry) ^ 2) with (((- fst g * sin phi + snd g * cos phi) * ry) ^ 2) by ring.
  f_equal. f_equal. ring.
Qed.
Lemma term_gx0_conj rg gx gy e : term_gx0 rg (- gx) (- gy) e = Cconj (term_gx0 rg gx gy e).
Proof.
  unfold term_gx0. set (a := 1 / slope rg e). cbv zeta. rewrite !Cconj_mult, Cconj_minus, Cconj_R, !expi_conj.
  replace (- gy * (- gx + - gy * a)) with (gy * (gx + gy * a)) by ring.
  f_equal. f_equal; [f_equal; ring|f_equal; f_equal; ring].
Qed.
Lemma term_gx_conj rg gx gy e : term_gx rg (- gx) (- gy) e = Cconj (term_gx rg gx gy e).
Proof.
  unfold term_gx. set (a := slope rg e). cbv zeta. rewrite !Cconj_mult, Cconj_minus, Cconj_R, !expi_conj.
  replace (- gx * (- gy + - gx * a)) with (gx * (gy + gx * a)) by ring.
  f_equal. f_equal; [f_equal; ring|f_equal; f_equal; ring].
Qed.
Lemma poly_conj rg pts g : poly_ft rg pts (neg g) = Cconj (poly_ft rg pts g).
Proof.
  unfold poly_ft, neg; cbn [fst snd]. rewrite !(Rabs_Ropp (- _)).
  destruct (Rltb (Rabs (- fst g)) (1 / 10 ^ 10)); [destruct (Rltb (Rabs (- snd g)) (1 / 10 ^ 10))|].
  - rewrite Cconj_R; auto.
  - rewrite csuml_conj, map_map. apply csuml_ext. intros; apply term_gx0_conj.
  - rewrite Cconj_opp, csuml_conj, map_map. f_equal. apply csuml_ext. intros; apply term_gx_conj.
Qed.
Lemma conj_fix (z : C) : z = Cconj z -> z = RtoC (fst z).
Proof. intros H. apply (f_equal snd) in H. simpl in H. apply Ceq; simpl; lra. Qed.
Lemma neg0 : neg (0, 0) = (0, 0). Proof. unfold neg; simpl. rewrite Ropp_0. auto. Qed.
Lemma real_at_0 (f : R * R -> C) : (forall g, f (neg g) = Cconj (f g)) -> f (0, 0) = RtoC (fst (f (0, 0))).
Proof. intros H. apply conj_fix. rewrite <- H, neg0. auto. Qed.

(** ** translation *)
Lemma circle_translate j1 xc yc r tx ty g :
  circle_ft j1 (xc + tx) (yc + ty) r g = Cmult (expi (- (fst g * tx + snd g * ty))) (circle_ft j1 xc yc r g).
Proof.
  unfold circle_ft. cbv zeta. rewrite Cmult_assoc, <- expi_plus. f_equal. f_equal. ring.
Qed.
Lemma circle_inside_translate xc yc r tx ty x y :
  circle_inside (xc + tx) (yc + ty) r (x + tx) (y + ty) = circle_inside xc yc r x y.
Proof.
  unfold circle_inside. f_equal. replace (x + tx - (xc + tx)) with (x - xc) by ring.
  replace (y + ty - (yc + ty)) with (y - yc) by ring. auto.
Qed.
Lemma sc2 phi : cos phi * cos phi + sin phi * sin phi = 1.
Proof. pose proof (sin2_cos2 phi). unfold Rsqr in *. lra. Qed.
(** Ellipse: the pair (x_cent, y_cent) is measured in the ellipse's own axes. *)
Lemma ellipse_translate j1 xc yc rx ry phi tx ty g :
  ellipse_ft j1 (xc + (tx * cos phi + ty * sin phi)) (yc + (- tx * sin phi + ty * cos phi)) rx ry phi g =
  Cmult (expi (- (fst g * tx + snd g * ty))) (ellipse_ft j1 xc yc rx ry phi g).
Proof.
  unfold ellipse_ft. cbv zeta. rewrite Cmult_assoc, <- expi_plus. f_equal. f_equal.
  pose proof (sc2 phi) as S. nsatz.
Qed.
Lemma ellipse_inside_translate xc yc rx ry phi tx ty x y :
  ellipse_inside (xc + (tx * cos phi + ty * sin phi)) (yc + (- tx * sin phi + ty * cos phi)) rx ry phi (x + tx) (y + ty) =
  ellipse_inside xc yc rx ry phi x y.
Proof.
  unfold ellipse_inside. cbv zeta. f_equal. f_equal; f_equal; f_equal; ring.
Qed.
Lemma slope_shift rg t p q : slope rg (shift t p, shift t q) = slope rg (p, q).
Proof. unfold slope, shift; simpl. f_equal; [ring|f_equal; ring]. Qed.
Lemma term_gx0_shift rg gx gy t e :
  term_gx0 rg gx gy (shift t (fst e), shift t (snd e)) =
  Cmult (expi (gx * fst t + gy * snd t)) (term_gx0 rg gx gy e).
Proof.
  destruct e as [p q]. unfold term_gx0. cbn [fst snd]. rewrite slope_shift. set (a := 1 / slope rg (p, q)). cbv zeta.
  unfold shift; cbn [fst snd].
  rewrite !Cmult_assoc, <- expi_plus. f_equal.
  replace (gx * (fst p + fst t) + gy * (a * (fst p + fst t))) with
    ((gx * fst p + gy * (a * fst p)) + (gx * fst t + gy * (a * fst t))) by ring.
  replace (gx * (fst q + fst t) + gy * (a * (fst q + fst t))) with
    ((gx * fst q + gy * (a * fst q)) + (gx * fst t + gy * (a * fst t))) by ring.
  rewrite !expi_plus.
  replace (gy * (snd p + snd t - a * (fst p + fst t))) with
    (gy * (snd p - a * fst p) + gy * snd t + (- (gy * (a * fst t)))) by ring.
  rewrite !expi_plus. pose proof (expi_unit (gy * (a * fst t))) as U.
  set (E := expi (gy * (a * fst t))) in *. set (F := expi (- (gy * (a * fst t)))) in *.
  transitivity (Cmult (Cmult E F) (Cmult (Cmult (Cmult (expi (gx * fst t)) (expi (gy * snd t))) (expi (gy * (snd p - a * fst p))))
     (Cminus (Cmult (expi (gx * fst q)) (expi (gy * (a * fst q)))) (Cmult (expi (gx * fst p)) (expi (gy * (a * fst p))))))); [ring|].
  rewrite U. ring.
Qed.
Lemma term_gx_shift rg gx gy t e :
  term_gx rg gx gy (shift t (fst e), shift t (snd e)) =
  Cmult (expi (gx * fst t + gy * snd t)) (term_gx rg gx gy e).
Proof.
  destruct e as [p q]. unfold term_gx. cbn [fst snd]. rewrite slope_shift. set (a := slope rg (p, q)). cbv zeta.
  unfold shift; cbn [fst snd].
  rewrite !Cmult_assoc, <- expi_plus. f_equal.
  replace (gy * (snd p + snd t) + gx * (a * (snd p + snd t))) with
    ((gy * snd p + gx * (a * snd p)) + (gy * snd t + gx * (a * snd t))) by ring.
  replace (gy * (snd q + snd t) + gx * (a * (snd q + snd t))) with
    ((gy * snd q + gx * (a * snd q)) + (gy * snd t + gx * (a * snd t))) by ring.
  rewrite !expi_plus.
  replace (gx * (fst p + fst t - a * (snd p + snd t))) with
    (gx * (fst p - a * snd p) + gx * fst t + (- (gx * (a * snd t)))) by ring.
  rewrite !expi_plus. pose proof (expi_unit (gx * (a * snd t))) as U.
  set (E := expi (gx * (a * snd t))) in *. set (F := expi (- (gx * (a * snd t)))) in *.
  transitivity (Cmult (Cmult E F) (Cmult (Cmult (Cmult (expi (gx * fst t)) (expi (gy * snd t))) (expi (gx * (fst p - a * snd p))))
     (Cminus (Cmult (expi (gy * snd q)) (expi (gx * (a * snd q)))) (Cmult (expi (gy * snd p)) (expi (gx * (a * snd p))))))); [ring|].
  rewrite U. ring.
Qed.
Lemma shoelace_shift t pts : shoelace (map (shift t) pts) = shoelace pts.
Proof. rewrite !shoelace_signed, signed_area_shift; auto. Qed.
Lemma poly_translate rg pts t g :
  (g = (0, 0) \/ 1 / 10 ^ 10 <= Rabs (fst g) \/ 1 / 10 ^ 10 <= Rabs (snd g)) ->
  poly_ft rg (map (shift t) pts) g = Cmult (expi (- (fst g * fst t + snd g * snd t))) (poly_ft rg pts g).
Proof.
  intros H. destruct H as [->|H].
  - rewrite !poly_ft_0, shoelace_shift. cbn [fst snd].
    replace (- (0 * fst t + 0 * snd t)) with 0 by ring. rewrite expi_0. ring.
  - unfold poly_ft. rewrite !Rabs_Ropp. rewrite edges_map.
    replace (- (fst g * fst t + snd g * snd t)) with (- fst g * fst t + - snd g * snd t) by ring.
    destruct (Rltb (Rabs (fst g)) (1 / 10 ^ 10)) eqn:Ex; [destruct (Rltb (Rabs (snd g)) (1 / 10 ^ 10)) eqn:Ey|].
    + apply Rltb_true in Ex, Ey. lra.
    + rewrite map_map, <- csuml_scal. apply csuml_ext. intros e _. apply term_gx0_shift.
    + rewrite map_map. rewrite (csuml_ext _ (fun e => Cmult (expi (- fst g * fst t + - snd g * snd t)) (term_gx rg (- fst g) (- snd g) e)))
        by (intros e _; apply term_gx_shift). rewrite csuml_scal. ring.
Qed.

(** ** rotation *)
Definition moment_x (vs : list (R * R)) := rsuml (map (fun e => (fst (fst e) + fst (snd e)) * crossl e) (edges vs)).
Definition moment_y (vs : list (R * R)) := rsuml (map (fun e => (snd (fst e) + snd (snd e)) * crossl e) (edges vs)).
Lemma centroid_moments vs : centroid vs = (moment_x vs / (6 * signed_area vs), moment_y vs / (6 * signed_area vs)).
Proof. unfold centroid, moment_x, moment_y. rewrite !edges_verts. auto. Qed.
Lemma moment_x_shift t vs : moment_x (map (shift t) vs) = moment_x vs + 6 * fst t * signed_area vs.
Proof.
  unfold moment_x. rewrite edges_map, map_map, signed_edges.
  pose (f := fun p : R * R => fst t * (fst p * snd p) - snd t * (fst p * fst p) + 2 * fst t * (fst t * snd p - snd t * fst p)).
  rewrite (rsuml_ext _ (fun e => (fst (fst e) + fst (snd e)) * crossl e + (3 * fst t * crossl e + (f (snd e) - f (fst e))))).
  - rewrite !rsuml_plus, rsuml_scal, (edges_telescope f). field.
  - intros [p q] _. unfold crossl, det, shift, f; simpl. ring.
Qed.
Lemma moment_y_shift t vs : moment_y (map (shift t) vs) = moment_y vs + 6 * snd t * signed_area vs.
Proof.
  unfold moment_y. rewrite edges_map, map_map, signed_edges.
  pose (f := fun p : R * R => fst t * (snd p * snd p) - snd t * (fst p * snd p) + 2 * snd t * (fst t * snd p - snd t * fst p)).
  rewrite (rsuml_ext _ (fun e => (snd (fst e) + snd (snd e)) * crossl e + (3 * snd t * crossl e + (f (snd e) - f (fst e))))).
  - rewrite !rsuml_plus, rsuml_scal, (edges_telescope f). field.
  - intros [p q] _. unfold crossl, det, shift, f; simpl. ring.
Qed.
Definition rot0 (t : R) (p : R * R) : R * R := (cos t * fst p - sin t * snd p, sin t * fst p + cos t * snd p).
Lemma crossl_rot t p q : crossl (rot0 t p, rot0 t q) = crossl (p, q).
Proof. unfold crossl, det, rot0; simpl. pose proof (sc2 t). nsatz. Qed.
Lemma signed_area_rot t vs : signed_area (map (rot0 t) vs) = signed_area vs.
Proof.
  rewrite !signed_edges, edges_map, map_map. f_equal. apply rsuml_ext. intros [p q] _. apply crossl_rot.
Qed.
Lemma moment_x_rot t vs : moment_x (map (rot0 t) vs) = cos t * moment_x vs - sin t * moment_y vs.
Proof.
  unfold moment_x, moment_y. rewrite edges_map, map_map.
  replace (cos t * rsuml (map (fun e => (fst (fst e) + fst (snd e)) * crossl e) (edges vs)) -
    sin t * rsuml (map (fun e => (snd (fst e) + snd (snd e)) * crossl e) (edges vs))) with
    (cos t * rsuml (map (fun e => (fst (fst e) + fst (snd e)) * crossl e) (edges vs)) +
    (- sin t) * rsuml (map (fun e => (snd (fst e) + snd (snd e)) * crossl e) (edges vs))) by ring.
  rewrite <- !rsuml_scal, <- rsuml_plus. apply rsuml_ext. intros [p q] _. cbn [fst snd].
  rewrite crossl_rot. unfold rot0; simpl. ring.
Qed.
Lemma moment_y_rot t vs : moment_y (map (rot0 t) vs) = sin t * moment_x vs + cos t * moment_y vs.
Proof.
  unfold moment_x, moment_y. rewrite edges_map, map_map.
  rewrite <- !rsuml_scal, <- rsuml_plus. apply rsuml_ext. intros [p q] _. cbn [fst snd].
  rewrite crossl_rot. unfold rot0; simpl. ring.
Qed.
Lemma rotate_about_as c t p : rotate_about c t p = shift (fst c - fst (rot0 t c), snd c - snd (rot0 t c)) (rot0 t p).
Proof. unfold rotate_about, shift, rot0; simpl. f_equal; ring. Qed.
Lemma rotate_area c t vs : signed_area (map (rotate_about c t) vs) = signed_area vs.
Proof.
  rewrite (map_ext _ _ (rotate_about_as c t)), <- (map_map (rot0 t)), signed_area_shift. apply signed_area_rot.
Qed.
Lemma rotate_centroid t vs : signed_area vs <> 0 ->
  centroid (map (rotate_about (centroid vs) t) vs) = centroid vs.
Proof.
  intros H. set (c := centroid vs).
  rewrite (map_ext _ _ (rotate_about_as c t)), <- (map_map (rot0 t)), centroid_moments.
  rewrite moment_x_shift, moment_y_shift, signed_area_shift, signed_area_rot, moment_x_rot, moment_y_rot.
  unfold c, rot0. rewrite !centroid_moments. cbn [fst snd]. f_equal; field; auto.
Qed.

(** [P] is a polygon object with (open) vertex list [vs]: closed, and with the
    right cached area *)
Definition poly_of (P : poly) (vs : list (R * R)) : Prop :=
  exists p rest, vs = p :: rest /\ po_pts P = vs ++ [p] /\ po_area P = signed_area vs.

Lemma com_centroid P vs : poly_of P vs -> com (po_pts P) (po_area P) = centroid vs.
Proof.
  intros (p & rest & -> & Hp & Ha). rewrite Hp, Ha. unfold com. rewrite edges_close, !map_app, !rsuml_app.
  rewrite centroid_moments. unfold moment_x, moment_y.
  cbn [map]. unfold rsuml at 2 4. cbn [fold_right fst snd].
  assert (E : forall e : (R * R) * (R * R), fst (fst e) * snd (snd e) - fst (snd e) * snd (fst e) = crossl e)
    by (intros; unfold crossl, det; ring).
  f_equal.
  - rewrite (rsuml_ext _ (fun e => (fst (fst e) + fst (snd e)) * crossl e)) by (intros; rewrite E; auto).
    unfold Rdiv. rewrite Rinv_mult. ring.
  - rewrite (rsuml_ext _ (fun e => (snd (fst e) + snd (snd e)) * crossl e)) by (intros; rewrite E; auto).
    unfold Rdiv. rewrite Rinv_mult. ring.
Qed.
Lemma rot_about_eq c t p : rot_about c t p = rotate_about c t p.
Proof. unfold rot_about, rotate_about. f_equal; ring. Qed.
Lemma rotate_of P vs t : poly_of P vs ->
  poly_of (poly_rotate P t) (map (rotate_about (centroid vs) t) vs) /\ po_eps (poly_rotate P t) = po_eps P /\
  po_area (poly_rotate P t) = po_area P.
Proof.
  intros H. unfold poly_rotate. rewrite (com_centroid P vs H). destruct H as (p & rest & -> & Hp & Ha).
  split; [|auto]. exists (rotate_about (centroid (p :: rest)) t p), (map (rotate_about (centroid (p :: rest)) t) rest).
  split; [reflexivity|]. split.
  - cbn [po_pts]. rewrite Hp. rewrite (map_ext _ _ (rot_about_eq (centroid (p :: rest)) t)), map_app. reflexivity.
  - cbn [po_area]. rewrite Ha, rotate_area. auto.
Qed.
Lemma rotate_dist c t p q : dist2 (rotate_about c t p) (rotate_about c t q) = dist2 p q.
Proof. unfold dist2, rotate_about, Rsqr; simpl. pose proof (sc2 t). nsatz. Qed.
Lemma rotate_comp c a b p : rotate_about c b (rotate_about c a p) = rotate_about c (a + b) p.
Proof. unfold rotate_about; simpl. rewrite cos_plus, sin_plus. f_equal; ring. Qed.
Lemma rotate_0 c p : rotate_about c 0 p = p.
Proof. unfold rotate_about. rewrite cos_0, sin_0. destruct p; simpl; f_equal; ring. Qed.
Lemma rotate_2pi c t p : rotate_about c (t + 2 * PI) p = rotate_about c t p.
Proof. unfold rotate_about. rewrite cos_plus, sin_plus, cos_2PI, sin_2PI. f_equal; ring. Qed.

(** the state after any sequence of rotations *)
Lemma rotate_seq P vs angles : poly_of P vs -> signed_area vs <> 0 ->
  fold_left poly_rotate angles P =
  mkPoly (po_eps P) (map (rotate_about (centroid vs) (rsuml angles)) (po_pts P)) (po_area P).
Proof.
  intros H Hn. assert (Hc : com (po_pts P) (po_area P) = centroid vs) by (apply com_centroid; auto).
  rewrite <- (rev_involutive angles). induction (rev angles) as [|a l IH].
  - simpl. rewrite (map_ext _ _ (rotate_0 _)), map_id. destruct P; auto.
  - simpl rev. rewrite fold_left_app. simpl fold_left. rewrite IH. clear IH.
    set (Q := mkPoly _ _ _).
    assert (HQ : poly_of Q (map (rotate_about (centroid vs) (rsuml (rev l))) vs)).
    { destruct H as (p & rest & -> & Hp & Ha). unfold Q. eexists. eexists. split; [simpl; reflexivity|].
      split; [cbn [po_pts]; rewrite Hp, map_app; reflexivity|]. cbn [po_area].
      change (signed_area _) with (signed_area (map (rotate_about (centroid (p :: rest)) (rsuml (rev l))) (p :: rest))).
      rewrite rotate_area. auto. }
    unfold poly_rotate. rewrite (com_centroid _ _ HQ), rotate_centroid by auto. unfold Q; cbn [po_eps po_pts po_area].
    f_equal. rewrite map_map. apply map_ext. intros x. rewrite rot_about_eq, rotate_comp. f_equal.
    rewrite rsuml_app. unfold rsuml at 3. simpl. ring.
Qed.
