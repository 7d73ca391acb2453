(** Wrappers: what a successful [poly_init] gives, and the ellipse counterexample. *)
From Coq Require Import Nsatz.
From Verif Require Import Py LatticeSpec CBase PhcModel ShapesModel ShapesSpec ShapesProofs ShapesProofs2.
Open Scope R_scope.
Open Scope list_scope.

Lemma init_of eps xs ys P : poly_init eps xs ys = Ok P ->
  xs <> [] /\ List.length xs = List.length ys /\ 0 <= signed_area (combine xs ys) /\
  po_eps P = eps /\ poly_of P (combine xs ys).
Proof.
  intros H. assert (Hx : xs <> []) by (intros ->; discriminate).
  assert (Hy : ys <> []) by (intros ->; destruct xs; discriminate).
  destruct (Nat.eq_dec (List.length xs) (List.length ys)) as [E|E].
  - split; auto. split; auto. destruct (poly_init_spec eps xs ys Hx E) as [A B].
    destruct (Rlt_le_dec (signed_area (combine xs ys)) 0) as [C|C]; [rewrite (A C) in H; discriminate|].
    split; auto. destruct (B C) as (Q & HQ & H1 & H2 & p & rest & H3 & H4). rewrite H in HQ. injection HQ as HQ. subst Q.
    split; [auto|]. exists p, rest. split; [auto|split; auto].
  - destruct (poly_init_errors eps xs ys) as [_ A]. rewrite (A Hx Hy E) in H. discriminate.
Qed.

Lemma accepted_iff eps xs ys : xs <> [] -> List.length xs = List.length ys ->
  ((exists P, poly_init eps xs ys = Ok P) <-> 0 <= signed_area (combine xs ys)) /\
  (forall P, poly_init eps xs ys = Ok P ->
     po_area P = signed_area (combine xs ys) /\ po_eps P = eps /\
     po_pts P = combine xs ys ++ [vert (combine xs ys) 0]) /\
  (signed_area (combine xs ys) < 0 -> poly_init eps xs ys = Raise ValueError).
Proof.
  intros Hx Hl. destruct (poly_init_spec eps xs ys Hx Hl) as [A B]. split; [split|split]; auto.
  - intros [P HP]. apply init_of in HP. tauto.
  - intros C. destruct (B C) as (P & HP & _). eauto.
  - intros P HP. apply init_of in HP. destruct HP as (_ & _ & _ & He & p & rest & H1 & H2 & H3).
    split; auto. split; auto. rewrite H2, H1. unfold vert. rewrite Nat.mod_0_l by (simpl; lia). auto.
Qed.

Lemma poly_conj_area eps xs ys P G : poly_init eps xs ys = Ok P ->
  poly_ft code_regs (po_pts P) (- fst G, - snd G) = Cconj (poly_ft code_regs (po_pts P) G) /\
  poly_ft code_regs (po_pts P) (0, 0) = RtoC (po_area P).
Proof.
  intros H. split; [apply poly_conj|]. apply init_of in H. destruct H as (_ & _ & _ & _ & p & rest & H1 & H2 & H3).
  rewrite H2, H3, poly_ft_0, H1. rewrite shoelace_close, shoelace_signed. f_equal. field.
Qed.

Lemma poly_moved eps xs ys P tx ty : poly_init eps xs ys = Ok P ->
  exists Q, poly_init eps (map (fun x => x + tx) xs) (map (fun y => y + ty) ys) = Ok Q /\
    po_pts Q = map (shift (tx, ty)) (po_pts P) /\ po_area Q = po_area P.
Proof.
  intros H. pose proof (init_of _ _ _ _ H) as (Hx & Hl & Ha & He & p & rest & H1 & H2 & H3).
  assert (E : combine (map (fun x => x + tx) xs) (map (fun y => y + ty) ys) = map (shift (tx, ty)) (combine xs ys)).
  { clear. revert ys. induction xs; destruct ys; simpl; auto. f_equal. apply IHxs. }
  destruct (poly_init_spec eps (map (fun x => x + tx) xs) (map (fun y => y + ty) ys)) as [_ B].
  { destruct xs; [congruence|discriminate]. } { rewrite !map_length; auto. }
  cbv zeta in B. rewrite E in B. rewrite signed_area_shift in B.
  destruct (B Ha) as (Q & HQ & _ & A2 & q & r & A3 & A4). exists Q. split; auto.
  rewrite A4, A2, H2, H3. split; auto. rewrite map_app. f_equal. rewrite H1 in A3. simpl in A3. injection A3 as <- <-. auto.
Qed.
Lemma poly_moved_ft eps xs ys P tx ty G : poly_init eps xs ys = Ok P ->
  G = (0, 0) \/ 1 / 10 ^ 10 <= Rabs (fst G) \/ 1 / 10 ^ 10 <= Rabs (snd G) ->
  exists Q, poly_init eps (map (fun x => x + tx) xs) (map (fun y => y + ty) ys) = Ok Q /\
    po_pts Q = map (shift (tx, ty)) (po_pts P) /\ po_area Q = po_area P /\
    poly_ft code_regs (po_pts Q) G = Cmult (expi (- (fst G * tx + snd G * ty))) (poly_ft code_regs (po_pts P) G).
Proof.
  intros H HG. destruct (poly_moved eps xs ys P tx ty H) as (Q & A & B & C). exists Q. repeat split; auto.
  rewrite B. apply (poly_translate code_regs (po_pts P) (tx, ty) G HG).
Qed.

(** the ellipse whose "centre" is outside it *)
Lemma ellipse_centre_out : ellipse_inside 1 0 (1/10) (1/10) (PI / 2) 1 0 = false.
Proof.
  unfold ellipse_inside. rewrite cos_PI2, sin_PI2. apply Rleb_false. lra.
Qed.
Lemma ellipse_centre_in xc yc rx ry phi :
  ellipse_inside xc yc rx ry phi (xc * cos phi - yc * sin phi) (xc * sin phi + yc * cos phi) = true.
Proof.
  unfold ellipse_inside. apply Rleb_true. pose proof (sc2 phi) as S.
  replace ((xc * cos phi - yc * sin phi) * cos phi + (xc * sin phi + yc * cos phi) * sin phi - xc) with 0 by nsatz.
  replace (- (xc * cos phi - yc * sin phi) * sin phi + (xc * sin phi + yc * cos phi) * cos phi - yc) with 0 by nsatz.
  unfold Rdiv. rewrite !Rmult_0_l. simpl. lra.
Qed.
(** point symmetric about that point *)
Lemma ellipse_centre_sym xc yc rx ry phi u v :
  let cx := xc * cos phi - yc * sin phi in let cy := xc * sin phi + yc * cos phi in
  ellipse_inside xc yc rx ry phi (cx + u) (cy + v) = ellipse_inside xc yc rx ry phi (cx - u) (cy - v).
Proof.
  cbv zeta. unfold ellipse_inside. cbv zeta. pose proof (sc2 phi) as S. f_equal. f_equal.
  - replace ((xc * cos phi - yc * sin phi + u) * cos phi + (xc * sin phi + yc * cos phi + v) * sin phi - xc) with (u * cos phi + v * sin phi) by nsatz.
    replace ((xc * cos phi - yc * sin phi - u) * cos phi + (xc * sin phi + yc * cos phi - v) * sin phi - xc) with (- (u * cos phi + v * sin phi)) by nsatz.
    unfold Rdiv. ring.
  - replace (- (xc * cos phi - yc * sin phi + u) * sin phi + (xc * sin phi + yc * cos phi + v) * cos phi - yc) with (- u * sin phi + v * cos phi) by nsatz.
    replace (- (xc * cos phi - yc * sin phi - u) * sin phi + (xc * sin phi + yc * cos phi - v) * cos phi - yc) with (- (- u * sin phi + v * cos phi)) by nsatz.
    unfold Rdiv. ring.
Qed.

(** rotations from a successfully built polygon *)
Lemma rotate_history eps xs ys P angles : poly_init eps xs ys = Ok P -> 0 < signed_area (combine xs ys) ->
  let vs := combine xs ys in
  let Q := fold_left poly_rotate angles P in
  let moved := map (rotate_about (centroid vs) (rsuml angles)) vs in
  po_pts Q = moved ++ [vert moved 0] /\ po_area Q = signed_area vs /\ po_eps Q = eps /\
  signed_area moved = signed_area vs /\ centroid moved = centroid vs.
Proof.
  intros H Ha vs Q moved. pose proof (init_of _ _ _ _ H) as (Hx & Hl & Hs & He & Hp).
  unfold Q. rewrite (rotate_seq P vs angles Hp) by (unfold vs; lra). cbn [po_pts po_area po_eps].
  destruct Hp as (p & rest & H1 & H2 & H3). split; [|split; [auto|split; [auto|split]]].
  - rewrite H2, map_app. unfold moved, vs. rewrite H1. f_equal. unfold vert. rewrite Nat.mod_0_l by (simpl; lia). auto.
  - apply rotate_area.
  - apply rotate_centroid. unfold vs; lra.
Qed.
Lemma rotate_full_turn eps xs ys P : poly_init eps xs ys = Ok P -> 0 < signed_area (combine xs ys) ->
  poly_rotate P 0 = P /\ poly_rotate P (2 * PI) = P /\
  forall a b, poly_rotate (poly_rotate P a) b = poly_rotate P (a + b).
Proof.
  intros H Ha. pose proof (init_of _ _ _ _ H) as (_ & _ & _ & _ & Hp).
  assert (Hn : signed_area (combine xs ys) <> 0) by lra.
  assert (S : forall l, fold_left poly_rotate l P = mkPoly (po_eps P) (map (rotate_about (centroid (combine xs ys)) (rsuml l)) (po_pts P)) (po_area P))
    by (intros; apply rotate_seq; auto).
  assert (R0 : forall c p, rotate_about c (rsuml [0]) p = p) by (intros; unfold rsuml; simpl; rewrite Rplus_0_r; apply rotate_0).
  split; [|split].
  - pose proof (S [0]) as E. cbn [fold_left] in E. rewrite E, (map_ext _ _ (R0 _)), map_id. destruct P; auto.
  - pose proof (S [2 * PI]) as E. cbn [fold_left] in E. rewrite E.
    rewrite (map_ext _ (fun p => p)), map_id; [destruct P; auto|].
    intros p. unfold rsuml; simpl. rewrite Rplus_0_r. replace (2 * PI) with (0 + 2 * PI) by ring. rewrite rotate_2pi. apply rotate_0.
  - intros a b. pose proof (S [a; b]) as E1. pose proof (S [a + b]) as E2. cbn [fold_left] in E1, E2. rewrite E1, E2.
    unfold rsuml; simpl. rewrite !Rplus_0_r. auto.
Qed.
Lemma rotate_keeps_distances eps xs ys P angles i j : poly_init eps xs ys = Ok P -> 0 < signed_area (combine xs ys) ->
  let Q := fold_left poly_rotate angles P in
  (i < List.length (po_pts P))%nat -> (j < List.length (po_pts P))%nat ->
  List.length (po_pts Q) = List.length (po_pts P) /\
  dist2 (nth i (po_pts Q) (0, 0)) (nth j (po_pts Q) (0, 0)) = dist2 (nth i (po_pts P) (0, 0)) (nth j (po_pts P) (0, 0)).
Proof.
  intros H Ha Q Hi Hj. pose proof (init_of _ _ _ _ H) as (_ & _ & _ & _ & Hp).
  unfold Q. rewrite (rotate_seq P (combine xs ys) angles Hp) by lra. cbn [po_pts]. rewrite map_length. split; auto.
  set (f := rotate_about (centroid (combine xs ys)) (rsuml angles)).
  rewrite (nth_indep _ (0,0) (f (0,0)) (n := i)) by (rewrite map_length; auto).
  rewrite (nth_indep _ (0,0) (f (0,0)) (n := j)) by (rewrite map_length; auto).
  rewrite !map_nth. apply rotate_dist.
Qed.
