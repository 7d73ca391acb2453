(** C22, first half: the integral of exp(i g.r) over a polygon (winding number
    weighted) as a sum over edges. *)
From Coq Require Import Permutation.
From Verif Require Import Py LatticeSpec CBase PhcModel ShapesModel ShapesSpec ShapesProofs ShapesProofs2 CInt.
From Coquelicot Require Import Hierarchy RInt RInt_analysis Derive AutoDerive Continuity Complex.
Open Scope R_scope.
Open Scope list_scope.

Notation edge := ((R * R) * (R * R))%type (only parsing).
Definition dx (e : edge) := fst (snd e) - fst (fst e).
Definition dy (e : edge) := snd (snd e) - snd (fst e).
Definition wave (gx gy : R) (p : R * R) : C := expi (gx * fst p + gy * snd p).
(** line integral over the edge, per unit of parameter *)
Definition along (gx gy : R) (e : edge) : C := Cmult (wave gx gy (fst e)) (kern (gx * dx e + gy * dy e)).

Lemma csuml_app l m : csuml (l ++ m) = Cplus (csuml l) (csuml m).
Proof. induction l; simpl; [ring|]. rewrite IHl. ring. Qed.
Lemma csuml_cons x l : csuml (x :: l) = Cplus x (csuml l). Proof. reflexivity. Qed.
Lemma csuml_rsuml {A} (f : A -> R) (c : C) l :
  csuml (map (fun e => Cmult (RtoC (f e)) c) l) = Cmult (RtoC (rsuml (map f l))) c.
Proof.
  induction l; cbn [map]; [unfold rsuml; simpl; ring|]. rewrite csuml_cons, rsuml_cons, RtoC_plus, IHl. ring.
Qed.
Lemma csuml_telescope (f : R * R -> C) l : csuml (map (fun e => Cminus (f (snd e)) (f (fst e))) (edges l)) = RtoC 0.
Proof.
  assert (F : forall l : list (R*R * (R*R)), csuml (map (fun e => Cminus (f (snd e)) (f (fst e))) l) =
     (rsuml (map (fun e => fst (f (snd e)) - fst (f (fst e))) l), rsuml (map (fun e => snd (f (snd e)) - snd (f (fst e))) l))).
  { clear l. induction l; simpl; [apply Ceq; reflexivity|]. rewrite IHl. apply Ceq; simpl; rewrite ?rsuml_cons; ring. }
  rewrite F, (edges_telescope (fun p => fst (f p))), (edges_telescope (fun p => snd (f p))). auto.
Qed.
Lemma is_CInt_sum {A} (l : list A) (f : A -> R -> C) (v : A -> C) a b :
  (forall e, In e l -> is_CInt (f e) a b (v e)) ->
  is_CInt (fun x => csuml (map (fun e => f e x) l)) a b (csuml (map v l)).
Proof.
  induction l as [|e l IH]; intros H; simpl; [apply is_CInt_zero|].
  apply is_CInt_plus; [apply H; left; auto|]. apply IH. intros; apply H; right; auto.
Qed.

(** sign of the crossing of the horizontal line at height y *)
Definition vsign (e : edge) (y : R) : R :=
  if andb (Rleb (snd (fst e)) y) (Rltb y (snd (snd e))) then 1
  else if andb (Rleb (snd (snd e)) y) (Rltb y (snd (fst e))) then -1 else 0.
Lemma crossing_sign e x y : crossing (fst e) (snd e) x y = if Rltb x (edge_x (fst e) (snd e) y) then vsign e y else 0.
Proof. reflexivity. Qed.
Lemma winding_edges vs x y : winding vs x y = rsuml (map (fun e => crossing (fst e) (snd e) x y) (edges vs)).
Proof. unfold winding. rewrite (edges_verts (fun e => crossing (fst e) (snd e) x y)). auto. Qed.

Lemma edge_x_box e M y : Rabs (fst (fst e)) < M -> Rabs (fst (snd e)) < M -> vsign e y <> 0 ->
  - M < edge_x (fst e) (snd e) y < M.
Proof.
  destruct e as [[x1 y1] [x2 y2]]. unfold vsign, edge_x; cbn [fst snd]. intros H1 H2 Hs.
  apply Rabs_def2 in H1. apply Rabs_def2 in H2.
  assert (Hy : exists t, 0 <= t <= 1 /\ x1 + (y - y1) * ((x2 - x1) / (y2 - y1)) = x1 + t * (x2 - x1)).
  { destruct (Rleb y1 y) eqn:E1; destruct (Rltb y y2) eqn:E2; simpl in Hs.
    1: { apply Rleb_true in E1. apply Rltb_true in E2. exists ((y - y1) / (y2 - y1)). split; [|field; lra].
         split; [apply Rmult_le_pos; [lra|left; apply Rinv_0_lt_compat; lra]|].
         apply Rmult_le_reg_r with (y2 - y1); [lra|]. unfold Rdiv. rewrite Rmult_assoc, Rinv_l by lra. lra. }
    all: destruct (Rleb y2 y) eqn:E3; destruct (Rltb y y1) eqn:E4; simpl in Hs; try (exfalso; lra).
    all: apply Rleb_true in E3; apply Rltb_true in E4.
    all: exists ((y1 - y) / (y1 - y2)); split; [|field; lra].
    all: split; [apply Rmult_le_pos; [lra|left; apply Rinv_0_lt_compat; lra]|].
    all: apply Rmult_le_reg_r with (y1 - y2); [lra|]; unfold Rdiv; rewrite Rmult_assoc, Rinv_l by lra; lra. }
  destruct Hy as (t & Ht & ->).
  destruct (Rle_dec x1 x2) as [L|L].
  - assert (0 <= t * (x2 - x1) <= x2 - x1) by nra. lra.
  - assert (x2 - x1 <= t * (x2 - x1) <= 0) by nra. lra.
Qed.

(** integral of e^{i gx x} from -M to X *)
Definition prim (gx M X : R) : C := Cmult (RtoC (X - - M)) (Cmult (expi (gx * - M + 0)) (kern (gx * (X - - M)))).

Lemma inner_edge gx gy M e y : Rabs (fst (fst e)) < M -> Rabs (fst (snd e)) < M ->
  is_CInt (fun x => Cmult (RtoC (crossing (fst e) (snd e) x y)) (expi (gx * x + gy * y))) (- M) M
    (Cmult (RtoC (vsign e y)) (Cmult (expi (gy * y)) (prim gx M (edge_x (fst e) (snd e) y)))).
Proof.
  intros H1 H2. destruct (Req_EM_T (vsign e y) 0) as [Z|NZ].
  - rewrite Z. eapply is_CInt_eq; [|eapply is_CInt_ext; [|apply is_CInt_zero]].
    + ring.
    + intros x _. cbv beta. rewrite crossing_sign, Z. destruct (Rltb x _); ring.
  - destruct (edge_x_box e M y H1 H2 NZ) as [Ha Hb]. set (X := edge_x (fst e) (snd e) y) in *.
    assert (P1 : is_CInt (fun x => Cmult (RtoC (crossing (fst e) (snd e) x y)) (expi (gx * x + gy * y))) (- M) X
             (Cmult (Cmult (RtoC (vsign e y)) (expi (gy * y))) (prim gx M X))).
    { eapply is_CInt_ext; [|apply is_CInt_scal; apply (int_expi gx 0)].
      intros x Hx. rewrite Rmin_left, Rmax_right in Hx by lra. cbv beta. rewrite crossing_sign. fold X.
      rewrite (proj2 (Rltb_true x X)) by lra. rewrite Rplus_0_r, expi_plus. ring. }
    assert (P2 : is_CInt (fun x => Cmult (RtoC (crossing (fst e) (snd e) x y)) (expi (gx * x + gy * y))) X M (RtoC 0)).
    { eapply is_CInt_ext; [|apply is_CInt_zero]. intros x Hx. rewrite Rmin_left, Rmax_right in Hx by lra.
      cbv beta. rewrite crossing_sign. fold X. rewrite (proj2 (Rltb_false x X)) by lra. ring. }
    eapply is_CInt_eq; [|exact (is_CInt_Chasles _ _ _ _ _ _ P1 P2)]. ring.
Qed.

Lemma outer_edge (h : R -> C) M e v : Rabs (snd (fst e)) < M -> Rabs (snd (snd e)) < M ->
  (dy e <> 0 -> is_CInt h (snd (fst e)) (snd (snd e)) v) -> (dy e = 0 -> v = RtoC 0) ->
  is_CInt (fun y => Cmult (RtoC (vsign e y)) (h y)) (- M) M v.
Proof.
  destruct e as [[x1 y1] [x2 y2]]. unfold dy; cbn [fst snd]. intros H1 H2 Hv H0.
  apply Rabs_def2 in H1. apply Rabs_def2 in H2.
  destruct (Rtotal_order y1 y2) as [L|[E|G]].
  - specialize (Hv ltac:(lra)).
    assert (P1 : is_CInt (fun y => Cmult (RtoC (vsign (x1, y1, (x2, y2)) y)) (h y)) (- M) y1 (RtoC 0)).
    { eapply is_CInt_ext; [|apply is_CInt_zero]. intros y Hy. rewrite Rmin_left, Rmax_right in Hy by lra.
      unfold vsign; cbn [fst snd]. rewrite (proj2 (Rleb_false y1 y)) by lra. rewrite (proj2 (Rleb_false y2 y)) by lra.
      simpl. ring. }
    assert (P2 : is_CInt (fun y => Cmult (RtoC (vsign (x1, y1, (x2, y2)) y)) (h y)) y1 y2 v).
    { eapply is_CInt_ext; [|exact Hv]. intros y Hy. rewrite Rmin_left, Rmax_right in Hy by lra.
      unfold vsign; cbn [fst snd]. rewrite (proj2 (Rleb_true y1 y)) by lra. rewrite (proj2 (Rltb_true y y2)) by lra.
      simpl. ring. }
    assert (P3 : is_CInt (fun y => Cmult (RtoC (vsign (x1, y1, (x2, y2)) y)) (h y)) y2 M (RtoC 0)).
    { eapply is_CInt_ext; [|apply is_CInt_zero]. intros y Hy. rewrite Rmin_left, Rmax_right in Hy by lra.
      unfold vsign; cbn [fst snd]. rewrite (proj2 (Rltb_false y y1)) by lra. rewrite (proj2 (Rltb_false y y2)) by lra.
      rewrite !andb_false_r. ring. }
    eapply is_CInt_eq; [|exact (is_CInt_Chasles _ _ _ _ _ _ (is_CInt_Chasles _ _ _ _ _ _ P1 P2) P3)]. ring.
  - rewrite (H0 ltac:(lra)). eapply is_CInt_ext; [|apply is_CInt_zero]. intros y _. subst y2.
    unfold vsign; cbn [fst snd]. destruct (Rleb y1 y) eqn:A; simpl; [|ring].
    apply Rleb_true in A. rewrite (proj2 (Rltb_false y y1)) by lra. simpl. ring.
  - specialize (Hv ltac:(lra)). apply is_CInt_swap in Hv.
    assert (P1 : is_CInt (fun y => Cmult (RtoC (vsign (x1, y1, (x2, y2)) y)) (h y)) (- M) y2 (RtoC 0)).
    { eapply is_CInt_ext; [|apply is_CInt_zero]. intros y Hy. rewrite Rmin_left, Rmax_right in Hy by lra.
      unfold vsign; cbn [fst snd]. rewrite (proj2 (Rleb_false y1 y)) by lra. rewrite (proj2 (Rleb_false y2 y)) by lra.
      simpl. ring. }
    assert (P2 : is_CInt (fun y => Cmult (RtoC (vsign (x1, y1, (x2, y2)) y)) (h y)) y2 y1 (Cmult (RtoC (-1)) (Copp v))).
    { eapply is_CInt_ext; [|apply is_CInt_scal; exact Hv]. intros y Hy. rewrite Rmin_left, Rmax_right in Hy by lra.
      unfold vsign; cbn [fst snd]. rewrite (proj2 (Rleb_false y1 y)) by lra. rewrite (proj2 (Rltb_true y y1)) by lra.
      rewrite (proj2 (Rleb_true y2 y)) by lra. simpl. auto. }
    assert (P3 : is_CInt (fun y => Cmult (RtoC (vsign (x1, y1, (x2, y2)) y)) (h y)) y1 M (RtoC 0)).
    { eapply is_CInt_ext; [|apply is_CInt_zero]. intros y Hy. rewrite Rmin_left, Rmax_right in Hy by lra.
      unfold vsign; cbn [fst snd]. rewrite (proj2 (Rltb_false y y1)) by lra. rewrite (proj2 (Rltb_false y y2)) by lra.
      rewrite !andb_false_r. ring. }
    eapply is_CInt_eq; [|exact (is_CInt_Chasles _ _ _ _ _ _ (is_CInt_Chasles _ _ _ _ _ _ P1 P2) P3)].
    apply Ceq; simpl; ring.
Qed.

(** assembling: any choice of per-edge integrals adds up to the area integral *)
Lemma area_from_edges vs gx gy M (V : edge -> C) : inside_box vs M ->
  (forall e, In e (edges vs) -> dy e <> 0 ->
     is_CInt (fun y => Cmult (expi (gy * y)) (prim gx M (edge_x (fst e) (snd e) y))) (snd (fst e)) (snd (snd e)) (V e)) ->
  (forall e, In e (edges vs) -> dy e = 0 -> V e = RtoC 0) ->
  is_CInt2 (fun x y => Cmult (RtoC (winding vs x y)) (expi (gx * x + gy * y))) M (csuml (map V (edges vs))).
Proof.
  intros Hbox HV H0.
  assert (Hin : forall e, In e (edges vs) -> In (fst e) vs /\ In (snd e) vs).
  { intros [p q] He. unfold edges in He. split; [apply in_combine_l in He; auto|].
    apply in_combine_r in He. destruct vs; simpl in *; auto. apply in_app_or in He. destruct He as [|[|[]]]; auto. }
  exists (fun y => csuml (map (fun e => Cmult (RtoC (vsign e y)) (Cmult (expi (gy * y)) (prim gx M (edge_x (fst e) (snd e) y)))) (edges vs))).
  split.
  - intros y.
    eapply is_CInt_ext; [|apply (is_CInt_sum (edges vs) (fun e x => Cmult (RtoC (crossing (fst e) (snd e) x y)) (expi (gx * x + gy * y))))].
    + intros x _. cbv beta. rewrite winding_edges. apply csuml_rsuml.
    + intros e He. destruct (Hin e He) as [A B]. apply Hbox in A. apply Hbox in B. apply inner_edge; tauto.
  - apply (is_CInt_sum (edges vs) (fun e y => Cmult (RtoC (vsign e y)) (Cmult (expi (gy * y)) (prim gx M (edge_x (fst e) (snd e) y))))).
    intros e He. destruct (Hin e He) as [A B]. apply Hbox in A. apply Hbox in B.
    apply outer_edge; try tauto; [apply HV; auto|apply H0; auto].
Qed.

(** ** the three cases *)
Lemma prim_gx gx M X : gx <> 0 ->
  prim gx M X = Cmult (Cdiv (Copp Ci) (RtoC gx)) (Cminus (expi (gx * X)) (expi (gx * - M))).
Proof.
  intros H. unfold prim. rewrite Rplus_0_r. pose proof (kern_mult (gx * (X - - M))) as K.
  replace (gx * X) with (gx * - M + gx * (X - - M)) by ring. rewrite (expi_plus (gx * - M)).
  transitivity (Cmult (Cdiv (Copp Ci) (RtoC gx)) (Cmult (expi (gx * - M)) (Cmult (Cmult Ci (RtoC (gx * (X - - M)))) (kern (gx * (X - - M)))))).
  - assert (G : RtoC gx <> 0) by (apply RtoC_neq0; auto). rewrite (RtoC_mult gx).
    transitivity (Cmult (Cmult (Copp (Cmult Ci Ci)) (Cdiv (RtoC gx) (RtoC gx))) (Cmult (RtoC (X - - M)) (Cmult (expi (gx * - M)) (kern (gx * (X - - M)))))).
    + rewrite Ci_sq. unfold Cdiv. rewrite Cinv_r by auto. ring.
    + unfold Cdiv. ring.
  - rewrite K. ring.
Qed.

Lemma lin_phase gx gy x1 y1 a y : gx * (x1 + (y - y1) * a) + gy * y = (gy + gx * a) * y + gx * (x1 - a * y1).
Proof. ring. Qed.

Lemma area_gx vs gx gy M : inside_box vs M -> gx <> 0 ->
  is_CInt2 (fun x y => Cmult (RtoC (winding vs x y)) (expi (gx * x + gy * y))) M
    (Cmult (Cdiv (Copp Ci) (RtoC gx)) (csuml (map (fun e => Cmult (RtoC (dy e)) (along gx gy e)) (edges vs)))).
Proof.
  intros Hb Hg. set (k := Cdiv (Copp Ci) (RtoC gx)).
  set (V := fun e : edge => Cmult k (Cplus (Cmult (RtoC (dy e)) (along gx gy e))
      (Cmult (Copp (expi (gx * - M))) (Cmult (RtoC (dy e)) (Cmult (expi (gy * snd (fst e) + 0)) (kern (gy * dy e))))))).
  assert (S : csuml (map V (edges vs)) = Cmult k (csuml (map (fun e => Cmult (RtoC (dy e)) (along gx gy e)) (edges vs)))).
  { unfold V. rewrite csuml_scal, csuml_plus, csuml_scal.
    assert (T : csuml (map (fun e : edge => Cmult (RtoC (dy e)) (Cmult (expi (gy * snd (fst e) + 0)) (kern (gy * dy e)))) (edges vs)) = RtoC 0).
    { destruct (Req_EM_T gy 0) as [->|G].
      - rewrite <- (csuml_telescope (fun p => RtoC (snd p)) vs). apply csuml_ext. intros e _.
        replace (0 * dy e) with 0 by ring. replace (0 * snd (fst e) + 0) with 0 by ring. rewrite kern_0, expi_0.
        unfold dy. rewrite RtoC_minus. ring.
      - rewrite <- (csuml_telescope (fun p => Cmult (Cdiv (Copp Ci) (RtoC gy)) (expi (gy * snd p))) vs).
        apply csuml_ext. intros e _. pose proof (prim_gx gy (- snd (fst e)) (snd (snd e)) G) as P.
        unfold prim in P. rewrite !Ropp_involutive in P. unfold dy. rewrite P. ring. }
    rewrite T. ring. }
  rewrite <- S. apply area_from_edges; auto.
  - intros e _ Hd. unfold V.
    set (a := dx e / dy e).
    eapply is_CInt_eq; [|eapply is_CInt_ext; [|eapply is_CInt_scal with (c := k);
      eapply is_CInt_plus; [apply (int_expi (gy + gx * a) (gx * (fst (fst e) - a * snd (fst e))))|
                           eapply is_CInt_scal with (c := Copp (expi (gx * - M))); apply (int_expi gy 0)]]].
    + change (snd (snd e) - snd (fst e)) with (dy e). unfold along, wave.
      replace ((gy + gx * a) * snd (fst e) + gx * (fst (fst e) - a * snd (fst e))) with (gx * fst (fst e) + gy * snd (fst e)) by ring.
      replace ((gy + gx * a) * dy e) with (gx * dx e + gy * dy e) by (unfold a; field; auto). reflexivity.
    + intros y _. cbv beta. rewrite prim_gx by auto. fold k. unfold edge_x. 
      change ((fst (snd e) - fst (fst e)) / (snd (snd e) - snd (fst e))) with a.
      rewrite <- lin_phase, Rplus_0_r, expi_plus. ring.
  - intros e _ Hd. unfold V. rewrite Hd. ring.
Qed.

Lemma prim_0 M X : prim 0 M X = RtoC (X + M).
Proof.
  unfold prim. replace (0 * (X - - M)) with 0 by ring. replace (0 * - M + 0) with 0 by ring.
  rewrite kern_0, expi_0. replace (X - - M) with (X + M) by ring. ring.
Qed.
Lemma int_lin_expi u v c a b : c <> 0 ->
  is_CInt (fun y => Cmult (RtoC (u + v * y)) (expi (c * y))) a b
   (Cminus (Cplus (Cmult (Cdiv (Copp Ci) (RtoC c)) (Cmult (RtoC (u + v * b)) (expi (c * b)))) (Cmult (RtoC (v / (c * c))) (expi (c * b))))
           (Cplus (Cmult (Cdiv (Copp Ci) (RtoC c)) (Cmult (RtoC (u + v * a)) (expi (c * a)))) (Cmult (RtoC (v / (c * c))) (expi (c * a))))).
Proof.
  intros Hc.
  assert (H : is_CInt (fun y => Cmult (RtoC (u + v * y)) (expi (c * y))) a b
     (Cminus ((u + v * b) * sin (c * b) / c + v / (c * c) * cos (c * b), - (u + v * b) * cos (c * b) / c + v / (c * c) * sin (c * b))
             ((u + v * a) * sin (c * a) / c + v / (c * c) * cos (c * a), - (u + v * a) * cos (c * a) / c + v / (c * c) * sin (c * a)))).
  { apply (is_CInt_anti (fun y => ((u + v * y) * sin (c * y) / c + v / (c * c) * cos (c * y), - (u + v * y) * cos (c * y) / c + v / (c * c) * sin (c * y))));
      intros x; simpl.
    - auto_derive; [auto|field; auto].
    - auto_derive; [auto|field; auto].
    - apply (ex_derive_continuous (fun t => (u + v * t) * cos (c * t) - 0 * sin (c * t))). auto_derive. auto.
    - apply (ex_derive_continuous (fun t => (u + v * t) * sin (c * t) + 0 * cos (c * t))). auto_derive. auto. }
  eapply is_CInt_eq; [|exact H]. apply Ceq; simpl; field; auto.
Qed.

Lemma kern_i t : Cminus (expi t) (RtoC 1) = Cmult (Cmult Ci (RtoC t)) (kern t).
Proof. symmetry. apply kern_mult. Qed.

Lemma area_gx0 vs gy M : inside_box vs M -> gy <> 0 ->
  is_CInt2 (fun x y => Cmult (RtoC (winding vs x y)) (expi (0 * x + gy * y))) M
    (Cmult (Cdiv Ci (RtoC gy)) (csuml (map (fun e => Cmult (RtoC (dx e)) (along 0 gy e)) (edges vs)))).
Proof.
  intros Hb Hg. set (k := Cdiv Ci (RtoC gy)).
  set (psi := fun p : R * R => Cmult (Copp k) (Cmult (RtoC (fst p + M)) (expi (gy * snd p)))).
  set (V := fun e : edge => Cplus (Cmult k (Cmult (RtoC (dx e)) (along 0 gy e))) (Cminus (psi (snd e)) (psi (fst e)))).
  assert (S : csuml (map V (edges vs)) = Cmult k (csuml (map (fun e => Cmult (RtoC (dx e)) (along 0 gy e)) (edges vs)))).
  { unfold V. rewrite csuml_plus, csuml_telescope, csuml_scal. ring. }
  rewrite <- S. assert (Gc : RtoC gy <> 0) by (apply RtoC_neq0; auto).
  assert (AL : forall e, along 0 gy e = Cmult (expi (gy * snd (fst e))) (kern (gy * dy e))).
  { intros e. unfold along, wave. f_equal; [f_equal; ring|f_equal; ring]. }
  apply area_from_edges; auto.
  - intros e _ Hd. set (a := dx e / dy e).
    eapply is_CInt_eq; [|eapply is_CInt_ext; [|apply (int_lin_expi (fst (fst e) - a * snd (fst e) + M) a gy); auto]].
    + unfold V, psi. rewrite AL.
      assert (E2 : expi (gy * snd (snd e)) = Cmult (expi (gy * snd (fst e))) (Cplus (RtoC 1) (Cmult (Cmult Ci (RtoC (gy * dy e))) (kern (gy * dy e))))).
      { rewrite <- kern_i. replace (gy * snd (snd e)) with (gy * snd (fst e) + gy * dy e) by (unfold dy; ring).
        rewrite expi_plus. ring. }
      replace (fst (fst e) - a * snd (fst e) + M + a * snd (snd e)) with (fst (snd e) + M) by (unfold a, dx, dy in *; field; auto).
      replace (fst (fst e) - a * snd (fst e) + M + a * snd (fst e)) with (fst (fst e) + M) by ring.
      replace (Cdiv (Copp Ci) (RtoC gy)) with (Copp k) by (unfold k, Cdiv; ring).
      transitivity (Cplus (Cminus (psi (snd e)) (psi (fst e))) (Cmult (RtoC (a / (gy * gy))) (Cminus (expi (gy * snd (snd e))) (expi (gy * snd (fst e)))))); [unfold psi; ring|].
      unfold psi. rewrite Cplus_comm. f_equal. rewrite E2.
      transitivity (Cmult (Cmult (RtoC (a / (gy * gy))) (Cmult Ci (RtoC (gy * dy e)))) (Cmult (expi (gy * snd (fst e))) (kern (gy * dy e)))); [ring|].
      transitivity (Cmult (Cmult k (RtoC (dx e))) (Cmult (expi (gy * snd (fst e))) (kern (gy * dy e)))); [f_equal|ring]. unfold k.
      transitivity (Cmult Ci (RtoC (a / (gy * gy) * (gy * dy e)))); [rewrite (RtoC_mult (a / (gy * gy))); ring|].
      replace (a / (gy * gy) * (gy * dy e)) with (dx e / gy) by (unfold a; field; auto).
      rewrite RtoC_div by auto. unfold Cdiv. ring.
    + intros y _. cbv beta. rewrite prim_0. unfold edge_x.
      change ((fst (snd e) - fst (fst e)) / (snd (snd e) - snd (fst e))) with a.
      replace (fst (fst e) + (y - snd (fst e)) * a + M) with (fst (fst e) - a * snd (fst e) + M + a * y) by ring. ring.
  - intros e _ Hd. unfold V, psi. rewrite AL, Hd. replace (gy * 0) with 0 by ring. rewrite kern_0.
    replace (snd (snd e)) with (snd (fst e)) by (unfold dy in Hd; lra). unfold dx. rewrite !RtoC_minus, !RtoC_plus. ring.
Qed.

Lemma area_00 vs M : inside_box vs M ->
  is_CInt2 (fun x y => Cmult (RtoC (winding vs x y)) (expi (0 * x + 0 * y))) M (RtoC (signed_area vs)).
Proof.
  intros Hb.
  set (V := fun e : edge => RtoC (dy e * ((fst (fst e) + fst (snd e)) / 2 + M))).
  assert (S : csuml (map V (edges vs)) = RtoC (signed_area vs)).
  { assert (F : forall l, csuml (map V l) = RtoC (rsuml (map (fun e => dy e * ((fst (fst e) + fst (snd e)) / 2 + M)) l))).
    { induction l; cbn [map]; auto. rewrite csuml_cons, rsuml_cons, RtoC_plus, IHl. auto. }
    rewrite F. f_equal. rewrite signed_edges, <- rsuml_scal.
    pose (f := fun p : R * R => fst p * snd p / 2 + M * snd p).
    rewrite (rsuml_ext _ (fun e => / 2 * crossl e + (f (snd e) - f (fst e)))).
    - rewrite rsuml_plus, (edges_telescope f). ring.
    - intros e _. unfold crossl, det, f, dy. field. }
  rewrite <- S. apply area_from_edges; auto.
  - intros e _ Hd. set (a := dx e / dy e).
    pose (F := fun y => (fst (fst e) - a * snd (fst e) + M) * y + a * (y * y) / 2).
    assert (H : is_CInt (fun y => (fst (fst e) - a * snd (fst e) + M + a * y, 0)) (snd (fst e)) (snd (snd e))
       (Cminus (F (snd (snd e)), 0) (F (snd (fst e)), 0))).
    { apply (is_CInt_anti (fun y => (F y, 0))); intros x; simpl; unfold F.
      - auto_derive; [auto|field; auto].
      - auto_derive; auto.
      - apply (ex_derive_continuous (fun t => fst (fst e) - a * snd (fst e) + M + a * t)). auto_derive. auto.
      - apply continuous_const. }
    eapply is_CInt_eq; [|eapply is_CInt_ext; [|exact H]].
    + unfold V, F, a, dx, dy in *. apply Ceq; simpl; [field; auto|ring].
    + intros y _. cbv beta. rewrite prim_0. unfold edge_x. replace (0 * y) with 0 by ring. rewrite expi_0.
      change ((fst (snd e) - fst (fst e)) / (snd (snd e) - snd (fst e))) with a. apply Ceq; simpl; ring.
  - intros e _ Hd. unfold V. rewrite Hd. f_equal. ring.
Qed.

(** the two edge sums agree when both components are non-zero (Green) *)
Lemma green vs gx gy :
  Cplus (Cmult (RtoC gx) (csuml (map (fun e => Cmult (RtoC (dx e)) (along gx gy e)) (edges vs))))
        (Cmult (RtoC gy) (csuml (map (fun e => Cmult (RtoC (dy e)) (along gx gy e)) (edges vs)))) = RtoC 0.
Proof.
  rewrite <- !csuml_scal, <- csuml_plus.
  rewrite <- (csuml_telescope (fun p => Cmult (Copp Ci) (wave gx gy p)) vs). apply csuml_ext. intros e _.
  pose proof (kern_i (gx * dx e + gy * dy e)) as K.
  assert (W : wave gx gy (snd e) = Cmult (wave gx gy (fst e)) (expi (gx * dx e + gy * dy e))).
  { unfold wave. rewrite <- expi_plus. f_equal. unfold dx, dy. ring. }
  rewrite W. unfold along.
  transitivity (Cmult (Cmult (Copp Ci) (wave gx gy (fst e))) (Cminus (expi (gx * dx e + gy * dy e)) (RtoC 1))); [|ring].
  rewrite K, !RtoC_plus, !RtoC_mult. 
  transitivity (Cmult (Copp (Cmult Ci Ci)) (Cmult (wave gx gy (fst e)) (Cmult (Cplus (Cmult (RtoC gx) (RtoC (dx e))) (Cmult (RtoC gy) (RtoC (dy e)))) (kern (gx * dx e + gy * dy e))))); [|ring].
  rewrite Ci_sq. ring.
Qed.
