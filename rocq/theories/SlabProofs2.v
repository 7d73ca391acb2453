(** Interface conditions of the mode amplitudes (C34). *)
From Verif Require Import Py CBase SlabModel SlabSpec SlabProofs.
Open Scope R_scope.
Open Scope C_scope.

(** amplitudes shifted by h *)
Definition edge (c : C) (v : C * C) (h : R) : C * C :=
  (fst v * cexp (Ci * c * RtoC h), snd v * cexp (- (Ci * c * RtoC h))).
Lemma wave_edge c v h : wave c (fst v) (snd v) h = fst (edge c v h) + snd (edge c v h).
Proof. reflexivity. Qed.
Lemma dwave_edge c v h : dwave c (fst v) (snd v) h = Ci * c * (fst (edge c v h) - snd (edge c v h)).
Proof. reflexivity. Qed.
Lemma edge_0 c v : edge c v 0 = v.
Proof.
  unfold edge. replace (Ci * c * RtoC 0) with (RtoC 0) by ring.
  replace (- RtoC 0) with (RtoC 0) by ring. rewrite cexp_0. destruct v; simpl; f_equal; ring.
Qed.
Lemma edge_back c v h : edge c (edge c v h) (- h) = v.
Proof.
  unfold edge. cbn [fst snd]. rewrite RtoC_opp.
  replace (Ci * c * - RtoC h) with (- (Ci * c * RtoC h)) by ring.
  set (z := Ci * c * RtoC h). rewrite <- !Cmult_assoc.
  replace (- - z) with z by ring.
  rewrite (Cmult_comm (cexp (- z))), !cexp_neg.
  destruct v; simpl; f_equal; ring.
Qed.
Lemma edge_back0 c v : edge c v (- 0) = v.
Proof. replace (- 0)%R with 0%R by ring. apply edge_0. Qed.
Lemma T_edge c d v : m2vec (T_half (c, d)) v = edge c v (d / 2).
Proof.
  unfold m2vec, T_half, edge. cbn [m11 m12 m21 m22].
  replace (RtoC (d / 2)) with (RtoC d / RtoC 2) by (symmetry; apply RtoC_div; lra).
  replace (Ci * c * (RtoC d / RtoC 2)) with (Ci * c * RtoC d / RtoC 2) by (unfold Cdiv; ring).
  replace (- Ci * c * RtoC d / RtoC 2) with (- (Ci * c * RtoC d / RtoC 2)) by (unfold Cdiv; ring).
  f_equal; ring.
Qed.

Lemma Sy_cont y1 y2 v : y2 <> RtoC 0 ->
  fst (m2vec (Sy y1 y2) v) + snd (m2vec (Sy y1 y2) v) = fst v + snd v /\
  y2 * (fst (m2vec (Sy y1 y2) v) - snd (m2vec (Sy y1 y2) v)) = y1 * (fst v - snd v).
Proof.
  intros H. rewrite Sy_r by auto. cbn [fst snd].
  set (a := fst v). set (b := snd v).
  assert (T : RtoC (/ 2) + RtoC (/ 2) = RtoC 1) by (rewrite <- RtoC_plus; f_equal; field).
  set (h := RtoC (/ 2)) in *.
  split.
  - transitivity ((h + h) * (a + b)); [ring|]. rewrite T. ring.
  - transitivity ((h + h) * (y1 * (a - b))); [field; auto|]. rewrite T. ring.
Qed.

(** one interface: v2 shifted back by h2 is S applied to v1 shifted by h1 *)
Lemma interface te omega g e1 e2 v1 v2 h1 h2 : (e1 <> 0)%R -> (e2 <> 0)%R -> chi omega g e2 <> RtoC 0 ->
  edge (chi omega g e2) v2 (- h2) = m2vec (Sf te (ce omega g e1) (ce omega g e2)) (edge (chi omega g e1) v1 h1) ->
  matched te (e1, chi omega g e1, v1, h1) (e2, chi omega g e2, v2, h2).
Proof.
  intros H1 H2 N E. destruct v1 as [A1 B1], v2 as [A2 B2].
  pose proof (wave_edge (chi omega g e1) (A1, B1) h1) as W1.
  pose proof (wave_edge (chi omega g e2) (A2, B2) (- h2)) as W2.
  pose proof (dwave_edge (chi omega g e1) (A1, B1) h1) as D1.
  pose proof (dwave_edge (chi omega g e2) (A2, B2) (- h2)) as D2.
  cbn [fst snd] in W1, W2, D1, D2. rewrite E in W2, D2. rewrite Sf_Sy in W2, D2.
  destruct (Sy_cont (adm te (ce omega g e1)) (adm te (ce omega g e2)) (edge (chi omega g e1) (A1, B1) h1)) as [C1 C2].
  { apply adm_neq0; auto. }
  unfold matched. rewrite W1, W2, D1, D2. split; [symmetry; exact C1|].
  destruct te; simpl adm in *.
  - rewrite <- !Cmult_assoc. f_equal. symmetry. exact C2.
  - assert (F : forall (c x : C) e, Ci * c * x / RtoC e = Ci * (c / RtoC e * x)) by (intros; unfold Cdiv; ring).
    rewrite !F. f_equal. symmetry. exact C2.
Qed.

(** the stack as a list for [all_matched] *)
Fixpoint mk omega g (es : list R) (vs : list (C * C)) (hs : list R) : list (R * C * (C * C) * R) :=
  match es, vs, hs with
  | e :: es', v :: vs', h :: hs' => (e, chi omega g e, v, h) :: mk omega g es' vs' hs'
  | _, _, _ => []
  end.

Lemma AB_loop_ok te omega g es : forall e1 v ds, (e1 <> 0)%R -> regular omega g es -> es <> [] ->
  List.length ds = List.length es ->
  exists r, AB_loop v (Slist te omega g (e1 :: es)) (Tlist omega g (e1 :: es) ds) = Ok r /\
    List.length r = List.length es /\
    all_matched te (mk omega g (e1 :: es) (v :: r) (map (fun d => d / 2)%R ds ++ [0%R])).
Proof.
  induction es as [|e2 es IH]; intros e1 v ds H1 HR Hne Hl; [congruence|].
  destruct ds as [|d ds]; [simpl in Hl; lia|]. rewrite Slist_cons, Tlist_cons.
  inversion HR as [|? ? [H2 N2] HR']; subst.
  destruct es as [|e3 es].
  - destruct ds; [|simpl in Hl; lia].
    change (Slist te omega g [e2]) with (@nil m2). cbn [AB_loop].
    eexists; split; [reflexivity|]. split; auto.
    cbn [map app mk all_matched]. split; auto. apply interface; auto.
    rewrite edge_back0, T_edge. reflexivity.
  - destruct ds as [|d2 ds]; [simpl in Hl; lia|].
    set (t := m2vec (T_half (chi omega g e2, d2)) (m2vec (Sf te (ce omega g e1) (ce omega g e2))
                (m2vec (T_half (chi omega g e1, d)) v))).
    destruct (IH e2 t (d2 :: ds)) as [r [E [L M]]]; auto; [discriminate|].
    rewrite Slist_cons, Tlist_cons in *. cbn [AB_loop]. fold t.
    exists (t :: r). split.
    + cbn [AB_loop] in E. rewrite E. reflexivity.
    + split; [simpl; rewrite L; auto|].
      cbn [map app] in *. cbn [mk all_matched]. split; [|exact M].
      apply interface; auto. unfold t. rewrite !T_edge. rewrite edge_back. reflexivity.
Qed.

Lemma AB_loop_last te omega g es : forall e1 D d ds r D', es <> [] -> List.length (d :: ds) = List.length es ->
  D_loop D (Slist te omega g (e1 :: es)) (Tlist omega g (e1 :: es) (d :: ds)) = Ok D' ->
  AB_loop (m2vec (T_half (chi omega g e1, d)) (col2 D)) (Slist te omega g (e1 :: es)) (Tlist omega g (e1 :: es) (d :: ds)) = Ok r ->
  last r (RtoC 0, RtoC 0) = col2 D'.
Proof.
  induction es as [|e2 es IH]; intros e1 D d ds r D' Hne Hl; [congruence|].
  rewrite Slist_cons, Tlist_cons.
  destruct es as [|e3 es].
  - destruct ds; [|simpl in Hl; lia].
    change (Slist te omega g [e2]) with (@nil m2). cbn [AB_loop D_loop].
    intros HD HA. injection HD as HD. injection HA as HA. subst. reflexivity.
  - destruct ds as [|d2 ds]; [simpl in Hl; lia|].
    specialize (IH e2 (m2mul (Sf te (ce omega g e1) (ce omega g e2)) (m2mul (T_half (chi omega g e1, d)) (m2mul (T_half (chi omega g e1, d)) D))) d2 ds).
    rewrite !col2_mul in IH. rewrite Slist_cons, Tlist_cons in *.
    intros HD HA. cbn [D_loop] in HD, IH. cbn [AB_loop] in HA.
    destruct (bind_ok _ _ _ HA) as [r' [E1 E2]]. injection E2 as E2. subst r.
    specialize (IH r' D' ltac:(discriminate) ltac:(simpl in *; lia) HD). cbn [AB_loop] in IH. specialize (IH E1).
    destruct r' as [|x r']; [|exact IH].
    exfalso. revert E1. clear. destruct (Slist te omega g (e3 :: es)) as [|s l]; [discriminate|].
    intros E. destruct (Tlist omega g (e3 :: es) ds); [discriminate|].
    destruct (bind_ok _ _ _ E) as [? [_ E']]. discriminate.
Qed.

Definition half_thick (ds : list R) : list R := 0%R :: map (fun d => (d / 2)%R) ds ++ [0%R].

Lemma AB_interfaces pol te omega g e0 es ds : te_of pol te ->
  (List.length ds + 1 = List.length es)%nat -> ds <> [] -> (e0 <> 0)%R -> regular omega g es ->
  exists ABs, AB_matrices pol omega g (e0 :: es) ds = Ok ABs /\
    List.length ABs = List.length (e0 :: es) /\ hd (RtoC 0, RtoC 0) ABs = (RtoC 0, RtoC 1) /\
    all_matched te (mk omega g (e0 :: es) ABs (half_thick ds)) /\
    (forall z, D22_nlayer pol omega g (e0 :: es) ds = Ok z -> snd (last ABs (RtoC 0, RtoC 0)) = z).
Proof.
  intros H Hl Hne H0 HR. destruct es as [|e1 es]; [simpl in Hl; lia|].
  destruct ds as [|d ds]; [congruence|]. destruct es as [|e2 es]; [simpl in Hl; lia|].
  inversion HR as [|? ? [H1 N1] HR']; subst.
  unfold AB_matrices. replace (Nat.eqb _ _) with true by (symmetry; apply Nat.eqb_eq; simpl in *; lia).
  rewrite (ST_pol pol te omega g _ _ tt) by auto. rewrite ST_lists by (simpl in *; lia). cbn [bind fst snd].
  unfold D22_nlayer. rewrite (ST_pol pol te omega g _ _ tt) by auto. rewrite ST_lists by (simpl in *; lia). cbn [bind fst snd].
  rewrite (Slist_cons te omega g e0 e1).
  set (S0 := Sf te (ce omega g e0) (ce omega g e1)).
  set (AB1 := m2vec (T_half (chi omega g e1, d)) (m2vec S0 (RtoC 0, RtoC 1))).
  destruct (AB_loop_ok te omega g (e2 :: es) e1 AB1 (d :: ds)) as [r [E [L M]]]; auto; try discriminate; try (simpl in *; lia).
  pose proof E as E'. rewrite Tlist_cons in E' |- *. cbn zeta. fold AB1. rewrite E'. clear E'. cbn [bind].
  eexists; split; [reflexivity|].
  split; [|split; [reflexivity|split]].
  - simpl in *. lia.
  - unfold half_thick. cbn [map app mk all_matched]. cbn [map app mk] in M. split; [|exact M].
    apply interface; auto. unfold AB1. rewrite T_edge, edge_back, edge_0. reflexivity.
  - intros z HD. destruct (bind_ok _ _ _ HD) as [D' [E1 E2]]. injection E2 as E2. subst z.
    assert (HA : AB1 = m2vec (T_half (chi omega g e1, d)) (col2 S0)).
    { unfold AB1. f_equal. unfold m2vec, col2; cbn [fst snd]. f_equal; ring. }
    rewrite <- Tlist_cons in E1. rewrite HA in E. pose proof (AB_loop_last te omega g (e2 :: es) e1 S0 d ds r D' ltac:(discriminate) ltac:(simpl in *; lia) E1 E) as X.
    destruct r; [simpl in L; lia|].
    change (last ((RtoC 0, RtoC 1) :: AB1 :: p :: r) (RtoC 0, RtoC 0)) with (last (p :: r) (RtoC 0, RtoC 0)). rewrite X. reflexivity.
Qed.
