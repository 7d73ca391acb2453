(** Transfer matrices: C31, C32, C34. *)
From Verif Require Import Py CBase SlabModel SlabSpec.
Open Scope R_scope.
Open Scope C_scope.

(** ** chi *)
Lemma chi_sq omega g eps : chi omega g eps * chi omega g eps = RtoC (eps * (omega * omega) - g * g).
Proof.
  unfold chi. destruct (Rleb 0 _) eqn:E.
  - apply Rleb_true in E. rewrite <- RtoC_mult, sqrt_sqrt; auto.
  - apply Rleb_false in E.
    replace (Ci * RtoC (sqrt (- (eps * (omega * omega) - g * g))) * (Ci * RtoC (sqrt (- (eps * (omega * omega) - g * g)))))
      with (Ci * Ci * RtoC (sqrt (- (eps * (omega * omega) - g * g)) * sqrt (- (eps * (omega * omega) - g * g)))) by (rewrite RtoC_mult; ring).
    rewrite sqrt_sqrt by lra. cring.
Qed.
Lemma chi_ge omega g eps : (0 <= eps * (omega * omega) - g * g)%R ->
  chi omega g eps = RtoC (sqrt (eps * (omega * omega) - g * g)).
Proof. intros H. unfold chi. apply Rleb_true in H. rewrite H; auto. Qed.
Lemma chi_lt omega g eps : (eps * (omega * omega) - g * g < 0)%R ->
  chi omega g eps = Ci * RtoC (sqrt (- (eps * (omega * omega) - g * g))).
Proof. intros H. unfold chi. apply Rleb_false in H. rewrite H; auto. Qed.
Lemma chi_evan omega g eps : (eps * (omega * omega) < g * g)%R -> evanescent (chi omega g eps).
Proof.
  intros H. rewrite chi_lt by lra. split; simpl; [ring|].
  rewrite Rmult_0_l, Rplus_0_l, Rmult_1_l. apply sqrt_lt_R0. lra.
Qed.
Lemma chi_cases omega g eps :
  (snd (chi omega g eps) = 0 /\ 0 <= fst (chi omega g eps))%R \/ evanescent (chi omega g eps).
Proof.
  destruct (Rlt_dec (eps * (omega * omega)) (g * g)) as [H|H].
  - right. apply chi_evan; auto.
  - left. rewrite chi_ge by lra. simpl. split; auto. apply sqrt_pos.
Qed.

Lemma evan_neq0 c : evanescent c -> c <> RtoC 0.
Proof. intros [_ H] E. rewrite E in H. simpl in H. lra. Qed.

(** ** S matrices through admittances *)
Definition adm (te : bool) (ce : C * R) : C := if te then fst ce else fst ce / RtoC (snd ce).
Definition Sy (y1 y2 : C) : m2 :=
  let p := RtoC (/ 2) / y2 in M2 (p * (y1 + y2)) (p * (- y1 + y2)) (p * (- y1 + y2)) (p * (y1 + y2)).
Definition Sf (te : bool) := if te then S_TE else S_TM.
Lemma Sf_Sy te a b : Sf te a b = Sy (adm te a) (adm te b).
Proof.
  destruct te, a, b; unfold Sf, Sy, S_TE, S_TM, adm; simpl; auto.
  replace (- c / RtoC r) with (- (c / RtoC r)) by (unfold Cdiv; ring). reflexivity.
Qed.

Definition te_of (pol : string) (te : bool) : Prop :=
  if te then is_te pol = true else is_te pol = false /\ is_tm pol = true.
Lemma te_of_dec pol : is_te pol || is_tm pol = true -> exists te, te_of pol te.
Proof.
  destruct (is_te pol) eqn:E; [exists true; auto|]. simpl. intros. exists false. split; auto.
Qed.
Lemma te_of_tm pol : te_of pol false -> is_tm pol = true. Proof. intros [_ H]; auto. Qed.

Lemma ST_pol pol te omega g eps ds {A} (k : A) (e : exn) : te_of pol te ->
  (if is_te pol then S_T_matrices S_TE omega g eps ds
   else if is_tm pol then S_T_matrices S_TM omega g eps ds else Raise e)
  = S_T_matrices (Sf te) omega g eps ds.
Proof.
  destruct te; simpl; [intros ->; auto|]. intros [-> ->]. auto.
Qed.

Lemma S_vec_pol pol te e1 e2 c1 c2 : te_of pol te ->
  S_vec pol e1 e2 c1 c2 = let s := Sf te (c1, e1) (c2, e2) in Ok (m11 s, m12 s, m21 s, m22 s).
Proof.
  unfold S_vec, Sf, S_TE, S_TM. destruct te; simpl; [intros ->; auto|]. intros [-> ->]. auto.
Qed.

(** ** lists of layers *)
Definition ce (omega g e : R) : C * R := (chi omega g e, e).
Definition Slist te omega g (es : list R) : list m2 :=
  map (fun p => Sf te (fst p) (snd p)) (pairs (map (ce omega g) es)).
Definition Tlist omega g (es ds : list R) : list m2 :=
  map T_half (combine (removelast (map (chi omega g) es)) ds).
Lemma combine_map_self {A B} (f : A -> B) l : combine (map f l) l = map (fun x => (f x, x)) l.
Proof. induction l; simpl; congruence. Qed.
Lemma ST_lists te omega g e0 es ds : (List.length ds + 1 = List.length es)%nat ->
  S_T_matrices (Sf te) omega g (e0 :: es) ds = Ok (Slist te omega g (e0 :: es), Tlist omega g es ds).
Proof.
  intros H. unfold S_T_matrices. replace (Nat.eqb _ _) with true by (symmetry; apply Nat.eqb_eq; simpl; lia).
  unfold chi_array. rewrite combine_map_self. reflexivity.
Qed.
Lemma Slist_cons te omega g e1 e2 es :
  Slist te omega g (e1 :: e2 :: es) = Sf te (ce omega g e1) (ce omega g e2) :: Slist te omega g (e2 :: es).
Proof. reflexivity. Qed.
Lemma Tlist_cons omega g e1 e2 es d ds :
  Tlist omega g (e1 :: e2 :: es) (d :: ds) = T_half (chi omega g e1, d) :: Tlist omega g (e2 :: es) ds.
Proof. reflexivity. Qed.

Lemma Chalf (z : C) : z / 2 + z / 2 = z.
Proof. apply Ceq; simpl; field. Qed.
Lemma half_half (c : C) (d : R) : cexp (Ci * c * RtoC d / 2) * cexp (Ci * c * RtoC d / 2) = cexp (Ci * c * RtoC d).
Proof. rewrite <- cexp_plus, Chalf. reflexivity. Qed.
Lemma half_half' (c : C) (d : R) : cexp (- Ci * c * RtoC d / 2) * cexp (- Ci * c * RtoC d / 2) = cexp (- Ci * c * RtoC d).
Proof. rewrite <- cexp_plus, Chalf. reflexivity. Qed.

Lemma m2_eq a b : m11 a = m11 b -> m12 a = m12 b -> m21 a = m21 b -> m22 a = m22 b -> a = b.
Proof. destruct a, b; simpl; intros; subst; auto. Qed.

Lemma S_T_prod_eq pol te m omega g e1 e2 d : te_of pol te ->
  S_T_prod pol m omega g e1 e2 d =
  Ok (m2mul (Sf te (ce omega g e1) (ce omega g e2))
        (m2mul (T_half (chi omega g e1, d)) (m2mul (T_half (chi omega g e1, d)) m))).
Proof.
  intros H. unfold S_T_prod. rewrite (S_vec_pol pol te) by auto. cbn zeta. unfold bind.
  f_equal. fold (ce omega g e1) (ce omega g e2).
  set (s := Sf te (ce omega g e1) (ce omega g e2)).
  unfold T_half. rewrite <- (half_half (chi omega g e1) d), <- (half_half' (chi omega g e1) d).
  apply m2_eq; unfold m2mul; cbn [m11 m12 m21 m22]; ring.
Qed.

Lemma vec_loop_eq pol te omega g (H : te_of pol te) es : forall e1 m ds,
  (List.length ds = List.length es)%nat ->
  vec_loop pol m omega g (e1 :: es) ds = D_loop m (Slist te omega g (e1 :: es)) (Tlist omega g (e1 :: es) ds).
Proof.
  induction es as [|e2 es IH]; intros e1 m ds Hl.
  - reflexivity.
  - destruct ds as [|d ds]; [simpl in Hl; lia|].
    change (vec_loop pol m omega g (e1 :: e2 :: es) (d :: ds))
      with (let* m' := S_T_prod pol m omega g e1 e2 d in vec_loop pol m' omega g (e2 :: es) ds).
    rewrite (S_T_prod_eq pol te) by auto. cbn [bind].
    rewrite Slist_cons, Tlist_cons. cbn [D_loop]. apply IH. simpl in Hl; lia.
Qed.

Theorem D22_vec_scalar pol omega g eps ds : is_te pol || is_tm pol = true ->
  (List.length ds + 2 = List.length eps)%nat ->
  D22 pol omega g eps ds = D22s_one pol omega g eps ds.
Proof.
  intros Hp Hl. destruct (te_of_dec pol Hp) as [te H].
  destruct eps as [|e1 [|e2 t]]; simpl in Hl; try lia.
  assert (G : D22_nlayer pol omega g (e1 :: e2 :: t) ds =
    let* S4 := S_vec pol e1 e2 (chi omega g e1) (chi omega g e2) in
    let '(S11, S12, S21, S22) := S4 in
    let* m := vec_loop pol (M2 S11 S12 S21 S22) omega g (e2 :: t) ds in
    Ok (m22 m)).
  { unfold D22_nlayer. rewrite (ST_pol pol te omega g _ _ tt) by auto.
    rewrite ST_lists by (simpl; lia). cbn [bind fst snd].
    rewrite Slist_cons. rewrite (S_vec_pol pol te) by auto. cbn zeta. unfold bind at 2.
    fold (ce omega g e1) (ce omega g e2).
    destruct (Sf te (ce omega g e1) (ce omega g e2)) as [a b c d] eqn:E. cbn [m11 m12 m21 m22].
    rewrite (vec_loop_eq pol te) by (auto; lia). reflexivity. }
  unfold D22, D22s_one. destruct t as [|e3 [|e4 t]]; auto.
Qed.

(** ** the three-layer closed form *)
Lemma csin_E (z : C) : csin z = (cexp (Ci * z) - / cexp (Ci * z)) / (2 * Ci).
Proof. unfold csin. rewrite cexp_opp. reflexivity. Qed.
Lemma ccos_E (z : C) : ccos z = (cexp (Ci * z) + / cexp (Ci * z)) / 2.
Proof. unfold ccos. rewrite cexp_opp. reflexivity. Qed.
Lemma C2_neq0 : RtoC 2 <> RtoC 0. Proof. apply RtoC_neq0; lra. Qed.
Lemma inv_i : / Ci = - Ci.
Proof.
  assert (E : Ci * (- Ci) = 1). { replace (Ci * - Ci) with (- (Ci * Ci)) by ring. rewrite Ci_sq. ring. }
  replace (/ Ci) with (/ Ci * (Ci * - Ci)) by (rewrite E; ring).
  rewrite Cmult_assoc, Cinv_l by apply Ci_neq0. ring.
Qed.

Lemma Cinv2 (z : C) : z / 2 = z * RtoC (/ 2).
Proof. unfold Cdiv. rewrite RtoC_inv by lra. reflexivity. Qed.

Lemma closed_form (y1 y2 y3 E : C) : y2 <> RtoC 0 -> y3 <> RtoC 0 -> E <> RtoC 0 ->
  y2 * (y1 + y3) * (- Ci * ((E + / E) / 2)) + (y1 * y3 + y2 * y2) * (- ((E - / E) / (2 * Ci)))
  = (- (2 * Ci) * y2 * y3) *
    (RtoC (/ 2) / y3 * (- y2 + y3) * (E * (RtoC (/ 2) / y2 * (- y1 + y2)))
     + RtoC (/ 2) / y3 * (y2 + y3) * (/ E * (RtoC (/ 2) / y2 * (y1 + y2)))).
Proof.
  intros H2 H3 HE.
  replace ((E - / E) / (2 * Ci)) with ((E - / E) * RtoC (/ 2) * (- Ci)).
  2:{ rewrite <- inv_i. replace (RtoC (/ 2)) with (/ RtoC 2) by (symmetry; apply RtoC_inv; lra).
      field. repeat split; auto using Ci_neq0, C2_neq0. }
  rewrite Cinv2.
  assert (T : RtoC 2 * RtoC (/ 2) = RtoC 1) by (rewrite <- RtoC_mult; f_equal; field).
  set (h := RtoC (/ 2)) in *.
  replace (- (2 * Ci) * y2 * y3 *
    (h / y3 * (- y2 + y3) * (E * (h / y2 * (- y1 + y2))) + h / y3 * (y2 + y3) * (/ E * (h / y2 * (y1 + y2)))))
    with ((RtoC 2 * h) * (- (Ci * h) * ((- y2 + y3) * (- y1 + y2) * E + (y2 + y3) * (y1 + y2) * / E))).
  2:{ field. repeat split; auto. }
  rewrite T. field. auto.
Qed.

Definition y3l (te : bool) (c : C) (e : R) : C := if te then c else c / RtoC e.

Lemma chis3 omega g e1 e2 e3 : (e1 * (omega * omega) < g * g)%R -> (e3 * (omega * omega) < g * g)%R ->
  (g * g < e2 * (omega * omega))%R ->
  chis_3layer omega g e1 e2 e3 = (chi omega g e1, chi omega g e2, chi omega g e3).
Proof.
  intros H1 H3 H2. unfold chis_3layer.
  rewrite (chi_lt omega g e1), (chi_lt omega g e3), (chi_ge omega g e2) by lra.
  replace (- (e1 * (omega * omega) - g * g))%R with (g * g - e1 * (omega * omega))%R by ring.
  replace (- (e3 * (omega * omega) - g * g))%R with (g * g - e3 * (omega * omega))%R by ring.
  replace (e2 * (omega * omega) - g * g)%R with (- (g * g) + e2 * (omega * omega))%R by ring.
  reflexivity.
Qed.

Lemma Cdiv_neq0 (a : C) (e : R) : a <> RtoC 0 -> (e <> 0)%R -> a / RtoC e <> RtoC 0.
Proof.
  intros Ha He E. apply Ha. apply RtoC_neq0 in He.
  replace a with (a / RtoC e * RtoC e) by (field; auto). rewrite E. ring.
Qed.

Lemma three_layer pol omega g e1 e2 e3 d : is_te pol || is_tm pol = true ->
  (0 < e1)%R -> (0 < e2)%R -> (0 < e3)%R ->
  (e1 * (omega * omega) < g * g)%R -> (e3 * (omega * omega) < g * g)%R -> (g * g < e2 * (omega * omega))%R ->
  exists a b k, D22_3layer pol omega g e1 e2 e3 [d] = Ok a /\
    D22_nlayer pol omega g [e1; e2; e3] [d] = Ok b /\ k <> RtoC 0 /\ a = k * b.
Proof.
  intros Hp P1 P2 P3 H1 H3 H2. destruct (te_of_dec pol Hp) as [te H].
  unfold D22_3layer. rewrite chis3 by auto.
  pose proof (evan_neq0 _ (chi_evan omega g e1 H1)) as N1.
  pose proof (evan_neq0 _ (chi_evan omega g e3 H3)) as N3.
  assert (N2 : chi omega g e2 <> RtoC 0).
  { rewrite chi_ge by lra. apply RtoC_neq0. apply Rgt_not_eq, sqrt_lt_R0. lra. }
  unfold D22_nlayer. rewrite (ST_pol pol te omega g _ _ tt) by auto.
  rewrite ST_lists by reflexivity. cbn [bind fst snd].
  rewrite !Slist_cons, Tlist_cons. rewrite !Sf_Sy. unfold ce, T_half.
  set (c1 := chi omega g e1) in *. set (c2 := chi omega g e2) in *. set (c3 := chi omega g e3) in *.
  change (Slist te omega g [e3]) with (@nil m2). cbn [D_loop bind].
  set (E := cexp (Ci * c2 * RtoC d)).
  assert (HE : E <> RtoC 0) by apply cexp_neq0.
  assert (Ecos : ccos (c2 * RtoC d) = (E + / E) / 2).
  { rewrite ccos_E. unfold E. rewrite Cmult_assoc. reflexivity. }
  assert (Esin : csin (c2 * RtoC d) = (E - / E) / (2 * Ci)).
  { rewrite csin_E. unfold E. rewrite Cmult_assoc. reflexivity. }
  rewrite Ecos, Esin.
  set (y1 := adm te (c1, e1)). set (y2 := adm te (c2, e2)). set (y3 := adm te (c3, e3)).
  assert (M2' : y2 <> RtoC 0) by (unfold y2; destruct te; simpl; auto; apply Cdiv_neq0; auto; lra).
  assert (M3 : y3 <> RtoC 0) by (unfold y3; destruct te; simpl; auto; apply Cdiv_neq0; auto; lra).
  eexists; eexists; exists (- (2 * Ci) * y2 * y3). split; [|split; [reflexivity|split]].
  - instantiate (1 := y2 * (y1 + y3) * (- Ci * ((E + / E) / 2)) + (y1 * y3 + y2 * y2) * (- ((E - / E) / (2 * Ci)))).
    destruct te; simpl in H.
    + rewrite H. reflexivity.
    + destruct H as [-> ->]. f_equal. unfold y1, y2, y3, adm. cbn [fst snd].
      replace (c1 / RtoC e1 * c3 / RtoC e3) with (c1 / RtoC e1 * (c3 / RtoC e3)) by (unfold Cdiv; ring).
      reflexivity.
  - apply Cmult_neq_0; auto. apply Cmult_neq_0; auto. intros E0.
    apply (Cmult_neq_0 2 Ci); [apply C2_neq0|apply Ci_neq0|].
    replace (2 * Ci) with (- - (2 * Ci)) by ring. rewrite E0. ring.
  - rewrite closed_form by auto. f_equal.
    unfold Sy, m2mul. cbn [m11 m12 m21 m22].
    replace (/ E) with (cexp (- Ci * c2 * RtoC d)).
    2:{ unfold E. rewrite <- cexp_opp. f_equal. ring. }
    unfold E. rewrite <- half_half, <- half_half'. ring.
Qed.

(** ** reality *)
Definition col2 (m : m2) : C * C := (m12 m, m22 m).
Lemma col2_mul a b : col2 (m2mul a b) = m2vec a (col2 b).
Proof. reflexivity. Qed.

Definition lay (c : C) (v : C * C) : Prop :=
  (snd c = 0%R /\ fst v = (snd v)^*) \/ (fst c = 0%R /\ is_real (fst v) /\ is_real (snd v)).

Lemma kind_real c : snd c = 0%R <-> c^* = c.
Proof. symmetry. apply (is_real_iff c). Qed.
Lemma kind_imag c : fst c = 0%R <-> c^* = - c.
Proof.
  split; intros H.
  - apply Ceq; simpl; [rewrite H; ring|ring].
  - apply (f_equal fst) in H. simpl in H. lra.
Qed.

Lemma Sy_r y1 y2 v : y2 <> RtoC 0 ->
  m2vec (Sy y1 y2) v =
  (RtoC (/ 2) * ((1 + y1 / y2) * fst v + (1 - y1 / y2) * snd v),
   RtoC (/ 2) * ((1 - y1 / y2) * fst v + (1 + y1 / y2) * snd v)).
Proof.
  intros H. unfold m2vec, Sy. cbn [m11 m12 m21 m22]. f_equal; field; auto.
Qed.

Lemma Cinv_opp (y : C) : / (- y) = - / y.
Proof.
  apply Ceq; simpl; unfold Rdiv; replace (- fst y * (- fst y * 1) + - snd y * (- snd y * 1))%R
    with (fst y * (fst y * 1) + snd y * (snd y * 1))%R by ring; ring.
Qed.
Lemma lay_S y1 y2 v : y2 <> RtoC 0 -> (snd y2 = 0%R \/ fst y2 = 0%R) -> lay y1 v -> lay y2 (m2vec (Sy y1 y2) v).
Proof.
  intros N K L. rewrite Sy_r by auto. set (r := y1 / y2).
  destruct L as [[L1 L2]|[L1 [L2 L3]]]; destruct K as [K|K].
  - left. split; auto. apply kind_real in L1, K. cbn [fst snd].
    assert (R : r^* = r) by (unfold r; rewrite Cconj_div, L1, K; auto).
    autorewrite with cconj. rewrite R, L2. autorewrite with cconj. ring.
  - right. split; auto. apply kind_real in L1. apply kind_imag in K. cbn [fst snd].
    assert (R : r^* = - r) by (unfold r; rewrite Cconj_div, L1, K; unfold Cdiv; try rewrite Cinv_opp; ring).
    unfold is_real. autorewrite with cconj. rewrite R, L2. autorewrite with cconj. split; ring.
  - left. split; auto. apply kind_imag in L1. apply kind_real in K. cbn [fst snd].
    assert (R : r^* = - r) by (unfold r; rewrite Cconj_div, L1, K; unfold Cdiv; try rewrite Cinv_opp; ring).
    unfold is_real in *. autorewrite with cconj. rewrite R, L2, L3. ring.
  - right. split; auto. apply kind_imag in L1, K. cbn [fst snd].
    assert (R : r^* = r) by (unfold r; rewrite Cconj_div, L1, K; unfold Cdiv; try rewrite Cinv_opp; ring).
    unfold is_real in *. autorewrite with cconj. rewrite R, L2, L3. split; ring.
Qed.

Lemma lay_T c d v : lay c v -> lay c (m2vec (T_half (c, d)) v).
Proof.
  intros [[L1 L2]|[L1 [L2 L3]]].
  - left. split; auto. apply kind_real in L1. unfold m2vec, T_half. cbn [m11 m12 m21 m22 fst snd].
    autorewrite with cconj. rewrite L2, cexp_conj. autorewrite with cconj. rewrite L1.
    replace (- - Ci * c * RtoC d / RtoC 2) with (Ci * c * RtoC d / RtoC 2) by (unfold Cdiv; ring). ring.
  - right. split; auto. apply kind_imag in L1. unfold is_real, m2vec, T_half in *. cbn [m11 m12 m21 m22 fst snd].
    autorewrite with cconj. rewrite !cexp_conj, L2, L3. autorewrite with cconj. rewrite L1.
    replace (- Ci * - c * RtoC d / RtoC 2) with (Ci * c * RtoC d / RtoC 2) by (unfold Cdiv; ring).
    replace (- - Ci * - c * RtoC d / RtoC 2) with (- Ci * c * RtoC d / RtoC 2) by (unfold Cdiv; ring).
    split; ring.
Qed.

Lemma div_kind (c : C) (e : R) : (e <> 0)%R ->
  (snd c = 0%R -> snd (c / RtoC e) = 0%R) /\ (fst c = 0%R -> fst (c / RtoC e) = 0%R).
Proof.
  intros H. split; intros E.
  - apply kind_real. apply kind_real in E. rewrite Cconj_div, Cconj_R, E; auto.
  - apply kind_imag. apply kind_imag in E. rewrite Cconj_div, Cconj_R, E.
    field. apply RtoC_neq0; auto.
Qed.
Lemma adm_lay te c e v : (e <> 0)%R -> lay c v <-> lay (adm te (c, e)) v.
Proof.
  intros H. destruct te; simpl; [tauto|]. destruct (div_kind c e H) as [D1 D2].
  assert (R : c = c / RtoC e / RtoC (/ e)).
  { unfold Cdiv. rewrite <- Cmult_assoc, <- !RtoC_inv, <- RtoC_mult by auto using Rinv_neq_0_compat.
    replace (/ e * / / e)%R with 1%R by (field; auto). ring. }
  destruct (div_kind (c / RtoC e) (/ e)) as [D3 D4]; [apply Rinv_neq_0_compat; auto|]. rewrite <- R in D3, D4.
  unfold lay. split; intros [[A1 A2]|[A1 A2]]; auto.
Qed.
Lemma adm_neq0 te c e : (e <> 0)%R -> c <> RtoC 0 -> adm te (c, e) <> RtoC 0.
Proof. intros He Hc. destruct te; simpl; auto. apply Cdiv_neq0; auto. Qed.
Lemma adm_kind te omega g e : (e <> 0)%R ->
  snd (adm te (ce omega g e)) = 0%R \/ fst (adm te (ce omega g e)) = 0%R.
Proof.
  intros H. unfold ce. destruct (div_kind (chi omega g e) e H) as [D1 D2].
  destruct (chi_cases omega g e) as [[A _]|[A _]]; destruct te; simpl; auto.
Qed.

Definition regular omega g (es : list R) : Prop :=
  Forall (fun e => (e <> 0)%R /\ chi omega g e <> RtoC 0) es.

Lemma lay_Sf te omega g e1 e2 v : (e1 <> 0)%R -> (e2 <> 0)%R -> chi omega g e2 <> RtoC 0 ->
  lay (chi omega g e1) v -> lay (chi omega g e2) (m2vec (Sf te (ce omega g e1) (ce omega g e2)) v).
Proof.
  intros H1 H2 N L. rewrite Sf_Sy. apply <- (adm_lay te (chi omega g e2) e2 (m2vec (Sy (adm te (ce omega g e1)) (adm te (ce omega g e2))) v) H2). apply lay_S.
  - apply adm_neq0; auto.
  - apply adm_kind; auto.
  - apply -> (adm_lay te (chi omega g e1) e1 v H1); auto.
Qed.

Lemma D_loop_lay te omega g es : forall e1 D ds, (e1 <> 0)%R -> regular omega g es ->
  List.length ds = List.length es -> lay (chi omega g e1) (col2 D) ->
  exists D', D_loop D (Slist te omega g (e1 :: es)) (Tlist omega g (e1 :: es) ds) = Ok D' /\
    lay (chi omega g (last (e1 :: es) 0%R)) (col2 D').
Proof.
  induction es as [|e2 es IH]; intros e1 D ds H1 HR Hl HL.
  - exists D. split; auto.
  - destruct ds as [|d ds]; [simpl in Hl; lia|]. rewrite Slist_cons, Tlist_cons. cbn [D_loop].
    inversion HR as [|? ? [H2 N2] HR']; subst.
    apply IH; auto.
    rewrite !col2_mul. apply lay_Sf; auto. apply lay_T, lay_T; auto.
Qed.

Lemma D22_nlayer_real pol omega g e0 es ds : is_te pol || is_tm pol = true ->
  (List.length ds + 1 = List.length es)%nat -> es <> [] ->
  (e0 <> 0)%R -> regular omega g es ->
  (e0 * (omega * omega) < g * g)%R -> (last es 0%R * (omega * omega) < g * g)%R ->
  exists z, D22_nlayer pol omega g (e0 :: es) ds = Ok z /\ is_real z.
Proof.
  intros Hp Hl Hne H0 HR W0 W1. destruct (te_of_dec pol Hp) as [te H].
  destruct es as [|e1 es]; [congruence|].
  unfold D22_nlayer. rewrite (ST_pol pol te omega g _ _ tt) by auto.
  rewrite ST_lists by (simpl in *; lia). cbn [bind fst snd]. rewrite Slist_cons.
  inversion HR as [|? ? [H1 N1] HR']; subst.
  destruct (D_loop_lay te omega g es e1 (Sf te (ce omega g e0) (ce omega g e1)) ds) as [D' [E L]]; auto.
  { simpl in Hl; lia. }
  { change (col2 (Sf te (ce omega g e0) (ce omega g e1))) with (col2 (Sf te (ce omega g e0) (ce omega g e1))).
    replace (col2 (Sf te (ce omega g e0) (ce omega g e1)))
      with (m2vec (Sf te (ce omega g e0) (ce omega g e1)) (RtoC 0, RtoC 1)).
    2:{ unfold m2vec, col2; cbn [fst snd]. f_equal; ring. }
    apply lay_Sf; auto. right. destruct (chi_evan omega g e0 W0) as [K _]. cbn [fst snd]. repeat split; auto; apply is_real_R. }
  rewrite E. cbn [bind]. eexists; split; [reflexivity|].
  change (last (e1 :: es) 0%R) with (last (e1 :: es) 0%R) in W1.
  destruct (chi_evan omega g _ W1) as [K1 K2].
  destruct L as [[L1 _]|[_ [_ L2]]]; [lra|]. exact L2.
Qed.
