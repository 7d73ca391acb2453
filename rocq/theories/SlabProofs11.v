(** Radiation modes: interface conditions, existence, uniqueness and power (C108). *)
From Verif Require Import Py CBase SlabModel SlabSpec SlabProofs SlabProofs2 SlabProofs5 SlabProofs10.
Open Scope R_scope.
Open Scope C_scope.

Notation lay4 := (R * C * (C * C) * R)%type (only parsing).

(** ** chains by index *)
Definition d4 : lay4 := (0%R, RtoC 0, (RtoC 0, RtoC 0), 0%R).
Lemma all_matched_nth te (l : list lay4) :
  all_matched te l <-> forall i, (S i < List.length l)%nat -> matched te (nth i l d4) (nth (S i) l d4).
Proof.
  induction l as [|x l IH].
  - split; [intros _ i H; simpl in H; lia|intros _; exact Logic.I].
  - destruct l as [|y l].
    + split; [intros _ i H; simpl in H; lia|intros _; exact Logic.I].
    + change (all_matched te (x :: y :: l)) with (matched te x y /\ all_matched te (y :: l)). rewrite IH. split.
      * intros [M H] [|i] Hi; [exact M|]. apply (H i). simpl in Hi |- *; lia.
      * intros H. split; [apply (H 0%nat); simpl; lia|]. intros i Hi. apply (H (S i)). simpl in Hi |- *; lia.
Qed.

Definition swap4 (x : lay4) : lay4 := let '(e, c, (A, B), h) := x in (e, c, (B, A), h).
Lemma wave_swap c A B z : wave c B A z = wave c A B (- z).
Proof.
  unfold wave. rewrite RtoC_opp. replace (Ci * c * - RtoC z) with (- (Ci * c * RtoC z)) by ring.
  replace (- - (Ci * c * RtoC z)) with (Ci * c * RtoC z) by ring. ring.
Qed.
Lemma dwave_swap c A B z : dwave c B A z = - dwave c A B (- z).
Proof.
  unfold dwave. rewrite RtoC_opp. replace (Ci * c * - RtoC z) with (- (Ci * c * RtoC z)) by ring.
  replace (- - (Ci * c * RtoC z)) with (Ci * c * RtoC z) by ring. ring.
Qed.
Lemma matched_swap te x y : matched te x y -> matched te (swap4 y) (swap4 x).
Proof.
  destruct x as [[[e1 c1] [A1 B1]] h1], y as [[[e2 c2] [A2 B2]] h2]. cbn [swap4 matched].
  rewrite (wave_swap c2 A2 B2 h2), (wave_swap c1 A1 B1 (- h1)), (dwave_swap c2 A2 B2 h2), (dwave_swap c1 A1 B1 (- h1)), !Ropp_involutive.
  intros [H1 H2]. split; [congruence|]. destruct te; [congruence|].
  assert (F : forall (a b : C), - a / b = - (a / b)) by (intros; unfold Cdiv; ring). rewrite !F. congruence.
Qed.
Lemma matched_rev te (l : list lay4) : all_matched te l -> all_matched te (rev (map swap4 l)).
Proof.
  rewrite !all_matched_nth. intros H i Hi. rewrite rev_length, map_length in Hi.
  rewrite !rev_nth by (rewrite map_length; lia). rewrite !map_length.
  replace (List.length l - S i)%nat with (S (List.length l - S (S i)))%nat by lia.
  change d4 with (swap4 d4). rewrite !map_nth. apply matched_swap. apply H. lia.
Qed.

Definition scale4 (k : C) (x : lay4) : lay4 := let '(e, c, (A, B), h) := x in (e, c, (k * A, k * B), h).
Lemma wave_scale k c A B z : wave c (k * A) (k * B) z = k * wave c A B z.
Proof. unfold wave. ring. Qed.
Lemma dwave_scale k c A B z : dwave c (k * A) (k * B) z = k * dwave c A B z.
Proof. unfold dwave. ring. Qed.
Lemma matched_scale te k x y : matched te x y -> matched te (scale4 k x) (scale4 k y).
Proof.
  destruct x as [[[e1 c1] [A1 B1]] h1], y as [[[e2 c2] [A2 B2]] h2]. cbn [scale4 matched].
  rewrite !wave_scale, !dwave_scale. intros [H1 H2]. split; [congruence|]. destruct te; [congruence|].
  unfold Cdiv in *. rewrite <- !Cmult_assoc. congruence.
Qed.
Lemma all_scale te k (l : list lay4) : all_matched te l -> all_matched te (map (scale4 k) l).
Proof.
  rewrite !all_matched_nth. intros H i Hi. rewrite map_length in Hi.
  rewrite !(nth_indep _ d4 (scale4 k d4)) by (rewrite map_length; lia).
  rewrite !map_nth. apply matched_scale, H. lia.
Qed.

(** ** power flow *)
Definition wt (te : bool) (e : R) : R := if te then 1%R else e.
Definition flux (te : bool) (e : R) (c A B : C) (z : R) : R := (snd ((wave c A B z)^* * dwave c A B z)%C / wt te e)%R.
Definition flux4 te (x : lay4) (z : R) : R := let '(e, c, (A, B), _) := x in flux te e c A B z.
(** the value it has everywhere in the layer *)
Definition flux0 (te : bool) (e : R) (c A B : C) : R :=
  ((fst c * (sq A - sq B) - 2 * snd c * snd (B^* * A)%C) / wt te e)%R.
Definition vertical (c : C) : Prop := (snd c = 0 /\ 0 < fst c)%R \/ evanescent c.
Lemma flux_const te e c A B z : vertical c -> flux te e c A B z = flux0 te e c A B.
Proof.
  intros V. unfold flux, flux0. f_equal. unfold wave, dwave. destruct V as [[V _]|[V _]].
  - destruct c as [x y]. cbn [fst snd] in *. subst y. change (x, 0%R) with (RtoC x).
    replace (Ci * RtoC x * RtoC z) with (Ci * RtoC (x * z)) by (rewrite RtoC_mult; ring).
    replace (- (Ci * RtoC (x * z))) with (Ci * RtoC (- (x * z))) by (rewrite RtoC_opp; ring).
    rewrite !cexp_i. unfold expi. destruct A as [a1 a2], B as [b1 b2]. unfold sq. cbn [fst snd].
    rewrite cos_neg, sin_neg. pose proof (sin2_cos2 (x * z)) as S. unfold Rsqr in S.
    set (s := sin (x * z)) in *. set (k := cos (x * z)) in *.
    unfold Cminus, Cmult, Cconj, Cplus, Copp, Ci, RtoC. cbn [fst snd].
    replace (x * (a1 * a1 + a2 * a2 - (b1 * b1 + b2 * b2)) - 2 * 0 * (b1 * a2 + - b2 * a1))%R
      with (x * (a1 * a1 + a2 * a2 - (b1 * b1 + b2 * b2)) * (s * s + k * k))%R by (rewrite S; ring).
    ring.
  - destruct c as [x y]. cbn [fst snd] in *. subst x. replace (0%R, y) with (Ci * RtoC y) by (apply Ceq; simpl; ring).
    replace (Ci * (Ci * RtoC y) * RtoC z) with (RtoC (- (y * z))).
    2:{ rewrite RtoC_opp, RtoC_mult. transitivity (Ci * Ci * (RtoC y * RtoC z)); [rewrite Ci_sq; ring|ring]. }
    replace (- RtoC (- (y * z))) with (RtoC (y * z)) by (rewrite RtoC_opp; ring).
    rewrite !cexp_R, exp_Ropp. pose proof (exp_pos (y * z)) as P. set (E := exp (y * z)) in *.
    destruct A as [a1 a2], B as [b1 b2]. unfold sq. cbn [fst snd].
    unfold Cminus, Cmult, Cconj, Cplus, Copp, Ci, RtoC. cbn [fst snd]. field. lra.
Qed.

Lemma matched_flux te e1 c1 A1 B1 h1 e2 c2 A2 B2 h2 : matched te (e1, c1, (A1, B1), h1) (e2, c2, (A2, B2), h2) ->
  (e1 <> 0)%R -> (e2 <> 0)%R -> vertical c1 -> vertical c2 -> flux0 te e1 c1 A1 B1 = flux0 te e2 c2 A2 B2.
Proof.
  intros [H1 H2] N1 N2 V1 V2. rewrite <- (flux_const te e1 c1 A1 B1 h1) by auto. rewrite <- (flux_const te e2 c2 A2 B2 (- h2)) by auto.
  unfold flux. rewrite <- H1. destruct te; cbn [wt]; [rewrite H2; reflexivity|].
  set (w := (wave c1 A1 B1 h1)^*).
  assert (F : forall (d : C) e, (e <> 0)%R -> (snd (w * d)%C / e)%R = snd (w * (d / RtoC e))%C).
  { intros d e Ne. unfold Cdiv. rewrite <- RtoC_inv by auto. destruct w as [p q], d as [r t]. cbn. field. auto. }
  rewrite !F by auto. rewrite H2. reflexivity.
Qed.

Definition flux04 te (x : lay4) : R := let '(e, c, (A, B), _) := x in flux0 te e c A B.
Definition good (x : lay4) : Prop := let '(e, c, _, _) := x in (0 < e)%R /\ vertical c.
Lemma chain_flux te l : forall x, all_matched te (x :: l) -> Forall good (x :: l) -> flux04 te x = flux04 te (last (x :: l) d4).
Proof.
  induction l as [|y l IH]; intros x M G; [reflexivity|].
  change (last (x :: y :: l) d4) with (last (y :: l) d4). destruct M as [M1 M2].
  inversion G as [|? ? G1 G2]; subst. rewrite <- (IH y M2 G2).
  inversion G2 as [|? ? G3 _]; subst. destruct x as [[[e1 c1] [A1 B1]] h1], y as [[[e2 c2] [A2 B2]] h2]. cbn [flux04].
  destruct G1 as [? ?], G3 as [? ?]. apply (matched_flux te e1 c1 A1 B1 h1 e2 c2 A2 B2 h2); auto; lra.
Qed.

(** ** a chain without amplitude in one layer has none anywhere *)
Definition zero4 (x : lay4) : Prop := let '(_, _, (A, B), _) := x in A = RtoC 0 /\ B = RtoC 0.
Lemma zero_wave c A B z : c <> RtoC 0 -> wave c A B z = RtoC 0 -> dwave c A B z = RtoC 0 -> A = RtoC 0 /\ B = RtoC 0.
Proof.
  intros N W D. unfold wave in W. unfold dwave in D.
  set (p := cexp (Ci * c * RtoC z)) in *. set (q := cexp (- (Ci * c * RtoC z))) in *.
  assert (P : p <> RtoC 0) by apply cexp_neq0. assert (Q : q <> RtoC 0) by apply cexp_neq0.
  assert (D' : A * p - B * q = RtoC 0).
  { destruct (Ceq_dec (A * p - B * q) (RtoC 0)) as [E|E]; auto. exfalso.
    apply (Cmult_neq_0 (Ci * c) (A * p - B * q)); auto. apply Cmult_neq_0; auto. apply Ci_neq0. }
  assert (T : forall X Y : C, X + Y = RtoC 0 -> X - Y = RtoC 0 -> X = RtoC 0 /\ Y = RtoC 0).
  { intros [x1 x2] [y1 y2] E1 E2. injection E1 as E1 E1'. injection E2 as E2 E2'. split; apply Ceq; simpl; lra. }
  destruct (T _ _ W D') as [E1 E2]. split.
  - destruct (Ceq_dec A (RtoC 0)) as [E|E]; auto. exfalso. apply (Cmult_neq_0 A p); auto.
  - destruct (Ceq_dec B (RtoC 0)) as [E|E]; auto. exfalso. apply (Cmult_neq_0 B q); auto.
Qed.
Lemma wave_zero c z : wave c (RtoC 0) (RtoC 0) z = RtoC 0.
Proof. unfold wave. ring. Qed.
Lemma dwave_zero c z : dwave c (RtoC 0) (RtoC 0) z = RtoC 0.
Proof. unfold dwave. ring. Qed.
Lemma vertical_neq0 c : vertical c -> c <> RtoC 0.
Proof. intros [[_ H]|H]; [|apply evan_neq0; auto]. intros E. rewrite E in H. simpl in H. lra. Qed.
Lemma matched_zero te x y : matched te x y -> good x -> good y -> zero4 x -> zero4 y.
Proof.
  destruct x as [[[e1 c1] [A1 B1]] h1], y as [[[e2 c2] [A2 B2]] h2]. intros [H1 H2] [P1 V1] [P2 V2] [-> ->]. cbn [zero4].
  rewrite wave_zero in H1. rewrite dwave_zero in H2. apply (zero_wave c2 A2 B2 (- h2)); auto using vertical_neq0.
  destruct te; auto. apply (f_equal (fun d => d * RtoC e2)) in H2. unfold Cdiv in H2.
  replace (RtoC 0 * / RtoC e1 * RtoC e2) with (RtoC 0) in H2 by ring.
  rewrite H2. rewrite <- Cmult_assoc, Cinv_l by (apply RtoC_neq0; lra). ring.
Qed.
Lemma chain_zero te l : forall x, all_matched te (x :: l) -> Forall good (x :: l) -> zero4 x -> Forall zero4 (x :: l).
Proof.
  induction l as [|y l IH]; intros x M G Hx; [constructor; auto|]. destruct M as [M1 M2].
  inversion G as [|? ? G1 G2]; subst. inversion G2 as [|? ? G3 G4]; subst. constructor; auto. apply IH; auto. apply (matched_zero te x y); auto.
Qed.

(** ** no incoming wave and one open cladding: no wave at all *)
Lemma sq_nonneg z : (0 <= sq z)%R.
Proof. unfold sq. nra. Qed.
Lemma sq_zero z : sq z = 0%R -> z = RtoC 0.
Proof. unfold sq. intros H. apply Ceq; simpl; nra. Qed.
Lemma no_incoming te x l : all_matched te (x :: l) -> Forall good (x :: l) ->
  let '(e0, c0, (A0, B0), _) := x in let '(el, cl, (Al, Bl), _) := last (x :: l) d4 in
  A0 = RtoC 0 -> Bl = RtoC 0 -> (0 < fst c0)%R \/ (0 < fst cl)%R -> Forall zero4 (x :: l).
Proof.
  intros M G. pose proof (chain_flux te l x M G) as F.
  pose proof (matched_rev te (x :: l) M) as MR.
  destruct x as [[[e0 c0] [A0 B0]] h0] eqn:Ex. rewrite <- Ex in *.
  destruct (last (x :: l) d4) as [[[el cl] [Al Bl]] hl] eqn:El. intros HA HB Ho.
  assert (G0 : good x) by (inversion G; auto).
  assert (Gl : good (last (x :: l) d4)).
  { rewrite Forall_forall in G. apply G. destruct (@exists_last _ (x :: l) ltac:(discriminate)) as [l' [z E]]. rewrite E, last_last. apply in_or_app. right. left. reflexivity. }
  rewrite El in Gl. rewrite Ex in G0. destruct G0 as [P0 V0], Gl as [Pl Vl].
  assert (W0 : (0 < wt te e0)%R) by (destruct te; simpl; lra). assert (Wl : (0 < wt te el)%R) by (destruct te; simpl; lra).
  assert (F1 : (fst c0 * - sq B0 / wt te e0 = fst cl * sq Al / wt te el)%R).
  { rewrite Ex in F. cbn [flux04] in F. rewrite HA, HB in F. unfold flux0 in F.
    replace (fst c0 * - sq B0 / wt te e0)%R with ((fst c0 * (sq (RtoC 0) - sq B0) - 2 * snd c0 * snd (B0^* * RtoC 0)%C) / wt te e0)%R.
    2:{ unfold sq, Cmult, Cconj, RtoC. cbn [fst snd]. field. lra. }
    rewrite F. unfold sq, Cmult, Cconj, RtoC. cbn [fst snd]. field. lra. }
  assert (C0 : (0 <= fst c0)%R) by (destruct V0 as [[_ ?]|[? _]]; lra).
  assert (Cl : (0 <= fst cl)%R) by (destruct Vl as [[_ ?]|[? _]]; lra).
  pose proof (sq_nonneg B0) as S0. pose proof (sq_nonneg Al) as Sl.
  assert (I0 : (0 <= fst c0 * sq B0 / wt te e0)%R) by (apply Rmult_le_pos; [apply Rmult_le_pos; auto|left; apply Rinv_0_lt_compat; auto]).
  assert (Il : (0 <= fst cl * sq Al / wt te el)%R) by (apply Rmult_le_pos; [apply Rmult_le_pos; auto|left; apply Rinv_0_lt_compat; auto]).
  assert (J : (fst c0 * - sq B0 / wt te e0 = - (fst c0 * sq B0 / wt te e0))%R) by (field; lra).
  assert (Z0 : (fst c0 * sq B0 / wt te e0 = 0)%R) by lra. assert (Zl : (fst cl * sq Al / wt te el = 0)%R) by lra.
  assert (K : forall a s w, (0 < w)%R -> (0 < a)%R -> (a * s / w = 0)%R -> (s = 0)%R).
  { intros a s w Hw Ha E. apply (f_equal (fun t => t * w / a)%R) in E. replace (a * s / w * w / a)%R with s in E by (field; lra). rewrite E. field. lra. }
  destruct Ho as [Ho|Ho].
  - apply (chain_zero te); auto. rewrite Ex. cbn [zero4]. split; auto. apply sq_zero. apply (K (fst c0) _ (wt te e0)); auto.
  - assert (Hz : zero4 (last (x :: l) d4)). { rewrite El. cbn [zero4]. split; auto. apply sq_zero. apply (K (fst cl) _ (wt te el)); auto. }
    assert (FR : Forall good (rev (map swap4 (x :: l)))).
    { apply Forall_rev. rewrite Forall_map. eapply Forall_impl; [|exact G]. intros [[[? ?] [? ?]] ?]. auto. }
    assert (FZ : Forall zero4 (rev (map swap4 (x :: l)))).
    { destruct (@exists_last _ (x :: l) ltac:(discriminate)) as [l' [z E]]. rewrite E in *. rewrite last_last in Hz.
      rewrite map_app, rev_app_distr in *. cbn [map rev app] in *. apply (chain_zero te); auto.
      destruct z as [[[? ?] [? ?]] ?]. cbn in *. tauto. }
    apply Forall_rev in FZ. rewrite rev_involutive, Forall_map in FZ. eapply Forall_impl; [|exact FZ].
    intros [[[? ?] [? ?]] ?]. cbn. tauto.
Qed.

(** ** the code *)
Lemma rad_chain_AB Ss : forall v Ts, Ss <> [] -> rad_chain v Ss Ts = AB_loop v Ss Ts.
Proof.
  induction Ss as [|S1 Ss IH]; intros v Ts H; [congruence|].
  destruct Ss as [|S2 Ss]; destruct Ts as [|T1 Ts]; try reflexivity.
  destruct Ts as [|T2 Ts]; [reflexivity|].
  change (rad_chain v (S1 :: S2 :: Ss) (T1 :: T2 :: Ts)) with
    (let* r := rad_chain (m2vec T2 (m2vec S1 (m2vec T1 v))) (S2 :: Ss) (T2 :: Ts) in Ok (m2vec T2 (m2vec S1 (m2vec T1 v)) :: r)).
  rewrite IH by discriminate. reflexivity.
Qed.

(** what rad_mode does to the amplitudes of the stack *)
Definition normed (pol : string) (omega ec : R) (ABs : list (C * C)) : list (C * C) :=
  let n := snd (last ABs (RtoC 0, RtoC 0)) in
  let l := map (fun c : vec2c => (fst c / n, snd c / n)) ABs in
  if String.eqb pol "te" then map (fun c : vec2c => (fst c / RtoC (sqrt ec) / RtoC omega, snd c / RtoC (sqrt ec) / RtoC omega)) l else l.
Lemma rad_mode_AB pol te clad omega g eps ds ABs : te_of pol te -> (clad < 2)%nat -> (List.length ds + 2 = List.length eps)%nat -> ds <> [] ->
  let dir := fun l : list R => if Nat.eqb clad 0 then rev l else l in
  AB_matrices pol omega (Rmax g (/ 10 ^ 10)) (dir eps) (dir ds) = Ok ABs ->
  let l := normed pol omega (if Nat.eqb clad 0 then hd 0%R eps else last eps 0%R) ABs in
  rad_mode pol clad omega g eps ds = Ok (if Nat.eqb clad 0 then (rev (map fst l), rev (map snd l)) else (map snd l, map fst l)).
Proof.
  intros Ht Hc Hl Hne dir HA. cbv zeta.
  set (gv := Rmax g (/ 10 ^ 10)) in *.
  assert (Ld : List.length (dir ds) = List.length ds) by (unfold dir; destruct (Nat.eqb clad 0); rewrite ?rev_length; auto).
  assert (Le : List.length (dir eps) = List.length eps) by (unfold dir; destruct (Nat.eqb clad 0); rewrite ?rev_length; auto).
  assert (Hd : dir ds <> []) by (intros E; rewrite E in Ld; destruct ds; [congruence|discriminate]).
  assert (EST : rad_mode pol clad omega g eps ds =
    let* ST := S_T_matrices (Sf te) omega gv (dir eps) (dir ds) in
    match fst ST, snd ST with
    | S0 :: Ss, T0 :: _ =>
      let c0 : vec2c := (RtoC 0, RtoC 1) in
      let c1 := m2vec T0 (m2vec S0 c0) in
      let* r := rad_chain c1 Ss (snd ST) in
      let l := normed pol omega (if Nat.eqb clad 0 then hd 0%R eps else last eps 0%R) (c0 :: c1 :: r) in
      Ok (if Nat.eqb clad 0 then (rev (map fst l), rev (map snd l)) else (map snd l, map fst l))
    | _, _ => Raise IndexError
    end).
  { unfold rad_mode. fold gv. unfold dir, normed.
    assert (Ht' : if te then is_te pol = true else is_te pol = false /\ is_tm pol = true) by exact Ht.
    destruct clad as [|[|clad]]; [| |lia]; cbn [Nat.eqb]; rewrite ?andb_true_r, ?andb_false_r.
    - destruct te; [rewrite Ht'|destruct Ht' as [-> ->]]; cbn [andb]; cbv zeta; reflexivity.
    - destruct te; [rewrite Ht'|destruct Ht' as [-> ->]]; cbn [andb]; cbv zeta; reflexivity. }
  rewrite EST. clear EST.
  destruct (dir eps) as [|e0 es]; [simpl in Le; lia|]. destruct es as [|e1 es]; [simpl in Le; lia|]. destruct es as [|e2 es].
  { simpl in Le. destruct (dir ds); [congruence|simpl in *; lia]. }
  destruct (dir ds) as [|d ds'] eqn:Eds; [congruence|].
  unfold AB_matrices in HA. replace (Nat.eqb _ _) with true in HA by (symmetry; apply Nat.eqb_eq; simpl in *; lia).
  rewrite (ST_pol pol te omega gv _ _ tt) in HA by auto. rewrite ST_lists in HA |- * by (simpl in *; lia). cbn [bind fst snd] in HA |- *.
  rewrite (Slist_cons te omega gv e0 e1) in HA |- *. rewrite Tlist_cons in HA |- *. cbv zeta in HA |- *.
  rewrite rad_chain_AB by (rewrite Slist_cons; discriminate).
  destruct (bind_ok _ _ _ HA) as [r [E1 E2]]. assert (E3 := f_equal (fun x => match x with Ok a => a | Raise _ => [] end) E2). cbv beta iota in E3. rewrite E1. cbn [bind]. rewrite <- E3. reflexivity.
Qed.

(** ** stacks as lists *)
Lemma mk_length omega g es : forall vs hs, List.length vs = List.length es -> List.length hs = List.length es -> List.length (mk omega g es vs hs) = List.length es.
Proof. induction es as [|e es IH]; intros [|v vs] [|h hs] H1 H2; simpl in *; auto; try lia. Qed.
Lemma mk_snoc omega g es : forall vs hs e v h, List.length vs = List.length es -> List.length hs = List.length es ->
  mk omega g (es ++ [e]) (vs ++ [v]) (hs ++ [h]) = mk omega g es vs hs ++ [(e, chi omega g e, v, h)].
Proof. induction es as [|e1 es IH]; intros [|v1 vs] [|h1 hs] e v h H1 H2; simpl in *; try lia; auto. rewrite IH by lia. reflexivity. Qed.
Definition swap2 (v : C * C) : C * C := (snd v, fst v).
Lemma mk_rev omega g es : forall vs hs, List.length vs = List.length es -> List.length hs = List.length es ->
  mk omega g (rev es) (rev (map swap2 vs)) (rev hs) = rev (map swap4 (mk omega g es vs hs)).
Proof.
  induction es as [|e es IH]; intros [|v vs] [|h hs] H1 H2; simpl in H1, H2; try lia; [reflexivity|].
  cbn [rev map mk]. rewrite mk_snoc by (rewrite ?rev_length, ?map_length; lia). rewrite IH by lia. destruct v. reflexivity.
Qed.
Definition scale2 (k : C) (v : C * C) : C * C := (k * fst v, k * snd v).
Lemma mk_scale omega g k es : forall vs hs, mk omega g es (map (scale2 k) vs) hs = map (scale4 k) (mk omega g es vs hs).
Proof. induction es as [|e es IH]; intros [|[? ?] vs] [|h hs]; try reflexivity. cbn [map mk]. rewrite IH. reflexivity. Qed.
Lemma mk_good omega g es : forall vs hs, Forall (fun e => (0 < e)%R /\ chi omega g e <> RtoC 0) es -> Forall good (mk omega g es vs hs).
Proof.
  induction es as [|e es IH]; intros vs hs H; [constructor|]. inversion H as [|? ? [P N] H']; subst.
  destruct vs as [|v vs]; [constructor|]. destruct hs as [|h hs]; [constructor|]. cbn [mk]. constructor; auto. split; auto.
  destruct (chi_cases omega g e) as [[E1 E2]|E]; [left|right]; auto. split; auto.
  destruct (Rle_lt_or_eq_dec _ _ E2) as [L|L]; auto. exfalso. apply N. apply Ceq; simpl; auto.
Qed.
Lemma matched_minus te e1 c1 A1 B1 A1' B1' h1 e2 c2 A2 B2 A2' B2' h2 :
  matched te (e1, c1, (A1, B1), h1) (e2, c2, (A2, B2), h2) -> matched te (e1, c1, (A1', B1'), h1) (e2, c2, (A2', B2'), h2) ->
  matched te (e1, c1, (A1 - A1', B1 - B1'), h1) (e2, c2, (A2 - A2', B2 - B2'), h2).
Proof.
  assert (W : forall c A B A' B' z, wave c (A - A') (B - B') z = wave c A B z - wave c A' B' z) by (intros; unfold wave; ring).
  assert (D : forall c A B A' B' z, dwave c (A - A') (B - B') z = dwave c A B z - dwave c A' B' z) by (intros; unfold dwave; ring).
  cbn [matched]. intros [H1 H2] [H3 H4]. rewrite !W, !D. split; [congruence|]. destruct te; [congruence|].
  assert (F : forall (x y : C) e, (x - y) / RtoC e = x / RtoC e - y / RtoC e) by (intros; unfold Cdiv; ring).
  rewrite !F. congruence.
Qed.
Definition minus2 (p : (C * C) * (C * C)) : C * C := (fst (fst p) - fst (snd p), snd (fst p) - snd (snd p)).
Lemma mk_minus te omega g es : forall vs ws hs, List.length vs = List.length es -> List.length ws = List.length es ->
  all_matched te (mk omega g es vs hs) -> all_matched te (mk omega g es ws hs) ->
  all_matched te (mk omega g es (map minus2 (combine vs ws)) hs).
Proof.
  induction es as [|e es IH]; intros vs ws hs H1 H2; [destruct vs; auto|].
  destruct vs as [|[A B] vs]; [discriminate|]. destruct ws as [|[A' B'] ws]; [discriminate|]. destruct hs as [|h hs]; [auto|].
  destruct es as [|e2 es].
  - destruct vs; [|discriminate]. intros _ _. exact Logic.I.
  - destruct vs as [|[A2 B2] vs]; [discriminate|]. destruct ws as [|[A2' B2'] ws]; [discriminate|]. destruct hs as [|h2 hs]; [auto|].
    intros [M1 M2] [M3 M4]. split.
    + apply matched_minus; assumption.
    + apply (IH ((A2, B2) :: vs) ((A2', B2') :: ws) (h2 :: hs)); auto.
Qed.
Lemma mk_last omega g es vs hs : es <> [] -> List.length vs = List.length es -> List.length hs = List.length es ->
  last (mk omega g es vs hs) d4 = (last es 0%R, chi omega g (last es 0%R), last vs (RtoC 0, RtoC 0), last hs 0%R).
Proof.
  intros He H1 H2. destruct (@exists_last _ es He) as [es' [e E]]. subst.
  destruct (@exists_last _ vs) as [vs' [v E]]; [intros ->; rewrite app_length in H1; simpl in H1; lia|]. subst.
  destruct (@exists_last _ hs) as [hs' [h E]]; [intros ->; rewrite app_length in H2; simpl in H2; lia|]. subst.
  rewrite !app_length in H1, H2. simpl in H1, H2. rewrite mk_snoc by lia. rewrite !last_last. reflexivity.
Qed.
Lemma half_length ds : List.length (half_thick ds) = (List.length ds + 2)%nat.
Proof. unfold half_thick. simpl. rewrite app_length, map_length. simpl. lia. Qed.
Lemma half_rev ds : rev (half_thick ds) = half_thick (rev ds).
Proof. unfold half_thick. cbn [rev]. rewrite rev_app_distr, map_rev. reflexivity. Qed.
Lemma last_rev {A} (l : list A) d : last (rev l) d = hd d l.
Proof. destruct l; [reflexivity|]. cbn [rev]. apply last_last. Qed.
Lemma hd_rev {A} (l : list A) d : hd d (rev l) = last l d.
Proof. rewrite <- (rev_involutive l) at 2. rewrite last_rev. reflexivity. Qed.

(** a stack without incoming waves and with an open cladding *)
Lemma stack_zero te omega g es vs ds : es <> [] -> List.length vs = List.length es -> (List.length ds + 2 = List.length es)%nat ->
  Forall (fun e => (0 < e)%R /\ chi omega g e <> RtoC 0) es -> all_matched te (mk omega g es vs (half_thick ds)) ->
  fst (hd (RtoC 0, RtoC 0) vs) = RtoC 0 -> snd (last vs (RtoC 0, RtoC 0)) = RtoC 0 ->
  (0 < fst (chi omega g (hd 0%R es)))%R \/ (0 < fst (chi omega g (last es 0%R)))%R ->
  Forall (fun v => v = (RtoC 0, RtoC 0)) vs.
Proof.
  intros He Hv Hd HP M H1 H2 Ho.
  pose proof (mk_good omega g es vs (half_thick ds) HP) as G.
  pose proof (mk_last omega g es vs (half_thick ds) He Hv ltac:(rewrite half_length; lia)) as L.
  destruct es as [|e es]; [congruence|]. destruct vs as [|[A B] vs]; [discriminate|].
  change (mk omega g (e :: es) ((A, B) :: vs) (half_thick ds)) with
    ((e, chi omega g e, (A, B), 0%R) :: mk omega g es vs (map (fun d => (d / 2)%R) ds ++ [0%R])) in *.
  pose proof (no_incoming te _ _ M G) as N. rewrite L in N. cbn [hd fst] in *.
  destruct (last ((A, B) :: vs) (RtoC 0, RtoC 0)) as [Al Bl]. cbn [snd] in *. specialize (N H1 H2 Ho).
  assert (Z : forall es vs hs, List.length vs = List.length es -> List.length hs = List.length es ->
    Forall zero4 (mk omega g es vs hs) -> Forall (fun v => v = (RtoC 0, RtoC 0)) vs).
  { clear. induction es as [|e es IH]; intros [|[A B] vs] [|h hs] H1 H2 F; simpl in *; try lia; constructor.
    - inversion F as [|? ? Q _]; subst. cbn [zero4] in Q. destruct Q as [-> ->]. reflexivity.
    - inversion F; subst. apply (IH vs hs); auto; lia. }
  apply (Z (e :: es) ((A, B) :: vs) (half_thick ds)); auto. rewrite half_length. auto.
Qed.

Lemma hd_map {A B} (f : A -> B) l d : hd (f d) (map f l) = f (hd d l).
Proof. destruct l; reflexivity. Qed.
Lemma last_map {A B} (f : A -> B) l d : last (map f l) (f d) = f (last l d).
Proof. induction l as [|x [|y l] IH]; auto. Qed.
Lemma combine_fst_snd {A B} (l : list (A * B)) : combine (map fst l) (map snd l) = l.
Proof. induction l as [|[a b] l IH]; simpl; [reflexivity|]. rewrite IH. reflexivity. Qed.

Lemma scattering_mk te clad omega g es ds vs amp : List.length vs = List.length es ->
  scattering te clad es (map (chi omega g) es) (half_thick ds) (map fst vs) (map snd vs) amp <->
  (all_matched te (mk omega g es vs (half_thick ds)) /\
   fst (hd (RtoC 0, RtoC 0) vs) = (if Nat.eqb clad 0 then amp else RtoC 0) /\
   snd (last vs (RtoC 0, RtoC 0)) = (if Nat.eqb clad 0 then RtoC 0 else amp)).
Proof.
  intros H. unfold scattering. rewrite !map_length, combine_fst_snd, mk_combine.
  pose proof (hd_map (@fst C C) vs (RtoC 0, RtoC 0)) as E1. cbn [fst] in E1. rewrite E1.
  pose proof (last_map (@snd C C) vs (RtoC 0, RtoC 0)) as E2. cbn [snd] in E2. rewrite E2. tauto.
Qed.
Lemma split_pairs (As Bs : list C) n : List.length As = n -> List.length Bs = n -> exists vs, List.length vs = n /\ As = map fst vs /\ Bs = map snd vs.
Proof.
  revert Bs n. induction As as [|a As IH]; intros [|b Bs] n H1 H2; simpl in *; subst; try discriminate.
  - exists []. auto.
  - destruct (IH Bs (List.length As)) as [vs [L [E1 E2]]]; [auto|congruence|]. exists ((a, b) :: vs). simpl. repeat split; congruence.
Qed.

Lemma scattering_unique te clad omega g es ds As Bs As' Bs' amp : es <> [] -> (List.length ds + 2 = List.length es)%nat ->
  Forall (fun e => (0 < e)%R /\ chi omega g e <> RtoC 0) es ->
  (0 < fst (chi omega g (if Nat.eqb clad 0 then hd 0%R es else last es 0%R)))%R ->
  scattering te clad es (map (chi omega g) es) (half_thick ds) As Bs amp ->
  scattering te clad es (map (chi omega g) es) (half_thick ds) As' Bs' amp -> As = As' /\ Bs = Bs'.
Proof.
  intros He Hd HP Ho S1 S2.
  destruct (split_pairs As Bs (List.length es)) as [vs [L [-> ->]]]; [apply S1|apply S1|].
  destruct (split_pairs As' Bs' (List.length es)) as [ws [L' [-> ->]]]; [apply S2|apply S2|].
  rewrite scattering_mk in S1, S2 by auto. destruct S1 as [M1 [A1 B1]], S2 as [M2 [A2 B2]].
  pose proof (mk_minus te omega g es vs ws (half_thick ds) L L' M1 M2) as M.
  assert (Z : Forall (fun v => v = (RtoC 0, RtoC 0)) (map minus2 (combine vs ws))).
  { apply (stack_zero te omega g es _ ds); auto.
    - rewrite map_length, combine_length. lia.
    - destruct vs as [|[a b] vs]; [reflexivity|]. destruct ws as [|[a' b'] ws]; [reflexivity|]. cbn [combine map hd minus2 fst snd] in *. rewrite A1, A2. ring.
    - assert (E : last (map minus2 (combine vs ws)) (RtoC 0, RtoC 0) = minus2 (last vs (RtoC 0, RtoC 0), last ws (RtoC 0, RtoC 0))).
      { replace (RtoC 0, RtoC 0) with (minus2 ((RtoC 0, RtoC 0), (RtoC 0, RtoC 0))) at 1 by (unfold minus2; cbn [fst snd]; f_equal; ring).
        rewrite last_map. f_equal. clear - L L'. rewrite <- L in L'. clear L. revert ws L'. induction vs as [|v vs IH]; intros [|w ws] L'; try discriminate; [reflexivity|].
        destruct vs as [|v2 vs]; destruct ws as [|w2 ws]; try discriminate; [reflexivity|]. apply (IH (w2 :: ws)). simpl in *; lia. }
      rewrite E. unfold minus2. cbn [fst snd]. rewrite B1, B2. ring.
    - destruct (Nat.eqb clad 0); [left|right]; auto. }
  assert (vs = ws); [|subst; auto].
  clear - L L' Z. rewrite <- L in L'. clear L. revert ws L' Z. induction vs as [|[a b] vs IH]; intros [|[a' b'] ws] L Z; try discriminate; auto.
  cbn [combine map] in Z. inversion Z as [|? ? Z1 Z2]; subst. unfold minus2 in Z1. cbn [fst snd] in Z1. injection Z1 as Z1 Z3 Z4 Z5.
  f_equal; [|apply IH; auto]. f_equal; apply Ceq; simpl in *; lra.
Qed.

Lemma scattering_power te clad omega g es ds As Bs amp : es <> [] -> (List.length ds + 2 = List.length es)%nat ->
  Forall (fun e => (0 < e)%R /\ chi omega g e <> RtoC 0) es ->
  (0 < fst (chi omega g (if Nat.eqb clad 0 then hd 0%R es else last es 0%R)))%R ->
  scattering te clad es (map (chi omega g) es) (half_thick ds) As Bs amp ->
  power_up te (hd 0%R es) (chi omega g (hd 0%R es)) (hd (RtoC 0) As) (hd (RtoC 0) Bs) =
  power_up te (last es 0%R) (chi omega g (last es 0%R)) (last As (RtoC 0)) (last Bs (RtoC 0)).
Proof.
  intros He Hd HP Ho S1.
  destruct (split_pairs As Bs (List.length es)) as [vs [L [-> ->]]]; [apply S1|apply S1|].
  rewrite scattering_mk in S1 by auto. destruct S1 as [M [A1 B1]].
  pose proof (mk_good omega g es vs (half_thick ds) HP) as G.
  pose proof (mk_last omega g es vs (half_thick ds) He L ltac:(rewrite half_length; lia)) as La.
  pose proof (hd_map (@fst C C) vs (RtoC 0, RtoC 0)) as E1. cbn [fst] in E1. rewrite E1.
  pose proof (hd_map (@snd C C) vs (RtoC 0, RtoC 0)) as E2. cbn [snd] in E2. rewrite E2.
  pose proof (last_map (@fst C C) vs (RtoC 0, RtoC 0)) as E3. cbn [fst] in E3. rewrite E3.
  pose proof (last_map (@snd C C) vs (RtoC 0, RtoC 0)) as E4. cbn [snd] in E4. rewrite E4. clear E1 E2 E3 E4.
  destruct es as [|e es]; [congruence|]. destruct vs as [|[A B] vs]; [discriminate|].
  change (mk omega g (e :: es) ((A, B) :: vs) (half_thick ds)) with
    ((e, chi omega g e, (A, B), 0%R) :: mk omega g es vs (map (fun d => (d / 2)%R) ds ++ [0%R])) in *.
  pose proof (chain_flux te _ _ M G) as F. rewrite La in F. cbn [hd fst snd] in *.
  destruct (last ((A, B) :: vs) (RtoC 0, RtoC 0)) as [Al Bl]. cbn [fst snd flux04] in *.
  set (c0 := chi omega g e) in *. set (el := last (e :: es) 0%R) in *. set (cl := chi omega g el) in *.
  assert (V : forall e', (0 < fst (chi omega g e'))%R -> snd (chi omega g e') = 0%R).
  { intros e' P. destruct (chi_cases omega g e') as [[? _]|[E _]]; auto. lra. }
  assert (Z0 : (snd c0 * snd (B^* * A)%C = 0)%R).
  { destruct (Nat.eqb clad 0); [unfold c0; rewrite V by auto; ring|]. rewrite A1. simpl. ring. }
  assert (Zl : (snd cl * snd (Bl^* * Al)%C = 0)%R).
  { destruct (Nat.eqb clad 0); [rewrite B1; simpl; ring|unfold cl; rewrite V by auto; ring]. }
  assert (P0 : (0 < e)%R) by (inversion HP as [|? ? [? _] _]; auto).
  assert (Pl : (0 < el)%R).
  { rewrite Forall_forall in HP. apply HP. unfold el. destruct (@exists_last _ (e :: es) He) as [l' [z E]]. rewrite E, last_last. apply in_or_app. right. left. reflexivity. }
  assert (K : forall w x c A B, (0 < w)%R -> (snd c * snd (B^* * A)%C = 0)%R -> x = ((fst c * (sq A - sq B) - 2 * snd c * snd (B^* * A)%C) / w)%R -> (fst c / w * (sq A - sq B) = x)%R).
  { intros w x c A' B' Hw Hz ->. replace (2 * snd c * snd (B'^* * A')%C)%R with (2 * (snd c * snd (B'^* * A')%C))%R by ring. rewrite Hz. field. lra. }
  unfold power_up, flux0 in *. symmetry. apply (K (wt te el)); auto; [destruct te; simpl; lra|].
  rewrite <- F. apply (K (wt te e)); auto. destruct te; simpl; lra.
Qed.

Lemma normed_scale pol omega ec ABs : snd (last ABs (RtoC 0, RtoC 0)) <> RtoC 0 -> (0 < ec)%R -> (omega <> 0)%R ->
  let k := (if String.eqb pol "te" then RtoC (1 / (sqrt ec * omega)) else RtoC 1) / snd (last ABs (RtoC 0, RtoC 0)) in
  normed pol omega ec ABs = map (scale2 k) ABs.
Proof.
  intros N P W k. unfold k, normed. set (n := snd (last ABs (RtoC 0, RtoC 0))) in *.
  pose proof (sqrt_lt_R0 ec P) as Q. assert (Ns : RtoC (sqrt ec) <> RtoC 0) by (apply RtoC_neq0; lra).
  assert (Nw : RtoC omega <> RtoC 0) by (apply RtoC_neq0; auto).
  destruct (String.eqb pol "te").
  - rewrite map_map. apply map_ext. intros [a b]. unfold scale2. cbn [fst snd].
    rewrite RtoC_div, RtoC_mult by (apply Rmult_integral_contrapositive; split; lra).
    f_equal; field; auto.
  - apply map_ext. intros [a b]. unfold scale2. cbn [fst snd]. f_equal; field; auto.
Qed.

Lemma radiation pol (te : bool) clad omega g eps ds : lower pol = (if te then "te" else "tm")%string ->
  (clad < 2)%nat -> (List.length ds + 2 = List.length eps)%nat -> ds <> [] ->
  let g' := Rmax g (/ 10 ^ 10) in
  let e_in := if Nat.eqb clad 0 then hd 0%R eps else last eps 0%R in
  let amp := if String.eqb pol "te" then RtoC (1 / (sqrt e_in * omega)) else RtoC 1 in
  Forall (fun e => (0 < e)%R /\ chi omega g' e <> RtoC 0) eps -> (g' * g' < e_in * (omega * omega))%R ->
  exists X Y, rad_mode pol clad omega g eps ds = Ok (X, Y) /\
    scattering te clad eps (map (chi omega g') eps) (half_thick ds) Y X amp.
Proof.
  intros Hp Hc Hl Hne g' e_in amp HP Ho.
  assert (TE : te_of pol te). { unfold te_of, is_te, is_tm. rewrite Hp. destruct te; auto. }
  set (dir := fun l : list R => if Nat.eqb clad 0 then rev l else l).
  assert (Ld : List.length (dir ds) = List.length ds) by (unfold dir; destruct (Nat.eqb clad 0); rewrite ?rev_length; auto).
  assert (Le : List.length (dir eps) = List.length eps) by (unfold dir; destruct (Nat.eqb clad 0); rewrite ?rev_length; auto).
  assert (Hd : dir ds <> []) by (intros E; rewrite E in Ld; destruct ds; [congruence|discriminate]).
  assert (HP' : Forall (fun e => (0 < e)%R /\ chi omega g' e <> RtoC 0) (dir eps)) by (unfold dir; destruct (Nat.eqb clad 0); auto; apply Forall_rev; auto).
  assert (Hin : last (dir eps) 0%R = e_in) by (unfold dir, e_in; destruct (Nat.eqb clad 0); auto; apply last_rev).
  assert (Pin : (0 < e_in)%R).
  { rewrite Forall_forall in HP'. apply (HP' e_in). rewrite <- Hin. destruct (@exists_last _ (dir eps)) as [l' [z E]]; [intros E; rewrite E in Le; simpl in Le; lia|].
    rewrite E, last_last. apply in_or_app. right. left. reflexivity. }
  assert (Pc : (0 < fst (chi omega g' e_in))%R). { rewrite chi_ge by lra. simpl. apply sqrt_lt_R0. lra. }
  assert (W : (omega <> 0)%R). { intros ->. assert (0 < g' * g')%R; [|lra]. assert (0 < g')%R; [|nra]. unfold g'. apply Rlt_le_trans with (/ 10 ^ 10)%R; [apply Rinv_0_lt_compat; lra|apply Rmax_r]. }
  destruct (dir eps) as [|e0 es] eqn:Ed; [simpl in Le; lia|].
  destruct (AB_interfaces pol te omega g' e0 es (dir ds)) as [ABs [E1 [L1 [H1 [M _]]]]]; auto.
  { simpl in Le. lia. }
  { inversion HP' as [|? ? [? _] _]; subst. lra. }
  { inversion HP' as [|? ? _ F]; subst. unfold regular. eapply Forall_impl; [|exact F]. cbv beta. intros a [? ?]. split; auto. lra. }
  assert (N : snd (last ABs (RtoC 0, RtoC 0)) <> RtoC 0).
  { intros Z. assert (F : Forall (fun v => v = (RtoC 0, RtoC 0)) ABs).
    { apply (stack_zero te omega g' (e0 :: es) ABs (dir ds)); auto; [discriminate|rewrite Le, Ld; auto|rewrite H1; reflexivity|]. right. rewrite Hin. auto. }
    destruct ABs as [|v ABs]; [discriminate|]. inversion F as [|? ? F1 _]; subst. simpl in H1. injection H1; intros; lra. }
  rewrite <- Ed in *.
  pose proof (rad_mode_AB pol te clad omega g eps ds ABs TE Hc Hl Hne E1) as R. cbv zeta in R. fold e_in in R.
  rewrite (normed_scale pol omega e_in ABs N Pin W) in R. fold amp in R.
  set (k := amp / snd (last ABs (RtoC 0, RtoC 0))) in *. set (l := map (scale2 k) ABs) in *.
  assert (Ml : all_matched te (mk omega g' (dir eps) l (half_thick (dir ds)))) by (unfold l; rewrite mk_scale; apply all_scale; exact M).
  assert (Ll : List.length l = List.length eps) by (unfold l; rewrite map_length, L1; auto).
  assert (Hh : fst (hd (RtoC 0, RtoC 0) l) = RtoC 0).
  { unfold l. destruct ABs as [|v ABs]; [reflexivity|]. simpl in H1 |- *. rewrite H1. simpl. ring. }
  assert (Hla : snd (last l (RtoC 0, RtoC 0)) = amp).
  { unfold l. replace (RtoC 0, RtoC 0) with (scale2 k (RtoC 0, RtoC 0)) by (unfold scale2; cbn [fst snd]; f_equal; ring).
    rewrite last_map. unfold scale2, k. cbn [fst snd]. field. auto. }
  unfold dir in Ml. destruct (Nat.eqb clad 0) eqn:Ec.
  - do 2 eexists. split; [exact R|].
    replace (rev (map snd l)) with (map fst (rev (map swap2 l))) by (rewrite map_rev, map_map; reflexivity).
    replace (rev (map fst l)) with (map snd (rev (map swap2 l))) by (rewrite map_rev, map_map; reflexivity).
    apply scattering_mk; [rewrite rev_length, map_length; auto|]. rewrite Ec.
    rewrite <- half_rev in Ml. pose proof (matched_rev te _ Ml) as MR.
    rewrite <- mk_rev in MR by (rewrite ?rev_length, ?half_length; auto; lia). rewrite !rev_involutive in MR.
    split; [exact MR|]. rewrite hd_rev, last_rev. replace (RtoC 0, RtoC 0) with (swap2 (RtoC 0, RtoC 0)) by reflexivity.
    rewrite last_map, hd_map. split; auto.
  - do 2 eexists. split; [exact R|]. apply scattering_mk; auto. rewrite Ec. auto.
Qed.
