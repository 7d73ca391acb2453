(** Adam: the path of the parameters, the size of the steps. *)
From Verif Require Import Py MinimizeModel MinimizeSpec MinimizeProofs.
Open Scope R_scope.
Open Scope list_scope.

Lemma nth_map0 (f : R -> R) l i : (i < List.length l)%nat -> nth i (map f l) 0 = f (nth i l 0).
Proof. intros H. rewrite (nth_indep _ 0 (f 0)) by (rewrite map_length; exact H). apply map_nth. Qed.
Lemma step_inv eps g m v it b1 b2 ga m' v' : step_adam eps g m v it b1 b2 = Ok (ga, m', v') ->
  List.length m = List.length g /\ List.length v = List.length g /\ List.length ga = List.length g /\ List.length m' = List.length g /\ List.length v' = List.length g /\
  forall i, (i < List.length g)%nat -> nth i m' 0 = b1 * nth i m 0 + (1 - b1) * nth i g 0 /\ nth i v' 0 = b2 * nth i v 0 + (1 - b2) * (nth i g 0 * nth i g 0) /\
    nth i ga 0 = (nth i m' 0 / (1 - b1 ^ (it + 1))) / (sqrt (nth i v' 0 / (1 - b2 ^ (it + 1))) + eps).
Proof.
  unfold step_adam. intros H. destruct (zipw _ m g) as [m1|] eqn:E1; [|discriminate]. cbn [bind] in H. destruct (zipw _ v g) as [v1|] eqn:E2; [|discriminate]. cbn [bind] in H.
  destruct (zipw _ (map _ m1) (map _ v1)) as [g1|] eqn:E3; [|discriminate]. cbn [bind] in H. injection H as <- <- <-.
  apply zipw_ok in E1 as (A1 & A2 & A3). apply zipw_ok in E2 as (B1 & B2 & B3). apply zipw_ok in E3 as (C1 & C2 & C3). rewrite !map_length in *.
  repeat (split; [congruence|]). intros i Hi. split; [apply A3; lia|]. split; [apply B3; lia|]. rewrite C3 by lia. rewrite !nth_map0 by lia. reflexivity.
Qed.
Lemma moment_ext b g h t : (forall k, (k < t)%nat -> g k = h k) -> moment b g t = moment b h t.
Proof. induction t as [|t IH]; cbn [moment]; intros H; [reflexivity|]. rewrite IH, H by auto. reflexivity. Qed.
Lemma clip_code x l u : (if Rltb u (if Rltb x l then l else x) then u else if Rltb x l then l else x) = clip l u x.
Proof. unfold clip, Rltb, Rmin, Rmax. repeat (destruct Rlt_dec; destruct Rle_dec; try lra); repeat destruct Rle_dec; try lra; repeat destruct Rlt_dec; lra. Qed.
Lemma snap_nth lbs ubs p q : snap lbs ubs p = Ok q -> List.length q = List.length p /\ forall i, (i < List.length p)%nat -> nth i q 0 = clip (nth i lbs 0) (nth i ubs 0) (nth i p 0).
Proof.
  unfold snap. intros H. destruct (zipw _ p lbs) as [p1|] eqn:E1; [|discriminate]. cbn [bind] in H. apply zipw_ok in E1 as (L0 & L1 & N1). apply zipw_ok in H as (L2 & L3 & N2).
  split; [lia|]. intros i Hi. rewrite N2, N1 by lia. apply clip_code.
Qed.

Section Path.
Context {A : Type} (obj : objective A) (callback : option (view -> result unit)) (nep : nat) (step b1 b2 : R) (args : list (arg A)).
Notation tr := (trace obj callback nep step b1 b2 args).
(** gs : the gradients answered so far and from here on. *)
Definition comp (gs : list (list R)) (i k : nat) : R := nth i (nth k gs []) 0.
Definition snapped (given : bool) (s : minst A) (p q : list R) : Prop :=
  if given then exists bs lbs ubs, mi_bounds s = Some bs /\ limits bs 0 = Ok lbs /\ limits bs 1 = Ok ubs /\ snap lbs ubs p = Ok q else q = p.
Lemma trace_path given todo it mv s s' cs : tr given todo it mv s s' cs -> (mi_params s < List.length (mi_heap s))%nat -> (it + todo = nep)%nat ->
  forall gs0, List.length gs0 = it ->
  (forall i, (0 < it)%nat -> nth i (fst mv) 0 = moment b1 (comp gs0 i) it /\ nth i (snd mv) 0 = moment b2 (fun k => comp gs0 i k * comp gs0 i k) it) ->
  exists gs, List.length gs = todo /\ Forall2 (fun g a => exists o, a = Ok (o, g)) gs (answers obj (mi_calls s) cs) /\
  (forall t c c', nth_error cs t = Some c -> nth_error cs (S t) = Some c' -> exists p, snapped given s p (ca_x c') /\ List.length p = List.length (ca_x c) /\
     forall i, (i < List.length (ca_x c))%nat -> nth i p 0 = nth i (ca_x c) 0 - step * direction epsilon b1 b2 (comp (gs0 ++ gs) i) (it + S t)) /\
  (forall d, (0 < todo)%nat -> snapped given s (ca_x (last cs d)) (cur s')).
Proof.
  induction 1 as [|t it mv s s1 mv1 s2 c cs E -> T IH]; intros Hp Hn gs0 Hg Hmv.
  - exists []. split; [reflexivity|]. split; [constructor|]. split; [intros [|t] c c' H; discriminate|intros d H; lia].
  - destruct (epoch_inv _ _ _ _ _ _ _ _ _ _ _ _ _ E Hp) as (of & g & ga & p & q & EO & EC & EF & EI & EB & EN & EL & ES & EM & EQ & Ecu & Hp' & EH). cbv zeta in ES.
    destruct (step_inv _ _ _ _ _ _ _ _ _ _ ES) as (S1 & S2 & S3 & S4 & S5 & S6).
    assert (Hc : forall i k, (k < it)%nat -> comp (gs0 ++ [g]) i k = comp gs0 i k) by (intros i k Hk; unfold comp; rewrite app_nth1 by lia; reflexivity).
    assert (Hc' : forall i, comp (gs0 ++ [g]) i it = nth i g 0) by (intros i; unfold comp; rewrite app_nth2, Hg, Nat.sub_diag by lia; reflexivity).
    assert (Hmv1 : forall i, nth i (fst mv1) 0 = moment b1 (comp (gs0 ++ [g]) i) (it + 1) /\ nth i (snd mv1) 0 = moment b2 (fun k => comp (gs0 ++ [g]) i k * comp (gs0 ++ [g]) i k) (it + 1)).
    { intros i. rewrite Nat.add_1_r. cbn [moment]. rewrite Hc'.
      rewrite (moment_ext b1 (comp (gs0 ++ [g]) i) (comp gs0 i) it) by (intros k Hk; apply Hc; exact Hk).
      rewrite (moment_ext b2 (fun k => comp (gs0 ++ [g]) i k * comp (gs0 ++ [g]) i k) (fun k => comp gs0 i k * comp gs0 i k) it) by (intros k Hk; cbv beta; rewrite !Hc by exact Hk; reflexivity).
      assert (M : nth i (fst (if Nat.eqb it 0 then (map (fun _ => 0) g, map (fun _ => 0) g) else mv)) 0 = moment b1 (comp gs0 i) it /\ nth i (snd (if Nat.eqb it 0 then (map (fun _ => 0) g, map (fun _ => 0) g) else mv)) 0 = moment b2 (fun k => comp gs0 i k * comp gs0 i k) it).
      { destruct (Nat.eqb_spec it 0) as [E0|E0]; [|apply Hmv; lia]. subst it. rewrite E0. cbn [moment fst snd].
        assert (Z0 : forall l : list R, nth i (map (fun _ => 0) l) 0 = 0) by (intros l; revert i; induction l as [|x l IHl]; intros [|i]; cbn; auto). rewrite Z0. auto. }
      destruct M as [M1 M2]. destruct (Nat.lt_ge_cases i (List.length g)) as [Hi|Hi].
      - destruct (S6 i Hi) as (Q1 & Q2 & _). rewrite Q1, Q2, M1, M2. auto.
      - rewrite (nth_overflow (fst mv1)), (nth_overflow (snd mv1)) by lia. rewrite <- M1, <- M2. rewrite !(nth_overflow _ _ (n := i)) by lia. split; ring. }
    destruct (IH Hp' ltac:(lia) (gs0 ++ [g]) ltac:(rewrite app_length; cbn; lia) (fun i _ => Hmv1 i)) as (gs & G1 & G2 & G3 & G4).
    exists (g :: gs). split; [cbn; lia|]. split; [cbn [answers]; constructor; [eauto|rewrite <- EC; exact G2]|].
    replace (gs0 ++ g :: gs) with ((gs0 ++ [g]) ++ gs) by (rewrite <- app_assoc; reflexivity).
    assert (SS : forall p q, snapped given s1 p q -> snapped given s p q) by (intros p0 q0; unfold snapped; rewrite EB; auto).
    split.
    + intros [|t'] c c' H1 H2; cbn [nth_error] in H1, H2.
      * injection H1 as <-. cbn [ca_x]. inversion T as [|t0 ? ? ? s3 mv3 ? c3 cs3 E3 Ec3 T3]; subst cs; cbn in H2; [discriminate|]. injection H2 as <-. rewrite Ec3. cbn [ca_x].
        assert (Lt : Nat.ltb (it + 1) nep = true) by (apply Nat.ltb_lt; lia). rewrite Lt in EM. apply zipw_ok in EM as (M1 & M2 & M3).
        exists p. split; [rewrite Ecu; exact EQ|]. split; [exact M2|]. intros i Hi. rewrite M3 by exact Hi. f_equal. f_equal.
        destruct (S6 i ltac:(lia)) as (_ & _ & ->). destruct (Hmv1 i) as [-> ->]. unfold direction.
        assert (X : forall k, (k < it + 1)%nat -> comp ((gs0 ++ [g]) ++ gs) i k = comp (gs0 ++ [g]) i k) by (intros k Hk; unfold comp; rewrite (app_nth1 (gs0 ++ [g])) by (rewrite app_length; cbn; lia); reflexivity).
        rewrite (moment_ext b1 (comp ((gs0 ++ [g]) ++ gs) i) (comp (gs0 ++ [g]) i)) by exact X.
        rewrite (moment_ext b2 (fun k => comp ((gs0 ++ [g]) ++ gs) i k * comp ((gs0 ++ [g]) ++ gs) i k) (fun k => comp (gs0 ++ [g]) i k * comp (gs0 ++ [g]) i k)) by (intros k Hk; cbv beta; rewrite !X by exact Hk; reflexivity). reflexivity.
      * destruct (G3 t' c c' H1 H2) as (p' & P1 & P2 & P3). exists p'. split; [apply SS; exact P1|]. split; [exact P2|]. intros i Hi. rewrite P3 by exact Hi. replace (it + 1 + S t')%nat with (it + S (S t'))%nat by lia. reflexivity.
    + intros d _. destruct t as [|t].
      * assert (X : cs = [] /\ s2 = s1) by (inversion T; auto). destruct X as [-> ->]. cbn [last ca_x]. replace (Nat.ltb (it + 1) nep) with false in EM by (symmetry; apply Nat.ltb_ge; lia). subst p. rewrite Ecu. exact EQ.
      * inversion T as [|t0 ? ? ? s3 mv3 ? c3 cs3 E3 Ec3 T3]; subst cs. change (last (_ :: c3 :: cs3) d) with (last (c3 :: cs3) d). apply SS, G4; lia.
Qed.
End Path.

(** The whole run without bounds, and with documented ones. *)
Lemma adam_path {A} (obj : objective A) pstart nep b step b1 b2 args ps cb s s' r ofs : (pstart < List.length (mi_heap s))%nat ->
  adam obj pstart nep b step b1 b2 args ps cb s = (s', Ok (r, ofs)) -> exists cs gs, mi_calls s' = mi_calls s ++ cs /\ List.length cs = nep /\
  Forall2 (fun g a => exists o, a = Ok (o, g)) gs (answers obj (mi_calls s) cs) /\
  forall snp, (b = PNone /\ snp = (fun _ x => x)) \/ (exists lbs ubs, documented (List.length (read (mi_heap s) pstart)) b lbs ubs /\ snp = (fun i x => clip (nth i lbs 0) (nth i ubs 0) x)) ->
  (forall t c c', nth_error cs t = Some c -> nth_error cs (S t) = Some c' -> List.length (ca_x c') = List.length (ca_x c) /\
    forall i, (i < List.length (ca_x c))%nat -> nth i (ca_x c') 0 = snp i (nth i (ca_x c) 0 - step * direction (1 / 10 ^ 8) b1 b2 (fun k => nth i (nth k gs []) 0) (S t))) /\
  (forall d, (0 < nep)%nat -> forall i, (i < List.length (ca_x (last cs d)))%nat -> nth i (read (mi_heap s') r) 0 = snp i (nth i (ca_x (last cs d)) 0)).
Proof.
  intros Hp H. destruct (adam_inv _ _ _ _ _ _ _ _ _ _ _ _ _ _ H) as (bs & EP & ER & EO & cs & T). set (s0 := Mi 0 [] pstart bs nep _ _ _) in T.
  destruct (trace_basic _ _ _ _ _ _ _ _ _ _ _ _ _ _ T Hp) as (I1 & I2 & _).
  destruct (trace_path _ _ _ _ _ _ _ _ _ _ _ _ _ _ T Hp ltac:(lia) [] eq_refl ltac:(intros i Hi; lia)) as (gs & G1 & G2 & G3 & G4).
  exists cs, gs. split; [exact I1|]. split; [exact I2|]. split; [exact G2|]. intros snp Hs.
  assert (SN : forall p q, snapped (truthy b) s0 p q -> List.length q = List.length p /\ forall i, (i < List.length p)%nat -> nth i q 0 = snp i (nth i p 0)).
  { intros p q. destruct Hs as [[-> ->]|(lbs & ubs & HD & ->)]; [cbn; intros ->; auto|].
    destruct (parse_documented _ _ _ _ HD) as (bs' & EP' & ET & E0 & E1 & L0 & L1). rewrite ET. intros (b' & l' & u' & HB & H0 & H1 & Sn). cbn [s0 mi_bounds] in HB. rewrite EP' in EP. injection EP as <-. injection HB as <-.
    rewrite E0 in H0; injection H0 as <-. rewrite E1 in H1; injection H1 as <-. apply snap_nth; exact Sn. }
  split.
  - intros t c c' H1 H2. destruct (G3 t c c' H1 H2) as (p & P1 & P2 & P3). destruct (SN _ _ P1) as [Q1 Q2]. split; [lia|]. intros i Hi. rewrite Q2 by lia. rewrite P3 by exact Hi. reflexivity.
  - intros d Hn i Hi. rewrite <- ER. fold (cur s'). apply (SN _ _ (G4 d Hn)). exact Hi.
Qed.

(** Sizes of the steps. *)
Lemma pow_lt1 b t : 0 <= b < 1 -> (0 < t)%nat -> b ^ t < 1.
Proof. intros Hb Ht. destruct (Req_dec b 0) as [->|]; [destruct t; [lia|cbn; lra]|]. apply pow_lt_1_compat; [lra|exact Ht]. Qed.
Lemma moment_const b g t : moment b (fun _ => g) t = (1 - b ^ t) * g.
Proof. induction t as [|t IH]; cbn [moment pow]; [ring|]. rewrite IH. ring. Qed.
Lemma direction_const eps b1 b2 g t : 0 <= b1 < 1 -> 0 <= b2 < 1 -> (0 < t)%nat -> direction eps b1 b2 (fun _ => g) t = g / (Rabs g + eps).
Proof.
  intros H1 H2 Ht. unfold direction. rewrite !moment_const. pose proof (pow_lt1 b1 t H1 Ht). pose proof (pow_lt1 b2 t H2 Ht).
  replace ((1 - b1 ^ t) * g / (1 - b1 ^ t)) with g by (field; lra). replace ((1 - b2 ^ t) * (g * g) / (1 - b2 ^ t)) with (Rsqr g) by (unfold Rsqr; field; lra).
  rewrite sqrt_Rsqr_abs. reflexivity.
Qed.
Lemma direction_first eps b1 b2 g : 0 < eps -> 0 <= b1 < 1 -> 0 <= b2 < 1 -> Rabs (direction eps b1 b2 g 1) < 1 /\ 0 <= direction eps b1 b2 g 1 * g 0%nat /\ (direction eps b1 b2 g 1 = 0 <-> g 0%nat = 0).
Proof.
  intros He H1 H2. assert (E : direction eps b1 b2 g 1 = g 0%nat / (Rabs (g 0%nat) + eps)).
  { rewrite <- (direction_const eps b1 b2 (g 0%nat) 1 H1 H2 ltac:(lia)). unfold direction. cbn [moment]. reflexivity. }
  rewrite E. pose proof (Rabs_pos (g 0%nat)). assert (D : 0 < / (Rabs (g 0%nat) + eps)) by (apply Rinv_0_lt_compat; lra). split; [|split].
  - unfold Rdiv. rewrite Rabs_mult, (Rabs_right (/ _)) by lra. apply (Rmult_lt_reg_r (Rabs (g 0%nat) + eps)); [lra|]. rewrite Rmult_assoc, Rinv_l by lra. lra.
  - unfold Rdiv. replace (g 0%nat * / (Rabs (g 0%nat) + eps) * g 0%nat) with (Rsqr (g 0%nat) * / (Rabs (g 0%nat) + eps)) by (unfold Rsqr; ring). apply Rmult_le_pos; [apply Rle_0_sqr|lra].
  - unfold Rdiv. split; [intros Z0; apply Rmult_integral in Z0 as [Z0|Z0]; [exact Z0|lra]|intros ->; ring].
Qed.
(** In general. *)
Lemma moment_nonneg b g t : 0 <= b < 1 -> 0 <= moment b (fun k => g k * g k) t.
Proof. intros Hb. induction t as [|t IH]; cbn [moment]; [lra|]. pose proof (Rle_0_sqr (g t)). unfold Rsqr in *. apply Rplus_le_le_0_compat; apply Rmult_le_pos; lra. Qed.
Lemma moment_bound b1 b2 g t : 0 <= b1 < 1 -> 0 < b2 < 1 -> b1 ^ 2 < b2 ->
  moment b1 g t ^ 2 <= (1 - b1) ^ 2 / ((1 - b2) * (1 - b1 ^ 2 / b2)) * moment b2 (fun k => g k * g k) t.
Proof.
  intros H1 H2 H3. set (K := (1 - b1) ^ 2 / ((1 - b2) * (1 - b1 ^ 2 / b2))).
  assert (Hq : 0 < 1 - b1 ^ 2 / b2) by (assert (b1 ^ 2 / b2 < 1) by (apply (Rmult_lt_reg_r b2); [lra|]; unfold Rdiv; rewrite Rmult_assoc, Rinv_l by lra; lra); lra).
  assert (HK : 0 <= K) by (unfold K; apply Rmult_le_pos; [apply pow2_ge_0|left; apply Rinv_0_lt_compat, Rmult_lt_0_compat; lra]).
  assert (EK : K * b2 = b1 ^ 2 * K + b2 * ((1 - b1) ^ 2 / (1 - b2))) by (unfold K; field; repeat split; lra).
  induction t as [|t IH]; cbn [moment]; [rewrite Rmult_0_r; cbn; lra|].
  set (m := moment b1 g t) in *. set (v := moment b2 (fun k => g k * g k) t) in *. set (x := g t).
  (* K (b2 v + (1-b2) x^2) - (b1 m + (1-b1) x)^2 >= 0, using K v >= m^2 *)
  assert (Hx : 0 <= K * (1 - b2) - (1 - b1) ^ 2).
  { assert (b2 * (K * (1 - b2) - (1 - b1) ^ 2) = b1 ^ 2 * K * (1 - b2)).
    { replace (b2 * (K * (1 - b2) - (1 - b1) ^ 2)) with ((K * b2) * (1 - b2) - b2 * (1 - b1) ^ 2) by ring. rewrite EK. field. lra. }
    assert (0 <= b1 ^ 2 * K * (1 - b2)) by (apply Rmult_le_pos; [apply Rmult_le_pos; [apply pow2_ge_0|exact HK]|lra]).
    apply (Rmult_le_reg_l b2); [lra|]. lra. }
  assert (Hv : b2 * m ^ 2 <= b2 * (K * v)) by (apply Rmult_le_compat_l; [lra|exact IH]).
  (* (b2 - b1^2) m^2 - 2 b1 (1-b1) m x + (K(1-b2) - (1-b1)^2) x^2 is a square up to a positive factor *)
  assert (Q : (b2 - b1 ^ 2) * (K * (1 - b2) - (1 - b1) ^ 2) = (b1 * (1 - b1)) ^ 2).
  { assert (K * (b2 - b1 ^ 2) = b2 * ((1 - b1) ^ 2 / (1 - b2))) by lra. replace ((b2 - b1 ^ 2) * (K * (1 - b2) - (1 - b1) ^ 2)) with (K * (b2 - b1 ^ 2) * (1 - b2) - (b2 - b1 ^ 2) * (1 - b1) ^ 2) by ring. rewrite H. field. lra. }
  assert (P : 0 <= (b2 - b1 ^ 2) * ((b2 - b1 ^ 2) * m ^ 2 - 2 * (b1 * (1 - b1)) * m * x + (K * (1 - b2) - (1 - b1) ^ 2) * x ^ 2)).
  { replace (_ * _) with (((b2 - b1 ^ 2) * m - b1 * (1 - b1) * x) ^ 2); [apply pow2_ge_0|]. replace ((b2 - b1 ^ 2) * ((b2 - b1 ^ 2) * m ^ 2 - 2 * (b1 * (1 - b1)) * m * x + (K * (1 - b2) - (1 - b1) ^ 2) * x ^ 2)) with ((b2 - b1 ^ 2) ^ 2 * m ^ 2 - 2 * (b2 - b1 ^ 2) * (b1 * (1 - b1)) * m * x + ((b2 - b1 ^ 2) * (K * (1 - b2) - (1 - b1) ^ 2)) * x ^ 2) by ring. rewrite Q. ring. }
  assert (P' : 0 <= (b2 - b1 ^ 2) * m ^ 2 - 2 * (b1 * (1 - b1)) * m * x + (K * (1 - b2) - (1 - b1) ^ 2) * x ^ 2) by (apply (Rmult_le_reg_l (b2 - b1 ^ 2)); [lra|]; lra).
  nra.
Qed.
Lemma direction_bound eps b1 b2 g t : 0 < eps -> 0 <= b1 < 1 -> 0 < b2 < 1 -> b1 ^ 2 < b2 -> (0 < t)%nat ->
  direction eps b1 b2 g t ^ 2 <= (1 - b1) ^ 2 * (1 - b2 ^ t) / ((1 - b1 ^ t) ^ 2 * (1 - b2) * (1 - b1 ^ 2 / b2)).
Proof.
  intros He H1 H2 H3 Ht. pose proof (pow_lt1 b1 t H1 Ht) as L1. pose proof (pow_lt1 b2 t ltac:(lra) Ht) as L2. pose proof (moment_bound b1 b2 g t H1 H2 H3) as MB. pose proof (moment_nonneg b2 g t ltac:(lra)) as VN.
  assert (Hq : 0 < 1 - b1 ^ 2 / b2) by (assert (b1 ^ 2 / b2 < 1) by (apply (Rmult_lt_reg_r b2); [lra|]; unfold Rdiv; rewrite Rmult_assoc, Rinv_l by lra; lra); lra).
  unfold direction. set (m := moment b1 g t) in *. set (v := moment b2 _ t) in *. set (K := (1 - b1) ^ 2 / ((1 - b2) * (1 - b1 ^ 2 / b2))) in *.
  replace ((1 - b1) ^ 2 * (1 - b2 ^ t) / ((1 - b1 ^ t) ^ 2 * (1 - b2) * (1 - b1 ^ 2 / b2))) with (K * (1 - b2 ^ t) / (1 - b1 ^ t) ^ 2) by (unfold K; field; repeat split; try lra; assert (0 < b2 - b1 ^ 2) by lra; lra).
  set (sv := sqrt (v / (1 - b2 ^ t))). assert (Hsv : 0 <= sv) by apply sqrt_pos. assert (Hv0 : 0 <= v / (1 - b2 ^ t)) by (apply Rmult_le_pos; [exact VN|left; apply Rinv_0_lt_compat; lra]).
  assert (Esv : sv * sv = v / (1 - b2 ^ t)) by (apply sqrt_sqrt; exact Hv0).
  replace ((m / (1 - b1 ^ t) / (sv + eps)) ^ 2) with (m ^ 2 / ((1 - b1 ^ t) ^ 2 * (sv + eps) ^ 2)) by (field; lra).
  assert (HK : 0 <= K) by (unfold K; apply Rmult_le_pos; [apply pow2_ge_0|left; apply Rinv_0_lt_compat, Rmult_lt_0_compat; lra]).
  assert (Hd : 0 < (1 - b1 ^ t) ^ 2 * (sv + eps) ^ 2) by (apply Rmult_lt_0_compat; apply pow_lt; lra).
  apply (Rmult_le_reg_r ((1 - b1 ^ t) ^ 2 * (sv + eps) ^ 2)); [exact Hd|]. unfold Rdiv at 1. rewrite Rmult_assoc, Rinv_l, Rmult_1_r by lra.
  replace (K * (1 - b2 ^ t) / (1 - b1 ^ t) ^ 2 * ((1 - b1 ^ t) ^ 2 * (sv + eps) ^ 2)) with (K * ((1 - b2 ^ t) * (sv + eps) ^ 2)) by (field; lra).
  apply (Rle_trans _ (K * v)); [exact MB|]. apply Rmult_le_compat_l; [exact HK|].
  assert (V : v = (1 - b2 ^ t) * (sv * sv)) by (rewrite Esv; field; lra). rewrite V. apply Rmult_le_compat_l; [lra|]. nra.
Qed.
