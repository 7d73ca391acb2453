(** Inverse transforms and component selection (C52, C75). *)
From Coq Require Import Ascii.
From Verif Require Import Py CBase CInt LatticeModel LatticeSpec PhcModel RecipModel RecipSpec RecipProofs RecipProofs2 RecipProofs3 MatElModel FieldsSpec FieldsModel.
Open Scope R_scope.

(** ** first occurrences *)
Lemma pair_eqb_eq u v : pair_eqb u v = true <-> u = v.
Proof.
  unfold pair_eqb. rewrite andb_true_iff, !Reqb_true. destruct u, v; simpl. split; [intros [-> ->]; auto|injection 1; auto].
Qed.
Lemma seen_in g seen : existsb (pair_eqb g) seen = true <-> In g seen.
Proof.
  rewrite existsb_exists. split; [intros [x [H E]]; apply pair_eqb_eq in E; subst; auto|].
  intros H. exists g. split; auto. apply pair_eqb_eq. auto.
Qed.
Lemma first_occ_spec all : forall l pre seen, all = pre ++ l -> (forall g, In g seen <-> In g pre) ->
  let is := first_occ seen l (List.length pre) in let ds := map (fun i => nth i all (0, 0)) is in
  NoDup ds /\ (forall g, In g ds <-> In g l /\ ~ In g pre) /\ Forall (fun i => (i < List.length all)%nat) is.
Proof.
  induction l as [|g l IH]; intros pre seen E Hs; cbn [first_occ].
  - simpl. repeat split; auto using NoDup_nil; intros; tauto.
  - assert (E' : all = (pre ++ [g]) ++ l) by (rewrite <- app_assoc; auto).
    assert (Lp : List.length (pre ++ [g]) = S (List.length pre)) by (rewrite app_length; simpl; lia).
    destruct (existsb (pair_eqb g) seen) eqn:B.
    + apply seen_in in B. destruct (IH (pre ++ [g]) seen E') as [I1 [I2 I3]].
      { intros x. rewrite Hs, in_app_iff. simpl. split; [tauto|]. intros [?|[<-|[]]]; auto. apply Hs; auto. }
      rewrite Lp in *. split; auto. split; auto. intros x. rewrite I2, in_app_iff. simpl.
      split; [tauto|]. intros [[<-|H] N]; [apply Hs in B; tauto|]. split; auto. apply Hs in B. intros [?|[<-|[]]]; tauto.
    + assert (NB : ~ In g pre) by (rewrite <- Hs, <- seen_in; congruence).
      destruct (IH (pre ++ [g]) (g :: seen) E') as [I1 [I2 I3]].
      { intros x. simpl. rewrite Hs, in_app_iff. simpl. tauto. }
      rewrite Lp in *.
      assert (Ng : nth (List.length pre) all (0, 0) = g) by (rewrite E, app_nth2, Nat.sub_diag; auto).
      cbn [map]. rewrite Ng. split; [|split].
      * constructor; auto. rewrite I2, in_app_iff. simpl. tauto.
      * intros x. cbn [In]. rewrite I2, in_app_iff. cbn [In]. split; [intros [<-|[H N]]; split; tauto|].
        intros [[<-|H] N]; auto. destruct (pair_eqb g x) eqn:Q; [apply pair_eqb_eq in Q; auto|]. right. split; auto.
        intros [?|[<-|[]]]; auto. assert (pair_eqb g g = true) by (apply pair_eqb_eq; auto). congruence.
      * constructor; auto. rewrite E, app_length. simpl. lia.
Qed.

Lemma ftinv_series ft gvec x y :
  exists terms, ftinv ft gvec x y = series terms x y /\ NoDup (map snd terms) /\
    (forall g, In g (map snd terms) <-> In g gvec) /\
    Forall (fun t => exists i, (i < List.length gvec)%nat /\ t = (ft i, nth i gvec (0, 0))) terms.
Proof.
  destruct (first_occ_spec gvec gvec [] [] eq_refl ltac:(tauto)) as [H1 [H2 H3]]. cbv zeta in *. simpl List.length in *.
  exists (map (fun i => (ft i, nth i gvec (0, 0))) (first_occ [] gvec 0)).
  rewrite map_map. cbn [snd]. split; [|split; [exact H1|split]].
  - unfold ftinv, series. set (is := first_occ [] gvec 0).
    assert (G : forall is acc, fold_left (fun acc i => Cplus acc (Cmult (ft i) (cexp (Ci * RtoC (fst (nth i gvec (0, 0))) * RtoC x + Ci * RtoC (snd (nth i gvec (0, 0))) * RtoC y)%C))) is acc
       = Cplus acc (fold_right (fun t s => (fst t * expi (fst (snd t) * x + snd (snd t) * y) + s)%C) (RtoC 0) (map (fun i => (ft i, nth i gvec (0, 0))) is))).
    { induction is0 as [|i is0 IH]; intros acc; cbn [fold_left map fold_right fst snd]; [cring|].
      rewrite IH. replace (Ci * RtoC (fst (nth i gvec (0, 0))) * RtoC x + Ci * RtoC (snd (nth i gvec (0, 0))) * RtoC y)%C
        with (Ci * RtoC (fst (nth i gvec (0, 0)) * x + snd (nth i gvec (0, 0)) * y))%C by (rewrite RtoC_plus, !RtoC_mult; ring).
      rewrite cexp_i. ring. }
    rewrite G. ring.
  - intros g. rewrite H2. simpl. tauto.
  - rewrite Forall_map. eapply Forall_impl; [|exact H3]. intros i Hi. exists i. auto.
Qed.

(** ** the permittivity map *)
Lemma F2_map {A B X} (P : A -> B -> Prop) (f : X -> A) (h : X -> B) l : (forall x, In x l -> P (f x) (h x)) -> Forall2 P (map f l) (map h l).
Proof. induction l; simpl; intros; constructor; auto. Qed.
Lemma F2_nth {A B} (P : A -> B -> Prop) l m i da db : Forall2 P l m -> (i < List.length m)%nat -> P (nth i l da) (nth i m db).
Proof. intros F. revert i. induction F; simpl; intros i Hi; [lia|]. destruct i; auto. apply IHF. lia. Qed.

Section Tbt.
Variables (L : lattice) (args : lat_args) (gmax : R) (ft : R * R -> C).
Hypotheses (HL : lattice_init args = Ok L) (Hind : independent (lt_a1 L) (lt_a2 L)) (Hg : 0 <= gmax) (Hft : conj_symmetric ft).
Let rc := recip_tbt L gmax.
Let gs := rc_g rc.
Let G1 := G1_of gs.
Let G2 := G2_of gs (Z.to_nat (rc_n1 rc)) (Z.to_nat (rc_n2 rc)).
Let T1 := T1_tbt ft rc.
Let T2 := T2_tbt ft rc.
Let gall := G1 ++ G2 ++ map neg_g G1 ++ map neg_g G2.
Let call := T1 ++ T2 ++ map Cconj T1 ++ map Cconj T2.

Definition isdiff (D : R * R) : Prop := exists g g', In g gs /\ In g' gs /\ D = diff g g'.

Lemma diffs D : In D gall <-> isdiff D.
Proof.
  destruct (tbt_set args L gmax HL Hind Hg) as [n1 [n2 [_ [_ [E1 [E2 [Len [_ [Nth [Inn _]]]]]]]]]].
  fold rc in E1, E2, Nth, Len, Inn. fold gs in Nth, Len, Inn.
  assert (N1 : Z.to_nat (rc_n1 rc) = (2 * n1 + 1)%nat) by (rewrite E1; lia).
  assert (N2 : Z.to_nat (rc_n2 rc) = (2 * n2 + 1)%nat) by (rewrite E2; lia).
  assert (NG : forall a p, (a < 2 * n1 + 1)%nat -> (p < 2 * n2 + 1)%nat -> nthg gs (a * (2 * n2 + 1) + p) = comb (Z.of_nat a - Z.of_nat n1) (Z.of_nat p - Z.of_nat n2) (lt_b1 L) (lt_b2 L)).
  { intros a p Ha Hp. unfold nthg. apply nth_error_nth. apply Nth; auto. }
  assert (In_nthg : forall i, (i < List.length gs)%nat -> In (nthg gs i) gs) by (intros; apply nth_In; auto).
  assert (D1 : forall x, In x G1 -> isdiff x).
  { intros x H. unfold G1, G1_of in H. apply in_map_iff in H. destruct H as [g [<- H]]. exists (nthg gs 0), g. split; [|split; auto].
    apply In_nthg. rewrite Len. nia. }
  assert (D2 : forall x, In x G2 -> isdiff x).
  { intros x H. unfold G2, G2_of in H. apply in_flat_map in H. destruct H as [a [Ha H]]. apply in_map_iff in H. destruct H as [p [<- Hp]].
    apply in_seq in Ha, Hp. rewrite N1 in Ha. rewrite N2 in Hp. exists (nthg gs p), (nthg gs (a * Z.to_nat (rc_n2 rc))). rewrite N2.
    split; [|split; auto]; apply In_nthg; rewrite Len; nia. }
  assert (DN : forall x, isdiff x -> isdiff (neg_g x)).
  { intros x [g [g' [H1 [H2 ->]]]]. exists g', g. split; auto. split; auto. unfold neg_g, diff. simpl. f_equal; ring. }
  unfold gall. rewrite !in_app_iff. split.
  - intros [H|[H|[H|H]]]; auto; apply in_map_iff in H; destruct H as [x [<- H]]; auto.
  - intros [g [g' [H1 [H2 ->]]]]. apply Inn in H1, H2.
    destruct H1 as [i [j [Hi [Hj ->]]]], H2 as [i' [j' [Hi' [Hj' ->]]]].
    set (u := (i - i')%Z). set (v := (j - j')%Z).
    assert (DD : diff (comb i j (lt_b1 L) (lt_b2 L)) (comb i' j' (lt_b1 L) (lt_b2 L)) = comb u v (lt_b1 L) (lt_b2 L)).
    { unfold diff, comb, u, v. simpl. rewrite !minus_IZR. f_equal; ring. }
    rewrite DD.
    assert (C1 : forall a p, (a < 2 * n1 + 1)%nat -> (p < 2 * n2 + 1)%nat -> In (comb (- Z.of_nat a) (- Z.of_nat p) (lt_b1 L) (lt_b2 L)) G1).
    { intros a p Ha Hp. unfold G1, G1_of. apply in_map_iff. exists (nthg gs (a * (2 * n2 + 1) + p)). split; [|apply In_nthg; rewrite Len; nia].
      rewrite NG by auto. pose proof (NG 0%nat 0%nat ltac:(lia) ltac:(lia)) as Z0. simpl in Z0. rewrite Z0.
      unfold vsub, comb. simpl. rewrite ?opp_IZR, ?minus_IZR, ?opp_IZR. f_equal; ring. }
    assert (C2 : forall a p, (a < 2 * n1 + 1)%nat -> (p < 2 * n2 + 1)%nat -> In (comb (- Z.of_nat a) (Z.of_nat p) (lt_b1 L) (lt_b2 L)) G2).
    { intros a p Ha Hp. unfold G2, G2_of. apply in_flat_map. exists a. split; [apply in_seq; lia|]. apply in_map_iff. exists p. split; [|apply in_seq; lia].
      rewrite N2. pose proof (NG 0%nat p ltac:(lia) ltac:(lia)) as Z0. rewrite Nat.mul_0_l, Nat.add_0_l in Z0. rewrite Z0.
      pose proof (NG a 0%nat ltac:(lia) ltac:(lia)) as Z1. rewrite Nat.add_0_r in Z1. rewrite Z1.
      unfold vsub, comb. simpl. rewrite ?opp_IZR, ?minus_IZR, ?opp_IZR. f_equal; ring. }
    assert (NC : forall a b, neg_g (comb a b (lt_b1 L) (lt_b2 L)) = comb (- a) (- b) (lt_b1 L) (lt_b2 L)).
    { intros a b. unfold neg_g, comb. simpl. rewrite !opp_IZR. f_equal; ring. }
    destruct (Z_le_gt_dec u 0), (Z_le_gt_dec v 0).
    + left. replace u with (- Z.of_nat (Z.to_nat (- u)))%Z by lia. replace v with (- Z.of_nat (Z.to_nat (- v)))%Z by lia. apply C1; lia.
    + right. left. replace u with (- Z.of_nat (Z.to_nat (- u)))%Z by lia. replace v with (Z.of_nat (Z.to_nat v))%Z by lia. apply C2; lia.
    + right. right. right. apply in_map_iff. exists (comb (- u) (- v) (lt_b1 L) (lt_b2 L)). split; [rewrite NC; f_equal; lia|].
      replace (- u)%Z with (- Z.of_nat (Z.to_nat u))%Z by lia. replace (- v)%Z with (Z.of_nat (Z.to_nat (- v)))%Z by lia. apply C2; lia.
    + right. right. left. apply in_map_iff. exists (comb (- u) (- v) (lt_b1 L) (lt_b2 L)). split; [rewrite NC; f_equal; lia|].
      replace (- u)%Z with (- Z.of_nat (Z.to_nat u))%Z by lia. replace (- v)%Z with (- Z.of_nat (Z.to_nat v))%Z by lia. apply C1; lia.
Qed.

(** the stored coefficient of the difference D *)
Definition stored (c : C) (D : R * R) : Prop :=
  c = ft D \/ (c = RtoC (fst (ft D)) /\ exists D', isdiff D' /\ Rabs (snd (ft D)) < 1 / 10 ^ 10 * Rabs (fst (ft D'))).

Lemma stored_conj c D : stored c D -> stored (Cconj c) (neg_g D).
Proof.
  assert (E : ft (neg_g D) = Cconj (ft D)) by (apply (Hft D)).
  intros [->|[-> [D' [H1 H2]]]]; unfold stored; rewrite E; auto.
  right. split; [simpl; apply Cconj_R|]. exists D'. split; auto. simpl. rewrite Rabs_Ropp. auto.
Qed.
Lemma stored_snap Gs : (forall D, In D Gs -> isdiff D) -> Forall2 stored (snap (map ft Gs)) Gs.
Proof.
  intros H. rewrite snap_sn, map_map. set (tt := tiny (map ft Gs)). rewrite <- (map_id Gs) at 2. apply F2_map. intros D HD. subst tt.
  destruct (tiny (map ft Gs)) eqn:T; [right|left; reflexivity].
  split; [reflexivity|].
  destruct (tiny_bound _ (ft D) T ltac:(apply in_map; auto)) as [w [W1 W2]]. apply in_map_iff in W1. destruct W1 as [D' [<- W1]].
  exists D'. auto.
Qed.
Lemma stored_all : Forall2 stored call gall.
Proof.
  assert (I1 : forall D, In D G1 -> isdiff D) by (intros D H; apply diffs; unfold gall; rewrite in_app_iff; auto).
  assert (I2 : forall D, In D G2 -> isdiff D) by (intros D H; apply diffs; unfold gall; rewrite !in_app_iff; auto).
  assert (N : forall c g, Forall2 stored c g -> Forall2 stored (map Cconj c) (map neg_g g)).
  { induction 1; simpl; constructor; auto. apply stored_conj; auto. }
  pose proof (stored_snap G1 I1) as S1. pose proof (stored_snap G2 I2) as S2.
  unfold call, gall. repeat apply Forall2_app; auto; apply N; auto.
Qed.

Lemma eps_tbt x y : exists terms,
  get_eps_tbt T1 T2 G1 G2 x y = series terms x y /\ NoDup (map snd terms) /\
  (forall D, In D (map snd terms) <-> isdiff D) /\ Forall (fun t => stored (fst t) (snd t)) terms.
Proof.
  destruct (ftinv_series (fun i => nth i call (RtoC 0)) gall x y) as [terms [E1 [E2 [E3 E4]]]].
  exists terms. split; [exact E1|]. split; auto. split; [intros D; rewrite E3; apply diffs|].
  eapply Forall_impl; [|exact E4]. intros t [i [Hi ->]]. cbn [fst snd]. apply (F2_nth stored); auto. apply stored_all.
Qed.
End Tbt.

(** ** closeness to the exact series, which is real *)
Definition exact_terms (ft : R * R -> C) (terms : list (C * (R * R))) := map (fun t => (ft (snd t), snd t)) terms.

Lemma series_close ft terms x y K : Forall (fun t => Cmod (fst t - ft (snd t))%C <= K) terms ->
  Cmod (series terms x y - series (exact_terms ft terms) x y)%C <= INR (List.length terms) * K.
Proof.
  induction 1 as [|t l H F IH].
  - simpl. rewrite Rmult_0_l. replace (0 - 0)%C with (RtoC 0) by ring. rewrite Cmod_0. lra.
  - unfold exact_terms in *. cbn [series fold_right map fst snd]. fold (series l x y) (series (map (fun t => (ft (snd t), snd t)) l) x y).
    set (e := expi _). set (s1 := series l x y) in *. set (s2 := series (map (fun t => (ft (snd t), snd t)) l) x y) in *.
    replace (fst t * e + s1 - (ft (snd t) * e + s2))%C with ((fst t - ft (snd t)) * e + (s1 - s2))%C by ring.
    eapply Rle_trans; [apply (Cmod_triangle ((fst t - ft (snd t)) * e)%C (s1 - s2)%C)|]. rewrite Cmod_mult. unfold e at 1. rewrite Cmod_expi, Rmult_1_r.
    change (List.length (t :: l)) with (S (List.length l)). rewrite S_INR. lra.
Qed.

From Coq Require Import Permutation.
Lemma series_perm l m x y : Permutation l m -> series l x y = series m x y.
Proof.
  induction 1; simpl; auto; [congruence|ring|congruence].
Qed.
Lemma series_conj l x y : Cconj (series l x y) = series (map (fun t => (Cconj (fst t), neg_g (snd t))) l) x y.
Proof.
  induction l as [|t l IH]; simpl; [apply Cconj_R|].
  rewrite Cconj_plus, Cconj_mult, expi_conj. rewrite IH. do 3 f_equal. ring.
Qed.
Lemma series_real ft terms x y : conj_symmetric ft -> NoDup (map snd terms) ->
  (forall D, In D (map snd terms) -> In (neg_g D) (map snd terms)) -> snd (series (exact_terms ft terms) x y) = 0.
Proof.
  intros Hft ND Hs.
  assert (E : Cconj (series (exact_terms ft terms) x y) = series (exact_terms ft terms) x y).
  { rewrite series_conj. apply series_perm. unfold exact_terms. rewrite map_map. cbn [fst snd].
    rewrite (map_ext _ (fun t => (ft (neg_g (snd t)), neg_g (snd t)))).
    2:{ intros t. f_equal. symmetry. apply Hft. }
    rewrite <- (map_map (fun t => neg_g (snd t)) (fun D => (ft D, D)) terms), <- (map_map snd (fun D => (ft D, D)) terms).
    apply Permutation_map. rewrite <- (map_map snd neg_g).
    assert (NI : forall a b, neg_g a = neg_g b -> a = b).
    { intros [a1 a2] [b1 b2]. unfold neg_g. simpl. injection 1 as ? ?. f_equal; lra. }
    assert (ND' : NoDup (map neg_g (map snd terms))).
    { clear Hs. induction ND; simpl; constructor; auto. rewrite in_map_iff. intros [z [Z1 Z2]]. apply NI in Z1. subst. auto. }
    apply NoDup_Permutation; auto.
    intros D. rewrite in_map_iff. split.
    - intros [D' [<- H]]. auto.
    - intros H. exists (neg_g D). split; auto. destruct D. unfold neg_g. simpl. f_equal; ring. }
  apply (f_equal snd) in E. simpl in E. lra.
Qed.

(** ** component selection *)
Section Comp.
Variables (T A : Type) (one : T -> A) (ft : T * T * T).
Definition is_comp (c : ascii) (f : T) : Prop :=
  (c = "x"%char /\ f = fst (fst ft)) \/ (c = "y"%char /\ f = snd (fst ft)) \/ (c = "z"%char /\ f = snd ft).
Definition xyz (c : ascii) : Prop := c = "x"%char \/ c = "y"%char \/ c = "z"%char.
Lemma comp_of_spec c : match comp_of T ft c with Some f => is_comp c f | None => ~ xyz c end.
Proof.
  unfold comp_of, is_comp, xyz.
  destruct (Ascii.eqb_spec c "x") as [->|N1]; [auto|]. destruct (Ascii.eqb_spec c "y") as [->|N2]; [auto|].
  destruct (Ascii.eqb_spec c "z") as [->|N3]; [auto|]. tauto.
Qed.
Lemma has_key_in c (fi : list (ascii * A)) : has_key A c fi = true <-> In c (map fst fi).
Proof.
  unfold has_key. rewrite existsb_exists, in_map_iff. split; intros [p [H1 H2]].
  - apply Ascii.eqb_eq in H2. exists p. auto.
  - exists p. split; auto. apply Ascii.eqb_eq. auto.
Qed.
Lemma loop_ok : forall s fi, (forall c, letter c s -> xyz c) -> NoDup (map fst fi) ->
  Forall (fun p => exists f, is_comp (fst p) f /\ snd p = one f) fi ->
  exists fi', comp_loop T A one ft s fi = Ok fi' /\ NoDup (map fst fi') /\
    (forall c, In c (map fst fi') <-> In c (map fst fi) \/ letter c s) /\
    Forall (fun p => exists f, is_comp (fst p) f /\ snd p = one f) fi'.
Proof.
  induction s as [|c s IH]; intros fi H ND F; cbn [comp_loop].
  - exists fi. repeat split; auto; simpl; tauto.
  - pose proof (comp_of_spec c) as CS. destruct (comp_of T ft c) as [f|]; [|destruct CS; apply H; left; auto].
    destruct (has_key A c fi) eqn:K.
    + apply has_key_in in K. destruct (IH fi) as [fi' [E1 [E2 [E3 E4]]]]; auto.
      { intros; apply H; right; auto. }
      exists fi'. repeat split; auto.
      * intros Hc. apply E3 in Hc. simpl. tauto.
      * intros Hc. apply E3. simpl in Hc. destruct Hc as [?|[->|?]]; auto.
    + assert (NK : ~ In c (map fst fi)) by (rewrite <- has_key_in; congruence).
      destruct (IH (fi ++ [(c, one f)])) as [fi' [E1 [E2 [E3 E4]]]].
      * intros; apply H; right; auto.
      * rewrite map_app. simpl.
        clear - ND NK. induction fi as [|p fi IHf]; simpl in *; [constructor; auto|].
        inversion ND; subst. constructor; [|apply IHf; tauto]. rewrite in_app_iff. simpl. intuition.
      * apply Forall_app. split; auto. constructor; auto. exists f. auto.
      * exists fi'. repeat split; auto.
        -- intros Hc. apply E3 in Hc. rewrite map_app, in_app_iff in Hc. simpl in *. intuition.
        -- intros Hc. apply E3. rewrite map_app, in_app_iff. simpl in *. intuition.
Qed.
Lemma loop_bad : forall s fi c, letter c s -> ~ xyz c -> comp_loop T A one ft s fi = Raise ValueError.
Proof.
  induction s as [|b s IH]; intros fi c Hc N; [destruct Hc|]. cbn [comp_loop].
  pose proof (comp_of_spec b) as CS. destruct (comp_of T ft b) as [f|] eqn:E; auto.
  destruct Hc as [->|Hc]; [|eapply IH; eauto].
  exfalso. apply N. unfold is_comp in CS. unfold xyz. tauto.
Qed.
End Comp.

Lemma eps_map args L gmax ft x y : lattice_init args = Ok L -> independent (lt_a1 L) (lt_a2 L) -> 0 <= gmax -> conj_symmetric ft ->
  let rc := recip_tbt L gmax in let gs := rc_g rc in
  let v := get_eps_tbt (T1_tbt ft rc) (T2_tbt ft rc) (G1_of gs) (G2_of gs (Z.to_nat (rc_n1 rc)) (Z.to_nat (rc_n2 rc))) x y in
  exists terms, v = series terms x y /\ NoDup (map snd terms) /\
    (forall D, In D (map snd terms) <-> exists g g', In g gs /\ In g' gs /\ D = diff g g') /\
    Forall (fun t => fst t = ft (snd t) \/
      (fst t = RtoC (fst (ft (snd t))) /\ exists g g', In g gs /\ In g' gs /\ Rabs (snd (ft (snd t))) < 1 / 10 ^ 10 * Rabs (fst (ft (diff g g'))))) terms /\
    let ex := series (map (fun t => (ft (snd t), snd t)) terms) x y in
    snd ex = 0 /\
    (forall M, (forall g g', In g gs -> In g' gs -> Rabs (fst (ft (diff g g'))) <= M) ->
       Cmod (v - ex)%C <= INR (List.length terms) * (1 / 10 ^ 10 * M)) /\
    ((forall g g', In g gs -> In g' gs -> snd (ft (diff g g')) = 0) -> v = ex).
Proof.
  intros HL Hind Hg Hft rc gs v.
  destruct (eps_tbt L args gmax ft HL Hind Hg Hft x y) as [terms [E1 [E2 [E3 E4]]]]. fold rc gs in E1. fold v in E1.
  assert (St : Forall (fun t => fst t = ft (snd t) \/
      (fst t = RtoC (fst (ft (snd t))) /\ exists g g', In g gs /\ In g' gs /\ Rabs (snd (ft (snd t))) < 1 / 10 ^ 10 * Rabs (fst (ft (diff g g'))))) terms).
  { eapply Forall_impl; [|exact E4]. intros t [H|[H [D' [[g [g' [G1 [G2 ->]]]] G3]]]]; [left; auto|right]. split; auto. exists g, g'. auto. }
  exists terms. split; auto. split; auto. split; [exact E3|]. split; [exact St|].
  intros ex. split; [|split].
  - apply (series_real ft terms x y Hft E2). intros D HD. apply E3. apply E3 in HD. destruct HD as [g [g' [H1 [H2 ->]]]].
    exists g', g. split; auto. split; auto. unfold neg_g, diff. simpl. f_equal; ring.
  - intros M HM. rewrite E1. apply (series_close ft terms x y). rewrite Forall_forall in *. intros t Ht.
    assert (M0 : 0 <= M).
    { destruct (proj1 (E3 (snd t)) (in_map snd _ _ Ht)) as [g [g' [H1 [H2 _]]]]. eapply Rle_trans; [|apply (HM g g'); auto]. apply Rabs_pos. }
    assert (K0 : 0 <= 1 / 10 ^ 10 * M) by (apply Rmult_le_pos; [lra|auto]).
    destruct (St t Ht) as [->|[-> [g [g' [H1 [H2 H3]]]]]].
    + replace (ft (snd t) - ft (snd t))%C with (RtoC 0) by ring. rewrite Cmod_0. auto.
    + replace (RtoC (fst (ft (snd t))) - ft (snd t))%C with (Ci * RtoC (- snd (ft (snd t))))%C by cring.
      rewrite Cmod_mult, Cmod_R, Rabs_Ropp. replace (Cmod Ci) with 1 by (unfold Cmod; simpl; rewrite !Rmult_0_l, !Rmult_1_r, Rplus_0_l; symmetry; apply sqrt_1).
      specialize (HM g g' H1 H2). assert (1 / 10 ^ 10 * Rabs (fst (ft (diff g g'))) <= 1 / 10 ^ 10 * M) by (apply Rmult_le_compat_l; lra). lra.
  - intros HR. unfold ex. rewrite E1. f_equal. rewrite <- (map_id terms) at 1. apply map_ext_in. intros t Ht. rewrite Forall_forall in St.
    destruct (proj1 (E3 (snd t)) (in_map snd _ _ Ht)) as [g [g' [H1 [H2 H3]]]].
    destruct t as [c D]. simpl in *. f_equal. destruct (St _ Ht) as [Q|[Q _]]; simpl in Q; rewrite Q; auto.
    specialize (HR g g' H1 H2). rewrite <- H3 in HR. destruct (ft D) as [a b]. simpl in *. subst. reflexivity.
Qed.

(** ** E = D / eps *)
Lemma E_field P eps d ng einv ms evec omega z A : is_inverse ng A (einv (z_to_lind P z)) ->
  exists Dx Dy Dz Ex Ey Ez,
    ft_field_xy P eps d ng einv ms evec omega "D" z = Some (Dx, Dy, Dz) /\
    ft_field_xy P eps d ng einv ms evec omega "E" z = Some (Ex, Ey, Ez) /\
    forall n, (n < ng)%nat -> mvec ng A Ex n = Dx n /\ mvec ng A Ey n = Dy n /\ mvec ng A Ez n = Dz n.
Proof.
  intros [H _]. unfold ft_field_xy. cbn [lower lower_ascii String.eqb].
  do 6 eexists. split; [reflexivity|]. split; [reflexivity|].
  intros n Hn. repeat split; (rewrite <- mvec_mmul; etransitivity; [|apply mvec_id; eauto]; apply csum_ext; intros k Hk; rewrite H by auto; reflexivity).
Qed.
