(** Proofs about the change of basis that separates even from odd modes. *)
From Coq Require Import Permutation.
From Verif Require Import Py CBase LatticeModel MatElModel SymSpec SymModel.
Open Scope R_scope.

Lemma rs2_sq : rs2 * rs2 = / 2.
Proof.
  unfold rs2. assert (H := sqrt_sqrt 2 ltac:(lra)). assert (sqrt 2 <> 0) by (intros E; rewrite E in H; lra).
  apply Rmult_eq_reg_r with (sqrt 2 * sqrt 2); [|rewrite H; lra].
  transitivity 1; [field; auto|]. rewrite H. field.
Qed.

Definition dlt (i c : nat) : R := if Nat.eqb i c then 1 else 0.
(** closed form of the columns *)
Definition colform (n : nat) (V : nat -> nat -> R) (w : nat -> R) (mt : nat -> nat) : Prop :=
  (forall c, (c < n)%nat -> (w c = 1 \/ w c = - 1) /\ (mt c <> c -> w (mt c) = - w c) /\ (mt c = c -> w c = 1)) /\
  (forall i c, (i < n)%nat -> (c < n)%nat ->
     V i c = if Nat.eqb (mt c) c then dlt i c else rs2 * (w c * dlt i c + dlt i (mt c))).

Lemma near_b_spec g h : near_b g h = true <-> near g h.
Proof. unfold near_b, near, thr_g. rewrite andb_true_iff, !Rltb_true. tauto. Qed.

Lemma filter_unique {A} (f : A -> bool) l x : NoDup l -> In x l -> (forall y, In y l -> (f y = true <-> y = x)) -> filter f l = [x].
Proof.
  induction l as [|a l IH]; intros Hn Hx Hf; [destruct Hx|]. inversion Hn as [|? ? Ha Hl]; subst. simpl.
  destruct (f a) eqn:E.
  - apply Hf in E; [|left; auto]. subst a. f_equal.
    destruct (filter f l) as [|b t] eqn:F; auto. exfalso.
    assert (In b (filter f l)) by (rewrite F; left; auto). apply filter_In in H. destruct H as [H1 H2].
    apply Hf in H2; [subst; auto|right; auto].
  - destruct Hx as [->|Hx]; [exfalso; assert (f x = true) by (apply Hf; [left|]; auto); congruence|].
    apply IH; auto. intros y Hy. apply Hf. right; auto.
Qed.

Lemma ind_g_mate m gs mt j : mates (app2 m) gs mt -> (j < List.length gs)%nat ->
  ind_g gs (app2 m (nth j gs (0, 0))) = Ok [mt j].
Proof.
  intros H Hj. destruct (H j Hj) as [H1 [_ H2]]. unfold ind_g.
  rewrite (filter_unique _ _ (mt j)); auto.
  - apply seq_NoDup.
  - apply in_seq. lia.
  - intros y Hy. apply in_seq in Hy. rewrite near_b_spec. apply H2. lia.
Qed.

Section Block.
Variables (m : (R * R) * (R * R)) (gs : list (R * R)) (mt : nat -> nat).
Hypothesis Hm : mates (app2 m) gs mt.
Let d := List.length gs.

Definition dinv (k : nat) (st : (nat -> nat -> R) * (nat -> R)) : Prop :=
  let (B, w) := st in
  forall c, (c < d)%nat ->
    (forall i, (i < d)%nat -> i <> c -> i <> mt c -> B i c = 0) /\
    ((c < k)%nat \/ (mt c < k)%nat ->
       (mt c = c -> B c c = 1 /\ w c = 1) /\
       (mt c <> c -> B (mt c) c = rs2 /\ B c c = rs2 * w c /\
          w c = if (Nat.ltb c k && (Nat.leb k (mt c) || Nat.ltb (mt c) c))%bool then - 1 else 1)).

Lemma mt_lt c : (c < d)%nat -> (mt c < d)%nat. Proof. intros H. apply (Hm c H). Qed.
Lemma mt_mt c : (c < d)%nat -> mt (mt c) = c. Proof. intros H. apply (Hm c H). Qed.

Ltac eqbs := repeat match goal with
  | |- context [Nat.eqb ?a ?b] => destruct (Nat.eqb_spec a b); try (exfalso; lia); cbn [andb orb]
  | |- context [Nat.ltb ?a ?b] => destruct (Nat.ltb_spec a b); try (exfalso; lia); cbn [andb orb]
  | |- context [Nat.leb ?a ?b] => destruct (Nat.leb_spec a b); try (exfalso; lia); cbn [andb orb]
  end.

Lemma dinv_step k st : (k < d)%nat -> dinv k st -> exists st', dense_step m gs d k st = Ok st' /\ dinv (S k) st'.
Proof.
  intros Hk. destruct st as [B w]. intros I. unfold dense_step. rewrite (ind_g_mate m gs mt k Hm Hk). cbn [bind hd].
  pose proof (mt_lt k Hk) as Hmk. pose proof (mt_mt k Hk) as Hmm.
  assert (E1 : in_bounds d [k] = true) by (simpl; rewrite andb_true_r; apply Nat.ltb_lt; auto).
  assert (E2 : in_bounds d [k; mt k] = true).
  { simpl. rewrite andb_true_r. apply andb_true_iff. split; apply Nat.ltb_lt; auto. }
  rewrite E1, E2. destruct (Nat.eqb_spec k (mt k)) as [E|E].
  - eexists; split; [reflexivity|]. intros c Hc. destruct (I c Hc) as [I1 I2]. unfold upd2, upd. split.
    + intros i Hi N1 N2. assert (i <> k \/ c <> k) by lia. eqbs; auto.
    + intros Hs. destruct (Nat.eq_dec c k) as [->|Nc].
      * rewrite Nat.eqb_refl. simpl. split; auto. lia.
      * assert (mt c <> k) by (intros F; apply Nc; transitivity (mt (mt c)); [symmetry; apply mt_mt; auto|congruence]).
        destruct I2 as [I2 I3]; [lia|]. assert (Hf : Nat.eqb c k = false) by (apply Nat.eqb_neq; auto). rewrite !Hf, !andb_false_r.
        split; auto. intros N. destruct (I3 N) as [J1 [J2 J3]]. split; auto. split; auto. rewrite J3. eqbs; auto.
  - eexists; split; [reflexivity|]. cbn [fold_left]. intros c Hc. destruct (I c Hc) as [I1 I2]. unfold upd2, upd.
    pose proof (mt_lt c Hc) as Hmc. pose proof (mt_mt c Hc) as Hcc. split.
    + intros i Hi N1 N2.
      assert (F1 : c = k -> i <> mt k) by congruence. assert (F2 : c = mt k -> i <> k) by congruence.
      eqbs; auto.
    + intros Hs. destruct (Nat.eq_dec c k) as [->|Nc]; [|destruct (Nat.eq_dec c (mt k)) as [->|Nm]].
      * split; [congruence|]. intros _. eqbs; repeat split; auto; try ring.
      * rewrite Hmm. split; [congruence|]. intros _. eqbs; repeat split; auto; ring.
      * assert (mt c <> k) by congruence. assert (mt c <> mt k) by congruence.
        destruct I2 as [I2 I3]; [lia|].
        assert (Hf : Nat.eqb c k = false) by (apply Nat.eqb_neq; auto).
        assert (Hf2 : Nat.eqb c (mt k) = false) by (apply Nat.eqb_neq; auto).
        rewrite !Hf, !Hf2, ?andb_false_r. split; auto. intros N. destruct (I3 N) as [J1 [J2 J3]]. repeat split; auto. rewrite J3. eqbs; auto.
Qed.

Lemma dloop k st : (k <= d)%nat -> dinv k st -> exists st', loop (dense_step m gs d) (seq k (d - k)) st = Ok st' /\ dinv d st'.
Proof.
  remember (d - k)%nat as r eqn:Hr. revert k st Hr. induction r as [|r IH]; intros k st Hr Hk I.
  - exists st. split; auto. replace d with k by lia. auto.
  - simpl. destruct (dinv_step k st) as [st' [E I']]; auto; [lia|]. rewrite E. cbn [bind]. apply IH; auto; lia.
Qed.

Lemma dense_colform : exists B w, loop (dense_step m gs d) (seq 0 d) ((fun _ _ => 0), (fun _ => 0)) = Ok (B, w) /\ colform d B w mt.
Proof.
  destruct (dloop 0 ((fun _ _ => 0), (fun _ => 0))) as [[B w] [E I]]; [lia| |].
  - intros c Hc. split; auto. intros [?|?]; lia.
  - rewrite Nat.sub_0_r in E. exists B, w. split; auto. split.
    + intros c Hc. pose proof (mt_lt c Hc) as Hmc. pose proof (mt_mt c Hc) as Hcc.
      destruct (I c Hc) as [_ I2]. destruct I2 as [I2 I3]; [lia|].
      destruct (I (mt c) Hmc) as [_ J2]. destruct J2 as [J2 J3]; [lia|]. rewrite Hcc in J3.
      destruct (Nat.eq_dec (mt c) c) as [F|F].
      * destruct (I2 F) as [_ ->]. repeat split; auto; congruence.
      * destruct (I3 F) as [_ [_ ->]]. destruct J3 as [_ [_ ->]]; [auto|].
        eqbs; repeat split; auto; try congruence; intros; lra.
    + intros i c Hi Hc. destruct (I c Hc) as [I1 I2]. destruct I2 as [I2 I3]; [lia|]. unfold dlt.
      destruct (Nat.eqb_spec (mt c) c) as [F|F].
      * destruct (Nat.eqb_spec i c) as [->|N]; [apply I2; auto|apply I1; auto; congruence].
      * destruct (I3 F) as [J1 [J2 J3]]. destruct (Nat.eqb_spec i c) as [->|N]; destruct (Nat.eqb_spec c (mt c)) as [G|G]; try congruence.
        -- rewrite J2. ring.
        -- destruct (Nat.eqb_spec i (mt c)) as [->|N2]; [rewrite J1; ring|rewrite I1; auto; ring].
Qed.
(** sparse loop *)
Lemma coo_app a b i j : coo (a ++ b) i j = coo a i j + coo b i j.
Proof. unfold coo. rewrite map_app. induction a as [|x a IH]; simpl; [ring|]. rewrite IH. ring. Qed.

Variable off : nat.
Definition sinv (k : nat) (st : list (R * nat * nat) * (nat -> R) * (nat -> bool)) : Prop :=
  let '(tr, w, ck) := st in
  (forall i j, (i < off \/ off + d <= i \/ j < off \/ off + d <= j)%nat -> coo tr i j = 0) /\
  forall c, (c < d)%nat ->
    (forall i, (i < d)%nat -> i <> c -> i <> mt c -> coo tr (i + off) (c + off) = 0) /\
    (mt c = c -> if Nat.ltb c k then coo tr (c + off) (c + off) = 1 /\ w c = 1 else coo tr (c + off) (c + off) = 0) /\
    (mt c <> c -> if (Nat.ltb c k || Nat.ltb (mt c) k)%bool then
        ck c = true /\ coo tr (mt c + off) (c + off) = rs2 /\ coo tr (c + off) (c + off) = rs2 * w c /\
        w c = if Nat.ltb c (mt c) then - 1 else 1
      else ck c = false /\ coo tr (mt c + off) (c + off) = 0 /\ coo tr (c + off) (c + off) = 0).

Lemma sinv_step k st : (k < d)%nat -> sinv k st -> exists st', sparse_step m gs d off k st = Ok st' /\ sinv (S k) st'.
Proof.
  intros Hk. destruct st as [[tr w] ck]. intros [O I]. unfold sparse_step. rewrite (ind_g_mate m gs mt k Hm Hk). cbn [bind hd].
  pose proof (mt_lt k Hk) as Hmk. pose proof (mt_mt k Hk) as Hmm.
  assert (E1 : in_bounds d [k] = true) by (simpl; rewrite andb_true_r; apply Nat.ltb_lt; auto).
  assert (E2 : in_bounds d [mt k] = true) by (simpl; rewrite andb_true_r; apply Nat.ltb_lt; auto).
  rewrite E1, E2. destruct (Nat.eqb_spec k (mt k)) as [E|E].
  - eexists; split; [reflexivity|].
    assert (Q : forall i j, coo (tr ++ [(1, (k + off)%nat, (k + off)%nat)]) i j = coo tr i j + if (Nat.eqb (k + off) i && Nat.eqb (k + off) j)%bool then 1 else 0).
    { intros i j. rewrite coo_app. unfold coo at 2. simpl. ring. }
    split.
    + intros i j H. rewrite Q, O by auto. eqbs; ring.
    + intros c Hc. destruct (I c Hc) as [I1 [I2 I3]]. split; [|split].
      * intros i Hi N1 N2. rewrite Q, I1 by auto. eqbs; ring.
      * intros F. specialize (I2 F). rewrite Q. unfold upd. destruct (Nat.eq_dec c k) as [->|Nc].
        -- revert I2. eqbs. intros ->. split; ring.
        -- revert I2. eqbs; rewrite ?Rplus_0_r; auto.
      * intros F. specialize (I3 F).
        assert (c <> k) by congruence.
        assert (mt c <> k) by (intros G; assert (c = k) by (transitivity (mt (mt c)); [symmetry; apply mt_mt; auto|congruence]); congruence).
        rewrite !Q. unfold upd. revert I3. eqbs; intros I3; rewrite ?Rplus_0_r; auto.
  - destruct (ck k) eqn:Ck.
    + eexists; split; [reflexivity|]. split; auto. intros c Hc. destruct (I c Hc) as [I1 [I2 I3]]. split; [auto|split].
      * intros F. specialize (I2 F). assert (c <> k) by congruence. revert I2. eqbs; auto.
      * intros F. specialize (I3 F). destruct (I k Hk) as [_ [_ K3]].
        assert (K4 : (mt k < k)%nat).
        { specialize (K3 ltac:(congruence)). revert K3. eqbs; intros K3; auto. destruct K3; congruence. }
        destruct (Nat.eq_dec c k) as [->|Nc]; [revert I3; eqbs; auto|].
        destruct (Nat.eq_dec (mt c) k) as [G|G].
        -- assert (c = mt k) by (rewrite <- G, mt_mt; auto). subst c. revert I3; eqbs; auto.
        -- revert I3. eqbs; auto.
    + assert (K4 : (k < mt k)%nat).
      { destruct (I k Hk) as [_ [_ K3]]. specialize (K3 ltac:(congruence)). revert K3. eqbs; intros K3; try lia. destruct K3; congruence. }
      eexists; split; [reflexivity|]. cbn [fold_left].
      set (p := mt k) in *.
      match goal with |- sinv _ (?T, _, _) => set (tr' := T) end.
      assert (Q : forall i j, coo tr' i j = coo tr i j
        + (if (Nat.eqb (k + off) i && Nat.eqb (k + off) j)%bool then - rs2 else 0) + (if (Nat.eqb (k + off) i && Nat.eqb (p + off) j)%bool then rs2 else 0)
        + (if (Nat.eqb (p + off) i && Nat.eqb (k + off) j)%bool then rs2 else 0) + (if (Nat.eqb (p + off) i && Nat.eqb (p + off) j)%bool then rs2 else 0)).
      { intros i j. unfold tr'. rewrite coo_app. unfold coo at 2. simpl. ring. }
      clearbody tr'. split.
      * intros i j H. rewrite Q, O by auto. eqbs; ring.
      * intros c Hc. pose proof (mt_lt c Hc) as Hmc. pose proof (mt_mt c Hc) as Hcc. destruct (I c Hc) as [I1 [I2 I3]].
        destruct (I k Hk) as [_ [_ K3]]. specialize (K3 ltac:(unfold p in *; congruence)). fold p in K3.
        destruct (I p Hmk) as [_ [_ P3]]. rewrite Hmm in P3. specialize (P3 E).
        assert (K5 : coo tr (p + off) (k + off) = 0 /\ coo tr (k + off) (k + off) = 0) by (revert K3; eqbs; tauto).
        assert (P5 : coo tr (k + off) (p + off) = 0 /\ coo tr (p + off) (p + off) = 0) by (revert P3; eqbs; tauto).
        destruct K5 as [K5 K6]. destruct P5 as [P5 P6]. split; [|split].
        -- intros i Hi N1 N2. assert (F1 : c = k -> i <> p) by (unfold p; congruence). assert (F2 : c = p -> i <> k) by congruence.
           rewrite Q, I1 by auto. eqbs; ring.
        -- intros F. specialize (I2 F). assert (c <> k) by (unfold p in *; congruence). assert (c <> p) by congruence.
           rewrite Q. unfold upd. revert I2. eqbs; rewrite ?Rplus_0_r; auto.
        -- intros F. destruct (Nat.eq_dec c k) as [->|Nc]; [|destruct (Nat.eq_dec c p) as [->|Np]].
           ++ fold p. rewrite !Q, K5, K6. unfold upd. eqbs; repeat split; auto; ring.
           ++ rewrite Hmm. rewrite !Q, P5, P6. unfold upd. eqbs; repeat split; auto; ring.
           ++ assert (mt c <> k) by (unfold p in *; congruence). assert (mt c <> p) by (intros G; rewrite G, Hmm in Hcc; congruence).
              specialize (I3 F). rewrite !Q. unfold upd. revert I3. eqbs; intros I3; rewrite ?Rplus_0_r; auto.
Qed.

Lemma sloop k st : (k <= d)%nat -> sinv k st -> exists st', loop (sparse_step m gs d off) (seq k (d - k)) st = Ok st' /\ sinv d st'.
Proof.
  remember (d - k)%nat as r eqn:Hr. revert k st Hr. induction r as [|r IH]; intros k st Hr Hk I.
  - exists st. split; auto. replace d with k by lia. auto.
  - simpl. destruct (sinv_step k st) as [st' [E I']]; auto; [lia|]. rewrite E. cbn [bind]. apply IH; auto; lia.
Qed.

Lemma sparse_colform : exists tr w ck, loop (sparse_step m gs d off) (seq 0 d) ([], (fun _ => 0), (fun _ => false)) = Ok (tr, w, ck) /\
  colform d (fun i j => coo tr (i + off) (j + off)) w mt /\
  (forall i j, (i < off \/ off + d <= i \/ j < off \/ off + d <= j)%nat -> coo tr i j = 0).
Proof.
  destruct (sloop 0 ([], (fun _ => 0), (fun _ => false))) as [[[tr w] ck] [E [O I]]]; [lia| |].
  - split; [reflexivity|]. intros c Hc. repeat split; auto.
  - rewrite Nat.sub_0_r in E. exists tr, w, ck. split; auto. split; auto. split.
    + intros c Hc. pose proof (mt_lt c Hc) as Hmc. pose proof (mt_mt c Hc) as Hcc.
      destruct (I c Hc) as [_ [I2 I3]]. destruct (I (mt c) Hmc) as [_ [J2 J3]]. rewrite Hcc in J3.
      destruct (Nat.eq_dec (mt c) c) as [F|F].
      * specialize (I2 F). revert I2. eqbs. intros [_ ->]. repeat split; auto; congruence.
      * specialize (I3 F). specialize (J3 ltac:(auto)). revert I3 J3. eqbs; intros [_ [_ [_ ->]]] [_ [_ [_ ->]]]; repeat split; auto; try congruence; intros; lra.
    + intros i c Hi Hc. destruct (I c Hc) as [I1 [I2 I3]]. pose proof (mt_lt c Hc) as Hmc. unfold dlt.
      destruct (Nat.eqb_spec (mt c) c) as [F|F].
      * destruct (Nat.eqb_spec i c) as [->|N]; [specialize (I2 F); revert I2; eqbs; tauto|apply I1; auto; congruence].
      * specialize (I3 F). assert (J : coo tr (mt c + off) (c + off) = rs2 /\ coo tr (c + off) (c + off) = rs2 * w c) by (revert I3; eqbs; tauto).
        destruct J as [J1 J2]. destruct (Nat.eqb_spec i c) as [->|N]; destruct (Nat.eqb_spec c (mt c)) as [G|G]; try congruence.
        -- rewrite J2. ring.
        -- destruct (Nat.eqb_spec i (mt c)) as [->|N2]; [rewrite J1; ring|rewrite I1; auto; ring].
Qed.
End Block.
