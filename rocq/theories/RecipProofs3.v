(** The Toeplitz-block-Toeplitz permittivity matrix (C27). *)
From Verif Require Import Py LatticeModel LatticeSpec LatticeProofs CBase PhcModel RecipModel RecipSpec RecipProofs.
Open Scope R_scope.
Open Scope list_scope.

Lemma nth_flat_map_seq {A} (f : nat -> nat -> A) m d : forall n s a p, (a < n)%nat -> (p < m)%nat ->
  nth (a * m + p) (flat_map (fun a => map (f a) (seq 0 m)) (seq s n)) d = f (s + a)%nat p.
Proof.
  induction n as [|n IH]; intros s a p Ha Hp; [lia|]. cbn [seq flat_map].
  destruct a as [|a].
  - rewrite app_nth1 by (rewrite map_length, seq_length; lia). simpl.
    rewrite (nth_indep _ d (f s 0%nat)) by (rewrite map_length, seq_length; lia).
    rewrite map_nth, seq_nth by lia. f_equal; lia.
  - rewrite app_nth2 by (rewrite map_length, seq_length; lia). rewrite map_length, seq_length.
    replace (S a * m + p - m)%nat with (a * m + p)%nat by lia. rewrite IH by lia. f_equal; lia.
Qed.
Lemma len_flat_map_seq {A} (f : nat -> nat -> A) m n s :
  List.length (flat_map (fun a => map (f a) (seq 0 m)) (seq s n)) = (n * m)%nat.
Proof. revert s. induction n; intros s; auto. cbn [seq flat_map]. rewrite app_length, map_length, seq_length, IHn. lia. Qed.
Lemma nth_slice {A} (l : list A) s e k d : (k < e - s)%nat -> nth k (slice s e l) d = nth (s + k) l d.
Proof.
  intros H. unfold slice. rewrite <- (firstn_skipn (e - s) (skipn s l)) at 1.
  revert l k H. assert (F : forall n (l : list A) k, (k < n)%nat -> nth k (firstn n l) d = nth k l d).
  { induction n; intros l k Hk; [lia|]. destruct l; auto. destruct k; simpl; auto. apply IHn. lia. }
  intros l k H. rewrite firstn_skipn, F by auto. revert l. induction s; intros l; auto. destruct l; simpl; [destruct k; auto|].
  clear -IHs. revert IHs. intros _. revert l k. induction s; intros l k; auto. destruct l; simpl; [destruct k; auto|apply IHs].
Qed.
Lemma nth_map_lt {A B} (f : A -> B) l k d d' : (k < List.length l)%nat -> nth k (map f l) d' = f (nth k l d).
Proof. intros H. rewrite (nth_indep _ d' (f d)) by (rewrite map_length; auto). apply map_nth. Qed.

(** dropping imaginary parts *)
Definition sn (b : bool) (z : C) : C := if b then RtoC (fst z) else z.
Definition tiny (T : list C) : bool := Rltb (amax (map snd T)) (1 / 10 ^ 10 * amax (map fst T)).
Lemma snap_sn T : snap T = map (sn (tiny T)) T.
Proof. unfold snap, tiny, sn. destruct (Rltb _ _); auto. symmetry. apply map_id. Qed.
Lemma sn_conj b z : Cconj (sn b z) = sn b (Cconj z).
Proof. destruct b; auto. apply Cconj_R. Qed.
Lemma amax_ge l x : In x l -> Rabs x <= amax l.
Proof.
  induction l as [|y l IH]; intros H; [destruct H|]. cbn [amax fold_right]. destruct H as [->|H].
  - apply Rmax_l. - eapply Rle_trans; [apply IH; auto|apply Rmax_r].
Qed.
Lemma amax_pos l : 0 <= amax l.
Proof. induction l; [simpl; lra|]. cbn [amax fold_right]. eapply Rle_trans; [apply IHl|apply Rmax_r]. Qed.
Lemma amax_att l : amax l = 0 \/ exists x, In x l /\ amax l = Rabs x.
Proof.
  induction l as [|y l IH]; [left; auto|]. cbn [amax fold_right]. fold (amax l). right.
  destruct (Rle_dec (Rabs y) (amax l)) as [Hy|Hy].
  - rewrite Rmax_right by auto. destruct IH as [E|(x & Hx & E)].
    + exists y. split; [left; auto|]. rewrite E. rewrite E in Hy. pose proof (Rabs_pos y). lra.
    + exists x. split; [right; auto|auto].
  - rewrite Rmax_left by lra. exists y. split; [left; auto|auto].
Qed.
Lemma tiny_bound T z : tiny T = true -> In z T -> exists w, In w T /\ Rabs (snd z) < 1 / 10 ^ 10 * Rabs (fst w).
Proof.
  unfold tiny. intros H Hz. apply Rltb_true in H.
  destruct (amax_att (map fst T)) as [E|(x & Hx & E)].
  - exfalso. rewrite E, Rmult_0_r in H. pose proof (amax_pos (map snd T)). lra.
  - apply in_map_iff in Hx. destruct Hx as (w & <- & Hw). exists w. split; auto.
    rewrite <- E. eapply Rle_lt_trans; [|exact H]. apply amax_ge. apply in_map. auto.
Qed.

Section TBT.
  Context (b1 b2 : R * R) (n1 n2 : nat) (ft : R * R -> C) (rc : recip).
  Let m1 := (2 * n1 + 1)%nat.
  Let m2 := (2 * n2 + 1)%nat.
  Hypothesis Hg : rc_g rc = map (cmb b1 b2) (block n1 n2).
  Hypothesis H1 : rc_n1 rc = Z.of_nat m1.
  Hypothesis H2 : rc_n2 rc = Z.of_nat m2.

  Lemma g_len : List.length (rc_g rc) = (m1 * m2)%nat.
  Proof. rewrite Hg, map_length, block_len. auto. Qed.
  Lemma g_nth a p : (a < m1)%nat -> (p < m2)%nat ->
    nthg (rc_g rc) (a * m2 + p) = cmb b1 b2 (Z.of_nat a - Z.of_nat n1, Z.of_nat p - Z.of_nat n2)%Z.
  Proof.
    intros Ha Hp. unfold nthg. rewrite Hg. rewrite (nth_map_lt _ _ _ (0, 0)%Z).
    - unfold m2. rewrite block_nth by auto. auto.
    - rewrite block_len. fold m1 m2. assert ((a + 1) * m2 <= m1 * m2)%nat by (apply Nat.mul_le_mono_r; lia). lia.
  Qed.
  Lemma cmb_diff u v : diff (cmb b1 b2 u) (cmb b1 b2 v) = cmb b1 b2 (zz_sub u v).
  Proof. unfold diff, cmb, comb, zz_sub; cbn [fst snd]. rewrite !minus_IZR. f_equal; ring. Qed.
  Lemma g_diff a p b q : (a < m1)%nat -> (p < m2)%nat -> (b < m1)%nat -> (q < m2)%nat ->
    diff (nthg (rc_g rc) (a * m2 + p)) (nthg (rc_g rc) (b * m2 + q)) =
    cmb b1 b2 (Z.of_nat a - Z.of_nat b, Z.of_nat p - Z.of_nat q)%Z.
  Proof.
    intros Ha Hp Hb Hq. rewrite !g_nth by auto. rewrite cmb_diff. f_equal. unfold zz_sub; cbn [fst snd]. f_equal; lia.
  Qed.
  Lemma vsub_diff u v : RecipModel.vsub u v = diff u v. Proof. reflexivity. Qed.
  Lemma m2_pos : (0 < m2)%nat. Proof. unfold m2. lia. Qed.
  Lemma m1_pos : (0 < m1)%nat. Proof. unfold m1. lia. Qed.
  Lemma G1_nth a p : (a < m1)%nat -> (p < m2)%nat -> nth (a * m2 + p) (G1_of (rc_g rc)) (0, 0) = cmb b1 b2 (- Z.of_nat a, - Z.of_nat p)%Z.
  Proof.
    intros Ha Hp. unfold G1_of. rewrite (nth_map_lt _ _ _ (0, 0)).
    - rewrite vsub_diff. change (nth (a * m2 + p) (rc_g rc) (0, 0)) with (nthg (rc_g rc) (a * m2 + p)).
      pose proof m2_pos. pose proof m1_pos. change (nthg (rc_g rc) 0) with (nthg (rc_g rc) (0 * m2 + 0)). rewrite (g_diff 0 0 a p) by lia. f_equal; f_equal; lia.
    - rewrite g_len. assert ((a + 1) * m2 <= m1 * m2)%nat by (apply Nat.mul_le_mono_r; lia). lia.
  Qed.
  Lemma G1_len : List.length (G1_of (rc_g rc)) = (m1 * m2)%nat.
  Proof. unfold G1_of. rewrite map_length. apply g_len. Qed.
  Lemma G2_nth a p : (a < m1)%nat -> (p < m2)%nat -> nth (a * m2 + p) (G2_of (rc_g rc) m1 m2) (0, 0) = cmb b1 b2 (- Z.of_nat a, Z.of_nat p)%Z.
  Proof.
    intros Ha Hp. unfold G2_of. rewrite nth_flat_map_seq by auto. rewrite vsub_diff. cbn [Nat.add].
    change (nthg (rc_g rc) p) with (nthg (rc_g rc) (0 * m2 + p)). replace (a * m2)%nat with (a * m2 + 0)%nat by lia.
    pose proof m2_pos. pose proof m1_pos. rewrite (g_diff 0 p a 0) by lia. f_equal; f_equal; lia.
  Qed.
  Lemma G2_len : List.length (G2_of (rc_g rc) m1 m2) = (m1 * m2)%nat.
  Proof. apply len_flat_map_seq. Qed.

  Let t1 := tiny (map ft (G1_of (rc_g rc))).
  Let t2 := tiny (map ft (G2_of (rc_g rc) m1 m2)).
  Lemma T1_eq : T1_tbt ft rc = map (fun g => sn t1 (ft g)) (G1_of (rc_g rc)).
  Proof. unfold T1_tbt. rewrite snap_sn, map_map. auto. Qed.
  Lemma T2_eq : T2_tbt ft rc = map (fun g => sn t2 (ft g)) (G2_of (rc_g rc) m1 m2).
  Proof. unfold T2_tbt. rewrite H1, H2, !Nat2Z.id. rewrite snap_sn, map_map. auto. Qed.
  Lemma T1_len : List.length (T1_tbt ft rc) = (m1 * m2)%nat.
  Proof. rewrite T1_eq, map_length. apply G1_len. Qed.

  Lemma lt_prod a p : (a < m1)%nat -> (p < m2)%nat -> (a * m2 + p < m1 * m2)%nat.
  Proof. intros. assert ((a + 1) * m2 <= m1 * m2)%nat by (apply Nat.mul_le_mono_r; lia). lia. Qed.
  Lemma T1_nth a p : (a < m1)%nat -> (p < m2)%nat -> nth (a * m2 + p) (T1_tbt ft rc) (RtoC 0) = sn t1 (ft (cmb b1 b2 (- Z.of_nat a, - Z.of_nat p)%Z)).
  Proof.
    intros Ha Hp. rewrite T1_eq, (nth_map_lt _ _ _ (0, 0)), G1_nth by (auto; rewrite G1_len; apply lt_prod; auto). auto.
  Qed.
  Lemma T2_nth a p : (a < m1)%nat -> (p < m2)%nat -> nth (a * m2 + p) (T2_tbt ft rc) (RtoC 0) = sn t2 (ft (cmb b1 b2 (- Z.of_nat a, Z.of_nat p)%Z)).
  Proof.
    intros Ha Hp. rewrite T2_eq, (nth_map_lt _ _ _ (0, 0)), G2_nth by (auto; rewrite G2_len; apply lt_prod; auto). auto.
  Qed.

  Definition which (p q : nat) : bool := if Nat.leb q p then t2 else t1.
  Lemma tmat_entry a p b q : (a <= b)%nat -> (b < m1)%nat -> (p < m2)%nat -> (q < m2)%nat ->
    tmat m1 (T1_tbt ft rc) (T2_tbt ft rc) (a * m2 + p)%nat (b * m2 + q)%nat =
    sn (which p q) (ft (diff (nthg (rc_g rc) (a * m2 + p)) (nthg (rc_g rc) (b * m2 + q)))).
  Proof.
    intros Hab Hb Hp Hq. rewrite g_diff by lia. unfold tmat. rewrite T1_len.
    pose proof m2_pos as P2. pose proof m1_pos as P1.
    replace (m1 * m2 / m1)%nat with m2 by (rewrite Nat.mul_comm, Nat.div_mul by lia; auto).
    rewrite !Nat.div_add_l, !(Nat.div_small _ m2), !Nat.add_0_r by lia.
    rewrite !(Nat.add_comm (_ * m2)), !Nat.mod_add, !(Nat.mod_small _ m2) by lia.
    rewrite (proj2 (Nat.leb_le a b) Hab), (proj2 (Nat.ltb_lt b m1) Hb). cbn [andb].
    unfold toeplitz, which.
    assert (SZ : forall c, ((c + 1) * m2 - c * m2 = m2)%nat) by (intros; rewrite Nat.mul_add_distr_r; lia).
    destruct (Nat.leb_spec q p) as [L|L].
    - rewrite nth_slice by (rewrite SZ; lia). rewrite T2_nth by lia. do 2 f_equal. f_equal. f_equal; lia.
    - rewrite nth_slice by (rewrite SZ; lia). rewrite T1_nth by lia. do 2 f_equal. f_equal. f_equal; lia.
  Qed.

  Lemma split_index i : (i < m1 * m2)%nat -> exists a p, (i = a * m2 + p)%nat /\ (a < m1)%nat /\ (p < m2)%nat.
  Proof.
    intros H. pose proof m2_pos. exists (i / m2)%nat, (i mod m2)%nat. split; [|split].
    - rewrite Nat.mul_comm. apply Nat.div_mod. lia.
    - apply Nat.div_lt_upper_bound; lia.
    - apply Nat.mod_upper_bound. lia.
  Qed.
  Hypothesis Hc : conj_symmetric ft.
  Lemma opp_diff u v : opp (diff u v) = diff v u.
  Proof. unfold opp, diff; simpl. f_equal; ring. Qed.

  Lemma which_bound p q z : which p q = true -> In z (map ft (if Nat.leb q p then G2_of (rc_g rc) m1 m2 else G1_of (rc_g rc))) ->
    exists i j, (i < m1 * m2)%nat /\ (j < m1 * m2)%nat /\
      Rabs (snd z) < 1 / 10 ^ 10 * Rabs (fst (ft (diff (nthg (rc_g rc) i) (nthg (rc_g rc) j)))).
  Proof.
    intros W Hz. pose proof m2_pos. pose proof m1_pos.
    assert (T : exists w, In w (map ft (if Nat.leb q p then G2_of (rc_g rc) m1 m2 else G1_of (rc_g rc))) /\ Rabs (snd z) < 1 / 10 ^ 10 * Rabs (fst w)).
    { unfold which, t1, t2 in W. destruct (Nat.leb q p); apply tiny_bound; auto. }
    destruct T as (w & Hw & B). apply in_map_iff in Hw. destruct Hw as (g & <- & Hgi).
    apply (In_nth _ _ (0, 0)) in Hgi. destruct Hgi as (k & Hk & E).
    assert (Hk' : (k < m1 * m2)%nat) by (destruct (Nat.leb q p); rewrite ?G2_len, ?G1_len in Hk; auto).
    destruct (split_index k Hk') as (a & s & -> & Ha & Hs).
    destruct (Nat.leb q p).
    - rewrite G2_nth in E by auto. exists (0 * m2 + s)%nat, (a * m2 + 0)%nat. split; [apply lt_prod; lia|]. split; [apply lt_prod; lia|].
      rewrite g_diff by lia. replace (Z.of_nat 0 - Z.of_nat a, Z.of_nat s - Z.of_nat 0)%Z with (- Z.of_nat a, Z.of_nat s)%Z by (f_equal; lia).
      rewrite E. auto.
    - rewrite G1_nth in E by auto. exists (0 * m2 + 0)%nat, (a * m2 + s)%nat. split; [apply lt_prod; lia|]. split; [apply lt_prod; lia|].
      rewrite g_diff by lia. replace (Z.of_nat 0 - Z.of_nat a, Z.of_nat 0 - Z.of_nat s)%Z with (- Z.of_nat a, - Z.of_nat s)%Z by (f_equal; lia).
      rewrite E. auto.
  Qed.
  Lemma upper i j : (i <= j)%nat -> (j < m1 * m2)%nat -> exists s,
    tmat m1 (T1_tbt ft rc) (T2_tbt ft rc) i j = sn s (ft (diff (nthg (rc_g rc) i) (nthg (rc_g rc) j))) /\
    (s = true -> exists i' j', (i' < m1 * m2)%nat /\ (j' < m1 * m2)%nat /\
      Rabs (snd (ft (diff (nthg (rc_g rc) i) (nthg (rc_g rc) j)))) < 1 / 10 ^ 10 * Rabs (fst (ft (diff (nthg (rc_g rc) i') (nthg (rc_g rc) j'))))).
  Proof.
    intros Hij Hj. destruct (split_index i) as (a & p & -> & Ha & Hp); [lia|]. destruct (split_index j Hj) as (b & q & -> & Hb & Hq).
    assert (Hab : (a <= b)%nat).
    { destruct (Nat.le_gt_cases a b); auto. exfalso. assert ((b + 1) * m2 <= a * m2)%nat by (apply Nat.mul_le_mono_r; lia). lia. }
    exists (which p q). split; [apply tmat_entry; auto|]. intros W. apply (which_bound p q _ W). apply in_map.
    rewrite g_diff by lia. destruct (Nat.leb_spec q p) as [L|L].
    - replace (cmb b1 b2 (Z.of_nat a - Z.of_nat b, Z.of_nat p - Z.of_nat q)%Z) with (nth ((b - a) * m2 + (p - q)) (G2_of (rc_g rc) m1 m2) (0, 0)).
      + apply nth_In. rewrite G2_len. apply lt_prod; lia.
      + rewrite G2_nth by lia. f_equal. f_equal; lia.
    - replace (cmb b1 b2 (Z.of_nat a - Z.of_nat b, Z.of_nat p - Z.of_nat q)%Z) with (nth ((b - a) * m2 + (q - p)) (G1_of (rc_g rc)) (0, 0)).
      + apply nth_In. rewrite G1_len. apply lt_prod; lia.
      + rewrite G1_nth by lia. f_equal. f_equal; lia.
  Qed.
  Lemma entry_tbt i j : (i < m1 * m2)%nat -> (j < m1 * m2)%nat -> exists s,
    eps_mat_tbt ft rc i j = sn s (ft (diff (nthg (rc_g rc) i) (nthg (rc_g rc) j))) /\
    eps_mat_tbt ft rc j i = Cconj (eps_mat_tbt ft rc i j) /\
    (s = true -> exists i' j', (i' < m1 * m2)%nat /\ (j' < m1 * m2)%nat /\
      Rabs (snd (ft (diff (nthg (rc_g rc) i) (nthg (rc_g rc) j)))) < 1 / 10 ^ 10 * Rabs (fst (ft (diff (nthg (rc_g rc) i') (nthg (rc_g rc) j'))))).
  Proof.
    intros Hi Hj. unfold eps_mat_tbt. rewrite H1, Nat2Z.id. unfold toeplitz_block.
    set (M := tmat m1 (T1_tbt ft rc) (T2_tbt ft rc)). cbv zeta.
    assert (Z0 : Cconj (RtoC 0) = RtoC 0) by apply Cconj_R.
    destruct (Nat.lt_trichotomy i j) as [L|[L|L]].
    - rewrite (proj2 (Nat.leb_le i j)), (proj2 (Nat.leb_gt j i)), (proj2 (Nat.ltb_lt i j)), (proj2 (Nat.ltb_ge j i)) by lia.
      destruct (upper i j) as (s & E & B); [lia|auto|]. exists s. fold M in E. rewrite Z0, Cplus_0_r, Cplus_0_l. auto.
    - subst j. rewrite Nat.leb_refl, Nat.ltb_irrefl. destruct (upper i i) as (s & E & B); [lia|auto|]. exists s. fold M in E.
      rewrite Z0, Cplus_0_r. split; auto. split; auto. rewrite E, sn_conj, <- Hc, opp_diff. auto.
    - rewrite (proj2 (Nat.leb_gt i j)), (proj2 (Nat.leb_le j i)), (proj2 (Nat.ltb_ge i j)), (proj2 (Nat.ltb_lt j i)) by lia.
      destruct (upper j i) as (s & E & B); [lia|auto|]. exists s. fold M in E. rewrite Z0, Cplus_0_r, Cplus_0_l.
      assert (F : ft (diff (nthg (rc_g rc) i) (nthg (rc_g rc) j)) = Cconj (ft (diff (nthg (rc_g rc) j) (nthg (rc_g rc) i)))) by (rewrite <- Hc, opp_diff; auto).
      split; [rewrite E, sn_conj, F; auto|]. split; [rewrite Cconj_conj; auto|].
      intros Hs. destruct (B Hs) as (i' & j' & A1 & A2 & A3). exists i', j'. split; auto. split; auto. rewrite F. cbn [Cconj fst snd]. rewrite Rabs_Ropp. auto.
  Qed.
End TBT.

Lemma tbt_matrix args L gmax ft : lattice_init args = Ok L -> independent (lt_a1 L) (lt_a2 L) -> 0 <= gmax ->
  conj_symmetric ft ->
  let rc := recip_tbt L gmax in
  let gs := rc_g rc in
  let n := List.length gs in
  let A := eps_mat_tbt ft rc in
  hermitian n A /\
  forall i j gi gj, nth_error gs i = Some gi -> nth_error gs j = Some gj ->
    A i j = ft (diff gi gj) \/
    (A i j = RtoC (fst (ft (diff gi gj))) /\
     exists g g', In g gs /\ In g' gs /\ Rabs (snd (ft (diff gi gj))) < 1 / 10 ^ 10 * Rabs (fst (ft (diff g g')))).
Proof.
  intros HL Ha Hg Hc. cbv zeta. pose proof (indep_recip _ _ HL Ha) as Hb.
  destruct (recip_tbt_form L gmax Hg Hb) as (n1 & n2 & _ & _ & G & E1 & E2 & _).
  pose proof (g_len _ _ _ _ _ G) as GL.
  split.
  - intros i j Hi Hj. rewrite GL in *. destruct (entry_tbt _ _ n1 n2 ft _ G E1 E2 Hc j i Hj Hi) as (s & _ & E & _). auto.
  - intros i j gi gj Ei Ej. assert (Hi : (i < List.length (rc_g (recip_tbt L gmax)))%nat) by (apply nth_error_Some; congruence).
    assert (Hj : (j < List.length (rc_g (recip_tbt L gmax)))%nat) by (apply nth_error_Some; congruence).
    assert (Gi : nthg (rc_g (recip_tbt L gmax)) i = gi) by (apply nth_error_nth; auto).
    assert (Gj : nthg (rc_g (recip_tbt L gmax)) j = gj) by (apply nth_error_nth; auto).
    rewrite GL in Hi, Hj. destruct (entry_tbt _ _ n1 n2 ft _ G E1 E2 Hc i j Hi Hj) as (s & E & _ & B).
    rewrite Gi, Gj in E, B. destruct s; [right|left; auto]. split; auto. destruct (B eq_refl) as (i' & j' & A1 & A2 & A3).
    exists (nthg (rc_g (recip_tbt L gmax)) i'), (nthg (rc_g (recip_tbt L gmax)) j').
    split; [apply nth_In; rewrite GL; auto|]. split; [apply nth_In; rewrite GL; auto|]. auto.
Qed.
