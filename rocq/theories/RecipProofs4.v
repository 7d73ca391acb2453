(** The permittivity matrix for the circular truncation (C28) . *)
From Coq Require Import Sorted.
From Verif Require Import Py LatticeModel LatticeSpec LatticeProofs CBase PhcModel RecipModel RecipSpec RecipProofs RecipProofs2 RecipProofs3.
Open Scope R_scope.
Open Scope list_scope.

Definition zlt (u v : Z * Z) : Prop := (fst u < fst v \/ (fst u = fst v /\ snd u < snd v))%Z.
Lemma zz_ltb_spec u v : zz_ltb u v = true <-> zlt u v.
Proof.
  unfold zz_ltb, zlt. rewrite orb_true_iff, andb_true_iff, !Z.ltb_lt, Z.eqb_eq. tauto.
Qed.
Lemma zz_eqb_spec u v : zz_eqb u v = true <-> u = v.
Proof.
  unfold zz_eqb. rewrite andb_true_iff, !Z.eqb_eq. destruct u, v; simpl. split; [intros [-> ->]; auto|intros E; inversion E; auto].
Qed.
Lemma zlt_irr u : ~ zlt u u. Proof. unfold zlt. lia. Qed.
Lemma zlt_trans u v w : zlt u v -> zlt v w -> zlt u w. Proof. unfold zlt. lia. Qed.
Lemma zlt_tri u v : u = v \/ zlt u v \/ zlt v u.
Proof. unfold zlt. destruct u as [a b], v as [c d]; simpl. destruct (Z.lt_trichotomy a c) as [|[->|]]; [tauto| |tauto].
  destruct (Z.lt_trichotomy b d) as [|[->|]]; auto; right; lia. Qed.

Definition srt := StronglySorted zlt.
Lemma ins_in x l y : In y (ins_unique x l) <-> y = x \/ In y l.
Proof.
  induction l as [|z l IH]; cbn [ins_unique]; [simpl; intuition|].
  destruct (zz_eqb x z) eqn:E; [apply zz_eqb_spec in E; subst; simpl; intuition|].
  destruct (zz_ltb x z); simpl; [intuition|]. rewrite IH. intuition.
Qed.
Lemma ins_srt x l : srt l -> srt (ins_unique x l).
Proof.
  unfold srt. induction l as [|z l IH]; intros H; cbn [ins_unique]; [repeat constructor|].
  inversion H as [|? ? H1 H2]; subst.
  destruct (zz_eqb x z) eqn:E; auto. destruct (zz_ltb x z) eqn:F.
  - apply zz_ltb_spec in F. constructor; auto. constructor; auto. rewrite Forall_forall in *. intros y Hy. eapply zlt_trans; eauto.
  - constructor; auto. rewrite Forall_forall in *. intros y Hy. apply ins_in in Hy. destruct Hy as [->|Hy]; auto.
    destruct (zlt_tri x z) as [Q|[Q|Q]]; auto; exfalso.
    + apply zz_eqb_spec in Q. congruence. + apply zz_ltb_spec in Q. congruence.
Qed.
Lemma unique_in l y : In y (np_unique l) <-> In y l.
Proof. induction l as [|x l IH]; [tauto|]. cbn [np_unique fold_right]. rewrite ins_in. fold (np_unique l). rewrite IH. simpl. intuition. Qed.
Lemma unique_srt l : srt (np_unique l).
Proof. induction l; [constructor|]. cbn [np_unique fold_right]. apply ins_srt. auto. Qed.
Lemma srt_nodup l : srt l -> NoDup l.
Proof.
  induction 1; constructor; auto. intros Hi. rewrite Forall_forall in H0. apply (zlt_irr a). auto.
Qed.
Lemma srt_eq l : forall m, srt l -> srt m -> (forall x, In x l <-> In x m) -> l = m.
Proof.
  induction l as [|x l IH]; intros [|y m] Hl Hm E; auto.
  - exfalso. apply (E y). left; auto.
  - exfalso. apply (E x). left; auto.
  - inversion Hl as [|? ? L1 L2]; inversion Hm as [|? ? M1 M2]; subst. rewrite Forall_forall in *.
    assert (x = y).
    { destruct (proj1 (E x) (or_introl eq_refl)) as [|Hx]; auto. destruct (proj2 (E y) (or_introl eq_refl)) as [|Hy]; auto.
      exfalso. apply (zlt_irr x). eapply zlt_trans; [apply L2; exact Hy|apply M2; exact Hx]. }
    subst y. f_equal. apply IH; auto. intros z. split; intros Hz.
    + destruct (proj1 (E z) (or_intror Hz)) as [<-|]; auto. exfalso. apply (zlt_irr x). auto.
    + destruct (proj2 (E z) (or_intror Hz)) as [<-|]; auto. exfalso. apply (zlt_irr x). auto.
Qed.
Lemma srt_app l m : srt l -> srt m -> (forall x y, In x l -> In y m -> zlt x y) -> srt (l ++ m).
Proof.
  unfold srt. induction 1; intros Hm H1; simpl; auto. constructor; [apply IHStronglySorted; auto; intros; apply H1; simpl; auto|].
  rewrite Forall_forall in *. intros y Hy. apply in_app_iff in Hy. destruct Hy; auto. apply H1; simpl; auto.
Qed.
Lemma zlt_opp u v : zlt u v -> zlt (zopp v) (zopp u).
Proof. unfold zlt, zopp; simpl. lia. Qed.
Lemma rev_opp_srt l : srt l -> srt (map zopp (rev l)).
Proof.
  unfold srt. induction 1; simpl; [constructor|]. rewrite map_app. apply srt_app; auto; [repeat constructor|].
  intros x y Hx Hy. destruct Hy as [<-|[]]. apply in_map_iff in Hx. destruct Hx as (w & <- & Hw). apply in_rev in Hw.
  apply zlt_opp. rewrite Forall_forall in H0. auto.
Qed.
Lemma zopp_zopp u : zopp (zopp u) = u. Proof. destruct u; unfold zopp; simpl. f_equal; lia. Qed.
Lemma pos_of_nth x l d : In x l -> (pos_of x l < List.length l)%nat /\ nth (pos_of x l) l d = x.
Proof.
  induction l as [|y l IH]; intros H; [destruct H|]. cbn [pos_of]. destruct (zz_eqb x y) eqn:E.
  - apply zz_eqb_spec in E. subst. simpl. split; [lia|auto].
  - destruct H as [H|H]; [exfalso; symmetry in H; apply zz_eqb_spec in H; congruence|]. destruct (IH H). simpl. split; [lia|auto].
Qed.

Lemma nth_grid {A} (sub : A -> A -> A) (l m : list A) i j d d' : (i < List.length m)%nat -> (j < List.length l)%nat ->
  nth (i * List.length l + j) (flat_map (fun xi => map (fun xj => sub xj xi) l) m) d' = sub (nth j l d) (nth i m d).
Proof.
  revert i. induction m as [|x m IH]; intros i Hi Hj; [simpl in Hi; lia|]. cbn [flat_map]. destruct i.
  - rewrite app_nth1 by (rewrite map_length; simpl; lia). simpl. rewrite (nth_map_lt _ _ _ d) by auto. auto.
  - rewrite app_nth2 by (rewrite map_length; simpl; lia). rewrite map_length. simpl in Hi.
    replace (S i * List.length l + j - List.length l)%nat with (i * List.length l + j)%nat by lia. rewrite IH by lia. auto.
Qed.
Lemma grid_len {A} (sub : A -> A -> A) (l m : list A) : List.length (flat_map (fun xi => map (fun xj => sub xj xi) l) m) = (List.length m * List.length l)%nat.
Proof. induction m; auto. cbn [flat_map]. rewrite app_length, map_length, IHm. simpl. lia. Qed.

(** a sorted list closed under negation and containing 0 *)
Section SYM.
  Context (u : list (Z * Z)).
  Hypothesis Hs : srt u.
  Hypothesis Hn : forall x, In x u -> In (zopp x) u.
  Hypothesis H0 : In (0, 0)%Z u.
  Let n := List.length u.
  Lemma u_sym : u = map zopp (rev u).
  Proof.
    apply srt_eq; auto; [apply rev_opp_srt; auto|]. intros x. rewrite in_map_iff. split.
    - intros H. exists (zopp x). rewrite zopp_zopp. split; auto. apply -> in_rev. auto.
    - intros (y & <- & H). apply in_rev in H. auto.
  Qed.
  Lemma u_nth k : (k < n)%nat -> nth k u (0, 0)%Z = zopp (nth (n - 1 - k) u (0, 0)%Z).
  Proof.
    intros Hk. rewrite u_sym at 1. rewrite (nth_map_lt _ _ _ (0, 0)%Z) by (rewrite rev_length; auto).
    rewrite rev_nth by auto. do 2 f_equal. unfold n. lia.
  Qed.
  Lemma u_odd : exists m, n = (2 * m + 1)%nat /\ nth m u (0, 0)%Z = (0, 0)%Z.
  Proof.
    destruct (In_nth _ _ (0, 0)%Z H0) as (k & Hk & E). fold n in Hk. exists k. split; auto.
    assert (E2 : nth (n - 1 - k) u (0, 0)%Z = (0, 0)%Z).
    { rewrite <- (zopp_zopp (nth (n - 1 - k) u (0, 0)%Z)), <- u_nth, E by auto. auto. }
    pose proof (srt_nodup _ Hs) as ND. rewrite (NoDup_nth u (0, 0)%Z) in ND.
    assert (k = n - 1 - k)%nat by (apply ND; [auto|fold n; lia|congruence]). lia.
  Qed.
  Lemma removelast_nth {A} (l : list A) d k : (k < List.length l - 1)%nat -> nth k (removelast l) d = nth k l d.
  Proof.
    revert k. induction l as [|x l IH]; intros k Hk; auto. destruct l as [|y l]; [simpl in Hk; lia|].
    change (removelast (x :: y :: l)) with (x :: removelast (y :: l)). destruct k; auto. cbn [nth]. rewrite IH; auto. simpl in *. lia.
  Qed.
  Lemma removelast_len {A} (l : list A) : List.length (removelast l) = (List.length l - 1)%nat.
  Proof. induction l as [|x [|y l] IH]; auto. change (removelast (x :: y :: l)) with (x :: removelast (y :: l)). cbn [List.length]. rewrite IH. simpl. lia. Qed.
  Lemma full_nth (F : Z * Z -> C) k : (forall x, F (zopp x) = Cconj (F x)) -> (k < n)%nat ->
    let pos := map F (slice 0 ((n - 1) / 2 + 1) u) in
    nth k (pos ++ map Cconj (rev (removelast pos))) (RtoC 0) = F (nth k u (0, 0)%Z).
  Proof.
    intros HF Hk. cbv zeta. destruct u_odd as (m & E & _).
    replace ((n - 1) / 2 + 1)%nat with (S m) by (rewrite E; replace (2 * m + 1 - 1)%nat with (m * 2)%nat by lia; rewrite Nat.div_mul by lia; lia).
    assert (SL : List.length (slice 0 (S m) u) = S m).
    { unfold slice. rewrite firstn_length. simpl skipn. fold n. lia. }
    assert (SN : forall i, (i <= m)%nat -> nth i (map F (slice 0 (S m) u)) (RtoC 0) = F (nth i u (0, 0)%Z)).
    { intros i Hi. rewrite (nth_map_lt _ _ _ (0, 0)%Z) by lia. rewrite nth_slice by lia. auto. }
    set (pos := map F (slice 0 (S m) u)) in *. assert (PL : List.length pos = S m) by (unfold pos; rewrite map_length; auto).
    destruct (Nat.le_gt_cases k m) as [L|L].
    - rewrite app_nth1 by lia. apply SN. auto.
    - rewrite app_nth2 by lia. rewrite PL.
      assert (RL : List.length (removelast pos) = m) by (rewrite removelast_len; lia).
      rewrite (nth_map_lt _ _ _ (RtoC 0)) by (rewrite rev_length; lia).
      rewrite rev_nth by lia. rewrite RL. rewrite removelast_nth by lia. rewrite SN by lia.
      rewrite <- HF. f_equal. rewrite (u_nth k) by auto. do 2 f_equal. lia.
  Qed.
End SYM.

Section ABS.
  Context (L : lattice) (ft : R * R -> C) (rc : recip) (sel : list (Z * Z)).
  Hypothesis Hg : rc_g rc = map (cmb (lt_b1 L) (lt_b2 L)) sel.
  Hypothesis Hi : combine (rc_i1 rc) (rc_i2 rc) = sel.
  Hypothesis Hc : conj_symmetric ft.
  Let n := List.length sel.
  Lemma abs_entry i j : (i < n)%nat -> (j < n)%nat ->
    nth (i * n + j) (T1_abs L ft rc) (RtoC 0) = ft (diff (nthg (rc_g rc) j) (nthg (rc_g rc) i)).
  Proof.
    intros H1 H2. unfold T1_abs, T1_unique, G1_unique. rewrite Hi. set (grid := grid_diff zz_sub sel). set (u := np_unique grid).
    assert (GL : List.length grid = (n * n)%nat) by apply grid_len.
    assert (LT : (i * n + j < n * n)%nat).
    { assert ((i + 1) * n <= n * n)%nat by (apply Nat.mul_le_mono_r; lia). lia. }
    assert (GN : nth (i * n + j) grid (0, 0)%Z = zz_sub (nth j sel (0, 0)%Z) (nth i sel (0, 0)%Z)).
    { unfold grid, grid_diff, n. apply nth_grid; auto. }
    set (x := zz_sub (nth j sel (0, 0)%Z) (nth i sel (0, 0)%Z)) in *.
    assert (Hx : In x u) by (apply unique_in; rewrite <- GN; apply nth_In; lia).
    assert (INV : forall w, In w grid <-> exists a b, (a < n)%nat /\ (b < n)%nat /\ w = zz_sub (nth b sel (0, 0)%Z) (nth a sel (0, 0)%Z)).
    { intros w. unfold grid, grid_diff. rewrite in_flat_map. split.
      - intros (y & Hy & Hw). apply in_map_iff in Hw. destruct Hw as (z & <- & Hz).
        destruct (In_nth _ _ (0, 0)%Z Hy) as (a & Ha & <-). destruct (In_nth _ _ (0, 0)%Z Hz) as (b & Hb & <-). exists a, b. auto.
      - intros (a & b & Ha & Hb & ->). exists (nth a sel (0, 0)%Z). split; [apply nth_In; auto|]. apply in_map_iff.
        exists (nth b sel (0, 0)%Z). split; auto. apply nth_In; auto. }
    assert (Hs : srt u) by apply unique_srt.
    assert (Hn : forall w, In w u -> In (zopp w) u).
    { intros w Hw. apply unique_in, INV in Hw. destruct Hw as (a & b & Ha & Hb & ->). apply unique_in, INV. exists b, a. split; auto. split; auto.
      unfold zz_sub, zopp; simpl. f_equal; lia. }
    assert (H0 : In (0, 0)%Z u).
    { apply unique_in, INV. exists i, i. split; auto. split; auto. unfold zz_sub. f_equal; lia. }
    rewrite (nth_map_lt _ _ _ 0%nat) by (rewrite map_length; lia). rewrite (nth_map_lt _ _ _ (0, 0)%Z) by lia. rewrite GN.
    destruct (pos_of_nth x u (0, 0)%Z Hx) as [P1 P2].
    rewrite gvec_cmb, combine_split.
    assert (SM : forall e, slice 0 e (map (cmb (lt_b1 L) (lt_b2 L)) u) = map (cmb (lt_b1 L) (lt_b2 L)) (slice 0 e u)) by (intros; unfold slice; simpl skipn; apply firstn_map).
    rewrite SM, map_map.
    pose proof (full_nth u Hs Hn H0 (fun y => ft (cmb (lt_b1 L) (lt_b2 L) y)) (pos_of x u)) as FN. cbv zeta in FN.
    rewrite FN; auto.
    - rewrite P2. f_equal. rewrite Hg. unfold nthg. rewrite !(nth_map_lt _ _ _ (0, 0)%Z) by auto.
      unfold x. symmetry. apply cmb_diff.
    - intros y. rewrite cmb_opp. apply Hc.
  Qed.
  Lemma abs_T1_len : List.length (T1_abs L ft rc) = (n * n)%nat.
  Proof. unfold T1_abs. rewrite Hi, !map_length. apply grid_len. Qed.
  Lemma abs_g_len : List.length (rc_g rc) = n. Proof. rewrite Hg, map_length. auto. Qed.
End ABS.

Lemma abs_matrix args L gmax fuel rc ft : lattice_init args = Ok L -> independent (lt_a1 L) (lt_a2 L) -> 0 <= gmax ->
  conj_symmetric ft -> recip_abs fuel L gmax = Some (Ok rc) ->
  let gs := rc_g rc in
  let A := eps_mat_abs L ft rc in
  hermitian (List.length gs) A /\
  forall i j gi gj, nth_error gs i = Some gi -> nth_error gs j = Some gj -> A i j = ft (diff gj gi).
Proof.
  intros HL Ha Hg Hc HR. cbv zeta. pose proof (indep_recip _ _ HL Ha) as Hb.
  destruct (recip_abs_form L gmax Hg Hb) as (n1 & n2 & k & _ & _ & _ & _ & _ & F & _).
  destruct (F _ _ HR) as (rc' & E & G & I & _). injection E as E. subst rc'.
  pose proof (abs_g_len _ _ _ G) as GL.
  assert (EN : forall i j, (i < List.length (rc_g rc))%nat -> (j < List.length (rc_g rc))%nat ->
     eps_mat_abs L ft rc i j = ft (diff (nthg (rc_g rc) j) (nthg (rc_g rc) i))).
  { intros i j H1 H2. unfold eps_mat_abs. rewrite GL in *. apply (abs_entry L ft rc _ G I Hc i j); auto. }
  split.
  - intros i j H1 H2. rewrite !EN by auto. rewrite <- Hc, opp_diff. auto.
  - intros i j gi gj Ei Ej. assert (Hi : (i < List.length (rc_g rc))%nat) by (apply nth_error_Some; congruence).
    assert (Hj : (j < List.length (rc_g rc))%nat) by (apply nth_error_Some; congruence).
    rewrite EN by auto. unfold nthg. rewrite (nth_error_nth _ _ _ Ei), (nth_error_nth _ _ _ Ej). auto.
Qed.
