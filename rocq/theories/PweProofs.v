(** Positive matrices and the lowest bands (C49). *)
From Coq Require Import Permutation List.
From Verif Require Import Py CBase LatticeModel PhcModel RecipModel RecipSpec MatElModel FieldsModel RunModel RunSpec RunProofs PweSpec PweModel.
Open Scope R_scope.
Open Scope list_scope.

(** ** sums *)
Lemma fst_csum_nonneg n f : (forall i, (i < n)%nat -> 0 <= fst (f i)) -> 0 <= fst (csum n f).
Proof.
  induction n; intros H; [simpl; lra|]. cbn [csum]. rewrite (surjective_pairing (csum n f)).
  assert (0 <= fst (csum n f)) by (apply IHn; intros; apply H; lia). specialize (H n ltac:(lia)). simpl. lra.
Qed.
Lemma fst_csum_ge n f k : (k < n)%nat -> (forall i, (i < n)%nat -> 0 <= fst (f i)) -> fst (f k) <= fst (csum n f).
Proof.
  induction n; intros Hk H; [lia|]. cbn [csum].
  change (fst (csum n f + f n)%C) with (fst (csum n f) + fst (f n)).
  destruct (Nat.eq_dec k n) as [->|Hne].
  - assert (0 <= fst (csum n f)) by (apply fst_csum_nonneg; intros; apply H; lia). lra.
  - assert (fst (f k) <= fst (csum n f)) by (apply IHn; [lia|intros; apply H; lia]). specialize (H n ltac:(lia)). lra.
Qed.
(** bounded entries that add up to the bound are all equal to it *)
Lemma fst_csum_tight n f : (forall i, (i < n)%nat -> fst (f i) <= 1) -> fst (csum n f) = INR n ->
  forall i, (i < n)%nat -> fst (f i) = 1.
Proof.
  assert (B : forall n f, (forall i, (i < n)%nat -> fst (f i) <= 1) -> fst (csum n f) <= INR n).
  { clear. induction n; intros f H; [simpl; lra|]. cbn [csum]. rewrite S_INR.
    change (fst (csum n f + f n)%C) with (fst (csum n f) + fst (f n)).
    specialize (IHn f (fun i Hi => H i ltac:(lia))). specialize (H n ltac:(lia)). lra. }
  induction n; intros H E i Hi; [lia|]. cbn [csum] in E. rewrite S_INR in E.
  change (fst (csum n f + f n)%C) with (fst (csum n f) + fst (f n)) in E.
  pose proof (B n f (fun i Hi => H i ltac:(lia))) as B1. pose proof (H n ltac:(lia)) as B2.
  destruct (Nat.eq_dec i n) as [->|Hne]; [lra|]. apply IHn; [intros; apply H; lia|lra|lia].
Qed.

(** ** inverses *)
Lemma inverse_herm n A B : is_inverse n A B -> herm_on n A -> herm_on n B.
Proof.
  intros [I1 I2] HA.
  assert (L : forall i j, (i < n)%nat -> (j < n)%nat -> mmul n (madj B) A i j = mid i j).
  { intros i j Hi Hj. rewrite (mmul_ext n (madj B) (madj B) A (madj A)); auto.
    - rewrite <- madj_mmul. unfold madj. rewrite I1 by auto. unfold mid. rewrite Nat.eqb_sym. destruct (Nat.eqb i j); apply Cconj_R.
    - intros k Hk. unfold madj. apply HA; auto. }
  intros i j Hi Hj. symmetry. change (Cconj (B j i)) with (madj B i j).
  rewrite <- (mmul_id_r n (madj B)) by auto.
  rewrite (mmul_ext n (madj B) (madj B) mid (mmul n A B)) by (auto; intros; symmetry; apply I1; auto).
  rewrite <- mmul_assoc. rewrite (mmul_ext n (mmul n (madj B) A) mid B B) by auto. apply mmul_id_l. auto.
Qed.
Lemma inverse_psd n A B : is_inverse n A B -> herm_on n A -> psd n A -> psd n B.
Proof.
  intros [I1 I2] HA HP v. specialize (HP (mvec n B v)).
  assert (E : cdot n v (mvec n B v) = Cconj (cdot n (mvec n B v) (mvec n A (mvec n B v)))).
  { unfold cdot. rewrite csum_conj. apply csum_ext. intros i Hi. rewrite Cconj_mult, Cconj_conj.
    rewrite <- mvec_mmul. unfold mvec at 3. rewrite (csum_ext n _ (fun k => Cmult (mid i k) (v k))) by (intros; rewrite I1; auto).
    change (csum n (fun k => Cmult (mid i k) (v k))) with (mvec n mid v i). rewrite mvec_id by auto. ring. }
  rewrite E. simpl. exact HP.
Qed.

(** ** the two matrices *)
Section Mats.
Variables (s : pwe) (k : R * R).
Let n := List.length (rc_g (pw_rc s)).
Lemma te_herm B : herm_on n B -> herm_on n (mat_te s k B).
Proof.
  intros H i j Hi Hj. unfold mat_te. cbv zeta. rewrite (H i j Hi Hj), Cconj_mult, Cconj_R.
  f_equal. f_equal. ring.
Qed.
Lemma tm_herm B : herm_on n B -> herm_on n (mat_tm s k B).
Proof.
  intros H i j Hi Hj. unfold mat_tm. cbv zeta. rewrite (H i j Hi Hj), Cconj_mult, Cconj_R.
  f_equal. f_equal. ring.
Qed.
(** quadratic form of a matrix scaled by d_i d_j *)
Lemma quad_scaled m (d : nat -> R) B v :
  cdot m v (mvec m (fun i j => Cmult (RtoC (d i * d j)) (B i j)) v) =
  cdot m (fun i => Cmult (RtoC (d i)) (v i)) (mvec m B (fun i => Cmult (RtoC (d i)) (v i))).
Proof.
  unfold cdot, mvec. apply csum_ext. intros i _. rewrite Cconj_mult, Cconj_R.
  rewrite <- !csum_scal_l. apply csum_ext. intros j _. rewrite RtoC_mult. ring.
Qed.
Lemma te_psd B : psd n B -> psd n (mat_te s k B).
Proof.
  intros H v.
  set (x i := fst (pwe_kg s k i)). set (y i := snd (pwe_kg s k i)).
  assert (E : cdot n v (mvec n (mat_te s k B) v) =
    Cplus (cdot n v (mvec n (fun i j => Cmult (RtoC (x i * x j)) (B i j)) v)) (cdot n v (mvec n (fun i j => Cmult (RtoC (y i * y j)) (B i j)) v))).
  { unfold cdot, mvec. rewrite <- csum_plus. apply csum_ext. intros i _. rewrite <- Cmult_plus_distr_l. f_equal.
    rewrite <- csum_plus. apply csum_ext. intros j _. unfold mat_te, x, y. cbv zeta. rewrite RtoC_plus. ring. }
  rewrite E, !quad_scaled. pose proof (H (fun i => Cmult (RtoC (x i)) (v i))). pose proof (H (fun i => Cmult (RtoC (y i)) (v i))).
  match goal with |- 0 <= fst (Cplus ?a ?b) => change (fst (Cplus a b)) with (fst a + fst b) end. lra.
Qed.
Lemma tm_psd B : psd n B -> psd n (mat_tm s k B).
Proof.
  intros H v. set (d i := sqrt (fst (pwe_kg s k i) * fst (pwe_kg s k i) + snd (pwe_kg s k i) * snd (pwe_kg s k i))).
  change (mat_tm s k B) with (fun i j => Cmult (RtoC (d i * d j)) (B i j)). rewrite quad_scaled. apply H.
Qed.
End Mats.

(** ** eigenvalues *)
Lemma psd_eigs n A ls V : psd n A -> eigensystem n A ls V -> forall l, In l ls -> 0 <= l.
Proof.
  intros HP (H1 & H2 & H3) l Hl. apply (In_nth _ _ 0) in Hl. destruct Hl as (j & Hj & <-). rewrite H1 in Hj.
  specialize (HP (fun i => V i j)). unfold cdot in HP.
  rewrite (csum_ext n _ (fun i => Cmult (RtoC (nth j ls 0)) (Cmult (Cconj (V i j)) (V i j)))) in HP.
  2:{ intros i Hi. rewrite H3 by auto. ring. }
  rewrite csum_scal_l, H2, Nat.eqb_refl in HP by auto. simpl in HP. lra.
Qed.

Lemma perm_system n A ls V p : eigensystem n A ls V -> Permutation p (seq 0 n) ->
  eigensystem n A (map (fun i => nth i ls 0) p) (fun i j => V i (nth j p 0%nat)).
Proof.
  intros (H1 & H2 & H3) Hp. pose proof (Permutation_length Hp) as Lp. rewrite seq_length in Lp.
  assert (In_p : forall j, (j < n)%nat -> (nth j p 0 < n)%nat).
  { intros j Hj. assert (I : In (nth j p 0%nat) p) by (apply nth_In; lia). apply (Permutation_in _ Hp) in I. apply in_seq in I. lia. }
  split; [rewrite map_length; auto|]. split.
  - intros j k Hj Hk. rewrite H2 by auto. 
    destruct (Nat.eqb_spec j k) as [->|Hne]; [rewrite Nat.eqb_refl; auto|].
    destruct (Nat.eqb_spec (nth j p 0%nat) (nth k p 0%nat)) as [E|]; auto. exfalso. apply Hne.
    assert (ND : NoDup p) by (apply (Permutation_NoDup (Permutation_sym Hp)), seq_NoDup).
    apply (proj1 (NoDup_nth p 0%nat) ND); auto; lia.
  - intros i j Hi Hj. rewrite H3 by auto. f_equal. f_equal.
    rewrite (nth_indep (map (fun i => nth i ls 0) p) 0 (nth 0 ls 0)) by (rewrite map_length; lia).
    rewrite (map_nth (fun i => nth i ls 0)). auto.
Qed.
(** ascending frequencies belong to ascending eigenvalues *)
Lemma asc_sqrt l : (forall x, In x l -> 0 <= x) -> ascending (map freq_of l) -> ascending l.
Proof.
  intros H Ha i j [Hij Hj]. specialize (Ha i j). rewrite map_length in Ha. specialize (Ha (conj Hij Hj)).
  rewrite !(nth_indep (map freq_of l) 0 (freq_of 0)) in Ha by (rewrite map_length; lia). rewrite !map_nth in Ha.
  assert (Pi : 0 <= nth i l 0) by (apply H, nth_In; lia). assert (Pj : 0 <= nth j l 0) by (apply H, nth_In; lia).
  unfold freq_of in Ha. rewrite !Rabs_pos_eq in Ha by auto.
  apply sqrt_le_0; auto. pose proof PI_RGT_0.
  apply Rmult_le_reg_r with (/ (2 * PI)); [apply Rinv_0_lt_compat; lra|exact Ha].
Qed.

Section Solve.
Variable argsort : list R -> list nat.
Variable eigh : nat -> cmat -> list R * cmat.
Hypothesis Hs : sorts argsort.
Hypothesis He : diagonalises eigh.

Lemma solve_lowest n m mat : herm_on n mat -> psd n mat ->
  exists fs vs, pwe_solve argsort eigh n m mat = Ok (fs, vs) /\ lowest n m mat fs vs.
Proof.
  intros Hh Hp. unfold pwe_solve.
  pose proof (He n (plus_eye (Arr n n mat)) (plus_eye_herm (Arr n n mat) n Hh)) as E0.
  destruct (eigh n (plus_eye (Arr n n mat))) as [ls0 V0] eqn:EE. cbn [fst snd] in E0.
  apply shift_system in E0. cbn [ent] in E0.
  set (ls1 := map (fun l => l - 1) ls0) in *.
  assert (L1 : List.length ls1 = n) by apply E0.
  assert (L0 : List.length ls0 = n) by (unfold ls1 in L1; rewrite map_length in L1; auto).
  assert (F : forall j, (j < n)%nat -> nth j (to_freqs ls0) 0 = freq_of (nth j ls1 0)) by (intros; apply to_freqs_nth; lia).
  set (p := argsort (to_freqs ls0)).
  destruct (Hs (to_freqs ls0)) as [P1 P2]. fold p in P1, P2. rewrite to_freqs_len, L0 in P1.
  assert (In_p : forall j, In j p -> (j < n)%nat) by (intros j I; apply (Permutation_in _ P1) in I; apply in_seq in I; lia).
  pose proof (Permutation_length P1) as Lp. rewrite seq_length in Lp.
  pose proof (psd_eigs _ _ _ _ Hp E0) as N0.
  assert (Sub : forall j, In j (firstn m p) -> In j p).
  { intros j I. rewrite <- (firstn_skipn m p). apply in_or_app. auto. }
  rewrite (take_ok 0) by (intros i Hi; rewrite to_freqs_len, L0; apply In_p, Sub, Hi). cbn [bind].
  eexists. eexists. split; [reflexivity|].
  exists (map (fun i => nth i ls1 0) p), (fun i j => V0 i (nth j p 0%nat)).
  assert (N1 : forall l, In l (map (fun i => nth i ls1 0) p) -> 0 <= l).
  { intros l I. apply in_map_iff in I. destruct I as (j & <- & I). apply N0, nth_In. rewrite L1. auto. }
  split; [apply perm_system; auto|]. split.
  - apply asc_sqrt; auto. rewrite map_map. 
    rewrite (map_ext_in (fun i => freq_of (nth i ls1 0)) (fun i => nth i (to_freqs ls0) 0)) by (intros a I; rewrite F; auto). exact P2.
  - split; [exact N1|]. split.
    + rewrite firstn_map, map_map. apply map_ext_in. intros j I. apply Sub, In_p in I. rewrite F by auto. unfold freq_of.
      rewrite Rabs_pos_eq; auto. apply N0, nth_In. lia.
    + unfold columns. split; [rewrite map_length, firstn_length; lia|].
      intros b Hb. assert (Lf : List.length (firstn m p) = Nat.min m n) by (rewrite firstn_length; lia).
      rewrite (nth_indep _ (0%nat, fun _ => RtoC 0) (n, fun i => V0 i 0%nat)) by (rewrite map_length; lia).
      rewrite (map_nth (fun j => (n, fun i => V0 i j))). cbn [fst snd]. split; auto.
      intros i Hi. f_equal. rewrite <- (firstn_skipn m p) at 2. rewrite app_nth1; auto. lia.
Qed.
End Solve.

(** ** diagonal matrices *)
Lemma rows_unit n V : (forall j k, (j < n)%nat -> (k < n)%nat ->
     csum n (fun i => (Cconj (V i j) * V i k)%C) = if Nat.eqb j k then RtoC 1 else RtoC 0) ->
  forall i, (i < n)%nat -> csum n (fun j => (Cconj (V i j) * V i j)%C) = RtoC 1.
Proof.
  intros H. set (P := mmul n V (madj V)).
  assert (PP : forall i, (i < n)%nat -> mmul n P P i i = P i i).
  { intros i Hi. unfold P at 1. rewrite mmul_assoc. unfold P at 2.
    apply (mmul_ext n V V (mmul n (madj V) P) (madj V)); auto. intros j Hj. unfold P.
    rewrite <- mmul_assoc. rewrite (mmul_ext n (mmul n (madj V) V) mid (madj V) (madj V)); auto; [apply mmul_id_l; auto|].
    intros l Hl. unfold mmul, madj, mid. apply H; auto. }
  assert (Pherm : forall i j, P j i = Cconj (P i j)).
  { intros i j. unfold P, mmul, madj. rewrite csum_conj. apply csum_ext. intros. rewrite Cconj_mult, Cconj_conj. ring. }
  set (S i := csum n (fun j => (Cconj (V i j) * V i j)%C)).
  assert (SP : forall i, S i = P i i).
  { intros i. unfold S, P, mmul, madj. apply csum_ext. intros. ring. }
  assert (Real : forall i, S i = RtoC (fst (S i))).
  { intros i. apply Ceq; [reflexivity|]. simpl. apply (proj1 (is_real_iff _)). unfold is_real, S. rewrite csum_conj. apply csum_ext. intros.
    rewrite Cconj_mult, Cconj_conj. ring. }
  assert (Le : forall i, (i < n)%nat -> fst (S i) <= 1).
  { intros i Hi. pose proof (PP i Hi) as E. rewrite <- SP in E.
    assert (G : fst (S i) * fst (S i) <= fst (S i)).
    { rewrite <- E at 3. unfold mmul.
      assert (G0 : fst (Cmult (P i i) (P i i)) <= fst (csum n (fun j => Cmult (P i j) (P j i)))).
      { apply (fst_csum_ge n (fun j => Cmult (P i j) (P j i)) i); auto. intros j _. rewrite (Pherm i j), Cconj_mod. simpl. nra. }
      rewrite <- SP, (Real i) in G0. simpl in G0. lra. }
    destruct (Rle_dec (fst (S i)) 1); auto. nra. }
  assert (Tr : fst (csum n S) = INR n).
  { unfold S. rewrite csum_swap. rewrite (csum_ext n _ (fun _ => RtoC 1)) by (intros j Hj; rewrite H, Nat.eqb_refl; auto).
    rewrite csum_const. simpl. ring. }
  intros i Hi. change (S i = RtoC 1). rewrite Real. f_equal. apply (fst_csum_tight n S); auto.
Qed.

Definition ind (x y : R) : C := if Req_EM_T x y then RtoC 1 else RtoC 0.
Lemma count_sum (l : list R) x : csum (List.length l) (fun i => ind (nth i l 0) x) = RtoC (INR (count_occ Req_EM_T l x)).
Proof.
  induction l as [|y l IH]; [reflexivity|]. cbn [List.length]. rewrite csum_first. cbn [nth]. rewrite IH. unfold ind.
  destruct (Req_EM_T y x) as [E|E].
  - rewrite count_occ_cons_eq, S_INR, RtoC_plus by auto. ring.
  - rewrite count_occ_cons_neq by auto. ring.
Qed.
(** the eigenvalues of a diagonal matrix are its entries *)
Lemma diagonal_eigs (ds : list R) A ls V : (forall i j, (i < List.length ds)%nat -> (j < List.length ds)%nat ->
    A i j = if Nat.eqb i j then RtoC (nth i ds 0) else RtoC 0) ->
  eigensystem (List.length ds) A ls V -> Permutation ls ds.
Proof.
  set (n := List.length ds). intros HA (H1 & H2 & H3). apply (Permutation_count_occ Req_EM_T). intros x.
  apply INR_eq. apply (f_equal fst (x := RtoC (INR (count_occ Req_EM_T ls x))) (y := RtoC (INR (count_occ Req_EM_T ds x)))).
  rewrite <- !count_sum, H1. fold n. pose proof (rows_unit n V H2) as HR.
  set (w i j := (Cconj (V i j) * V i j)%C).
  assert (Eq : forall i j, (i < n)%nat -> (j < n)%nat -> V i j = RtoC 0 \/ nth i ds 0 = nth j ls 0).
  { intros i j Hi Hj. specialize (H3 i j Hi Hj). unfold mvec in H3.
    rewrite (csum_single n i) in H3; auto.
    - rewrite HA, Nat.eqb_refl in H3 by auto.
      destruct (Req_EM_T (nth i ds 0) (nth j ls 0)) as [E|E]; [right; auto|left].
      assert (Z : (RtoC (nth i ds 0 - nth j ls 0) * V i j)%C = RtoC 0) by (rewrite RtoC_minus; unfold Cminus; rewrite Cmult_plus_distr_r, H3; ring).
      destruct (Ceq_dec (V i j) (RtoC 0)) as [|NZ]; auto. exfalso.
      assert (RtoC (nth i ds 0 - nth j ls 0) <> RtoC 0) by (apply RtoC_neq0; lra).
      apply (Cmult_neq_0 _ _ H NZ). exact Z.
    - intros k Hk Hne. rewrite HA by auto. destruct (Nat.eqb_spec i k); [congruence|]. ring. }
  transitivity (csum n (fun j => csum n (fun i => Cmult (ind (nth j ls 0) x) (w i j)))).
  { apply csum_ext. intros j Hj. rewrite csum_scal_l. unfold w. rewrite H2, Nat.eqb_refl by auto. ring. }
  rewrite csum_swap. apply csum_ext. intros i Hi.
  rewrite (csum_ext n _ (fun j => Cmult (ind (nth i ds 0) x) (w i j))).
  - rewrite csum_scal_l. unfold w. rewrite HR by auto. ring.
  - intros j Hj. destruct (Eq i j Hi Hj) as [E| ->]; auto. unfold w. rewrite E. ring.
Qed.
