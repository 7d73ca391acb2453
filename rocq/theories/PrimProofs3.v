(** The gradient of the Toeplitz-block construction. *)
From Verif Require Import Py CBase LatticeModel LatticeSpec RecipModel RecipSpec RecipProofs RecipProofs3 PrimSpec PrimModel PrimProofs.
Open Scope R_scope.
Open Scope list_scope.

(** ** pairing a loop of slice additions *)
Section Loop.
Variables (L : nat) (t : nat -> C).
Definition phi (f : nat -> C) : C := csum L (fun j => Cmult (f j) (t j)).
Lemma phi_slice f a len h : (a + len <= L)%nat -> phi (slice_add f a len h) = Cplus (phi f) (csum len (fun m => Cmult (h m) (t (a + m)%nat))).
Proof.
  intros H. unfold phi. replace L with (a + (len + (L - a - len)))%nat by lia.
  rewrite !csum_add, !Cplus_assoc. unfold slice_add.
  rewrite (csum_ext a (fun j => Cmult (if (Nat.leb a j && Nat.ltb j (a + len))%bool then _ else _) (t j)) (fun j => Cmult (f j) (t j))).
  2:{ intros i Hi. destruct (Nat.leb_spec a i); [lia|]. auto. }
  rewrite (csum_ext len (fun i => Cmult (if (Nat.leb a (a + i) && Nat.ltb (a + i) (a + len))%bool then _ else _) (t (a + i)%nat))
             (fun i => Cplus (Cmult (f (a + i)%nat) (t (a + i)%nat)) (Cmult (h i) (t (a + i)%nat)))).
  2:{ intros i Hi. destruct (Nat.leb_spec a (a + i)); [|lia]. destruct (Nat.ltb_spec (a + i) (a + len)); [|lia]. cbn [andb].
      replace (a + i - a)%nat with i by lia. ring. }
  rewrite csum_plus.
  rewrite (csum_ext (L - a - len) (fun i => Cmult (if (Nat.leb a (a + (len + i)) && Nat.ltb (a + (len + i)) (a + len))%bool then _ else _) (t (a + (len + i))%nat))
             (fun i => Cmult (f (a + (len + i))%nat) (t (a + (len + i))%nat))).
  2:{ intros i Hi. destruct (Nat.ltb_spec (a + (len + i)) (a + len)); [lia|]. rewrite andb_false_r. auto. }
  ring.
Qed.
Lemma phi_fold (step : (nat -> C) -> nat -> nat -> C) c k : forall a f,
  (forall i f, (a <= i < a + k)%nat -> phi (step f i) = Cplus (phi f) (c i)) ->
  phi (fold_left step (seq a k) f) = Cplus (phi f) (csum k (fun d => c (a + d)%nat)).
Proof.
  induction k; intros a f H; [simpl; ring|]. cbn [seq fold_left]. rewrite IHk by (intros; apply H; lia).
  rewrite H by lia. rewrite csum_first. rewrite Nat.add_0_r. rewrite <- Cplus_assoc. f_equal. f_equal. apply csum_ext. intros. f_equal. lia.
Qed.
End Loop.

(** sums over index pairs split along the diagonal *)
Lemma pairs_split n (F : nat -> nat -> C) : csum n (fun a => csum n (fun b => F a b)) =
  csum n (fun a => csum (n - a) (fun d => Cplus (F a (a + d)%nat) (if Nat.eqb d 0 then RtoC 0 else F (a + d)%nat a))).
Proof.
  induction n; [reflexivity|].
  cbn [csum]. rewrite csum_plus, IHn. clear IHn.
  rewrite (csum_ext n (fun a => csum (S n - a) (fun d => Cplus (F a (a + d)%nat) (if Nat.eqb d 0 then RtoC 0 else F (a + d)%nat a)))
    (fun a => Cplus (csum (n - a) (fun d => Cplus (F a (a + d)%nat) (if Nat.eqb d 0 then RtoC 0 else F (a + d)%nat a))) (Cplus (F a n) (F n a)))).
  2:{ intros a Ha. replace (S n - a)%nat with (S (n - a)) by lia. cbn [csum]. replace (a + (n - a))%nat with n by lia.
      destruct (Nat.eqb_spec (n - a) 0); [lia|auto]. }
  rewrite csum_plus. rewrite csum_plus. replace (S n - n)%nat with 1%nat by lia. cbn [csum]. rewrite Nat.add_0_r. cbn [Nat.eqb].
  change (csum n (F n)) with (csum n (fun b => F n b)). ring.
Qed.
Lemma csum_blocks n p f : csum (n * p) f = csum n (fun a => csum p (fun q => f (a * p + q)%nat)).
Proof.
  induction n; [reflexivity|]. cbn [csum]. rewrite <- IHn. replace (S n * p)%nat with (n * p + p)%nat by lia. apply csum_add.
Qed.

Section TB.
Variables (n p : nat) (v : cmat).
Hypothesis Hn : (0 < n)%nat.
Hypothesis Hp : (0 < p)%nat.
Lemma Lp : (n * p / n = p)%nat. Proof. rewrite Nat.mul_comm. apply Nat.div_mul. lia. Qed.
Lemma tb1_sum t : phi (n * p) t (vjp_tb1 n (n * p) v) =
  csum n (fun a => csum (n - a) (fun d => csum p (fun q => csum (p - q) (fun m =>
    Cmult (Cplus (v (a * p + q)%nat ((a + d) * p + q + m)%nat) (if Nat.eqb d 0 then RtoC 0 else Cconj (v ((a + d) * p + q + m)%nat (a * p + q)%nat))) (t (d * p + m)%nat))))).
Proof.
  unfold vjp_tb1. rewrite Lp.
  rewrite (phi_fold (n * p) t _ (fun a => csum (n - a) (fun d => csum p (fun q => csum (p - q) (fun m =>
    Cmult (Cplus (v (a * p + q)%nat ((a + d) * p + q + m)%nat) (if Nat.eqb d 0 then RtoC 0 else Cconj (v ((a + d) * p + q + m)%nat (a * p + q)%nat))) (t (d * p + m)%nat)))))).
  { unfold phi. rewrite csum_0 by (intros; ring). rewrite Cplus_0_l. apply csum_ext. auto. }
  intros a f Ha.
  rewrite (phi_fold (n * p) t _ (fun b => csum p (fun q => csum (p - q) (fun m =>
    Cmult (Cplus (v (a * p + q)%nat (b * p + q + m)%nat) (if Nat.eqb (b - a) 0 then RtoC 0 else Cconj (v (b * p + q + m)%nat (a * p + q)%nat))) (t ((b - a) * p + m)%nat))))).
  { f_equal. apply csum_ext. intros d Hd. replace (a + d - a)%nat with d by lia. auto. }
  intros b f' Hb.
  rewrite (phi_fold (n * p) t _ (fun q => csum (p - q) (fun m =>
    Cmult (Cplus (v (a * p + q)%nat (b * p + q + m)%nat) (if Nat.eqb (b - a) 0 then RtoC 0 else Cconj (v (b * p + q + m)%nat (a * p + q)%nat))) (t ((b - a) * p + m)%nat)))).
  { f_equal. }
  intros q f'' Hq. assert ((b - a) * p + (p - q) <= n * p)%nat.
  { assert ((b - a + 1) * p <= n * p)%nat by (apply Nat.mul_le_mono_r; lia). lia. }
  cbv zeta. destruct (Nat.ltb_spec a b).
  - rewrite !phi_slice by auto. destruct (Nat.eqb_spec (b - a) 0); [lia|].
    rewrite <- Cplus_assoc, <- csum_plus. f_equal. apply csum_ext. intros. ring.
  - rewrite phi_slice by auto. destruct (Nat.eqb_spec (b - a) 0); [|lia]. f_equal. apply csum_ext. intros. ring.
Qed.
Lemma tb2_sum t : phi (n * p) t (vjp_tb2 n (n * p) v) =
  csum n (fun a => csum (n - a) (fun d => csum p (fun q => csum (p - q - 1) (fun m =>
    Cmult (Cplus (v (a * p + q + 1 + m)%nat ((a + d) * p + q)%nat) (if Nat.eqb d 0 then RtoC 0 else Cconj (v ((a + d) * p + q)%nat (a * p + q + 1 + m)%nat))) (t (d * p + 1 + m)%nat))))).
Proof.
  unfold vjp_tb2. rewrite Lp.
  rewrite (phi_fold (n * p) t _ (fun a => csum (n - a) (fun d => csum p (fun q => csum (p - q - 1) (fun m =>
    Cmult (Cplus (v (a * p + q + 1 + m)%nat ((a + d) * p + q)%nat) (if Nat.eqb d 0 then RtoC 0 else Cconj (v ((a + d) * p + q)%nat (a * p + q + 1 + m)%nat))) (t (d * p + 1 + m)%nat)))))).
  { unfold phi. rewrite csum_0 by (intros; ring). rewrite Cplus_0_l. apply csum_ext. auto. }
  intros a f Ha.
  rewrite (phi_fold (n * p) t _ (fun b => csum p (fun q => csum (p - q - 1) (fun m =>
    Cmult (Cplus (v (a * p + q + 1 + m)%nat (b * p + q)%nat) (if Nat.eqb (b - a) 0 then RtoC 0 else Cconj (v (b * p + q)%nat (a * p + q + 1 + m)%nat))) (t ((b - a) * p + 1 + m)%nat))))).
  { f_equal. apply csum_ext. intros d Hd. replace (a + d - a)%nat with d by lia. auto. }
  intros b f' Hb.
  rewrite (phi_fold (n * p) t _ (fun q => csum (p - q - 1) (fun m =>
    Cmult (Cplus (v (a * p + q + 1 + m)%nat (b * p + q)%nat) (if Nat.eqb (b - a) 0 then RtoC 0 else Cconj (v (b * p + q)%nat (a * p + q + 1 + m)%nat))) (t ((b - a) * p + 1 + m)%nat)))).
  { f_equal. }
  intros q f'' Hq. assert ((b - a) * p + 1 + (p - q - 1) <= n * p)%nat.
  { assert ((b - a + 1) * p <= n * p)%nat by (apply Nat.mul_le_mono_r; lia). lia. }
  cbv zeta. destruct (Nat.ltb_spec a b).
  - rewrite !phi_slice by auto. destruct (Nat.eqb_spec (b - a) 0); [lia|].
    rewrite <- Cplus_assoc, <- csum_plus. f_equal. apply csum_ext. intros. ring.
  - rewrite phi_slice by auto. destruct (Nat.eqb_spec (b - a) 0); [|lia]. f_equal. apply csum_ext. intros. ring.
Qed.

(** the entries of the constructed matrix *)
Variables (T1 T2 : list C).
Hypothesis HC : consistent n p T1 T2.
Lemma tmat_at a q d r : (a + d < n)%nat -> (q < p)%nat -> (r < p)%nat ->
  tmat n T1 T2 (a * p + q)%nat ((a + d) * p + r)%nat = if Nat.leb r q then entries T2 (d * p + (q - r))%nat else entries T1 (d * p + (r - q))%nat.
Proof.
  intros Hd Hq Hr. unfold tmat. destruct HC as (L1 & _). rewrite L1, Lp.
  rewrite !Nat.div_add_l, !(Nat.div_small _ p), !Nat.add_0_r by lia.
  rewrite !(Nat.add_comm (_ * p)), !Nat.mod_add, !(Nat.mod_small _ p) by lia.
  rewrite (proj2 (Nat.leb_le a (a + d)) ltac:(lia)), (proj2 (Nat.ltb_lt (a + d) n) Hd). cbn [andb].
  unfold toeplitz. replace (a + d - a)%nat with d by lia.
  assert (SZ : forall c, ((c + 1) * p - c * p = p)%nat) by (intros; rewrite Nat.mul_add_distr_r; lia).
  destruct (Nat.leb_spec r q); rewrite nth_slice by (rewrite SZ; lia); unfold entries; f_equal; lia.
Qed.
Lemma corner d : (d < n)%nat -> entries T1 (d * p)%nat = entries T2 (d * p)%nat.
Proof. destruct HC as (_ & _ & H & _). apply H. Qed.
(** above or on the diagonal blocks' diagonal *)
Lemma tb_up a q d m : (a + d < n)%nat -> (q + m < p)%nat ->
  toeplitz_block n T1 T2 (a * p + q)%nat ((a + d) * p + (q + m))%nat = entries T1 (d * p + m)%nat.
Proof.
  intros Hd Hq. unfold toeplitz_block. cbv zeta.
  rewrite (proj2 (Nat.leb_le _ _)) by nia. destruct (Nat.ltb_spec ((a + d) * p + (q + m)) (a * p + q)); [nia|].
  rewrite Cconj_R, Cplus_0_r, tmat_at by lia. destruct (Nat.leb_spec (q + m) q).
  - replace m with 0%nat by lia. replace (q - (q + 0))%nat with 0%nat by lia. rewrite !Nat.add_0_r. symmetry. apply corner. lia.
  - f_equal. lia.
Qed.
Lemma tb_low a q d m : (a + d < n)%nat -> (q + m < p)%nat -> (0 < m)%nat ->
  toeplitz_block n T1 T2 (a * p + (q + m))%nat ((a + d) * p + q)%nat = entries T2 (d * p + m)%nat.
Proof.
  intros Hd Hq Hm. unfold toeplitz_block. cbv zeta. destruct (Nat.eq_dec d 0) as [->|Nd].
  - destruct (Nat.leb_spec (a * p + (q + m)) ((a + 0) * p + q)); [nia|]. rewrite (proj2 (Nat.ltb_lt _ _)) by nia.
    rewrite Cplus_0_l. replace ((a + 0) * p + q)%nat with (a * p + q)%nat by (f_equal; f_equal; lia).
    replace (a * p + (q + m))%nat with ((a + 0) * p + (q + m))%nat by (f_equal; f_equal; lia).
    rewrite tmat_at by lia. destruct (Nat.leb_spec (q + m) q); [lia|].
    destruct HC as (_ & _ & _ & H'). replace (0 * p + m)%nat with m by lia. rewrite H' by lia. f_equal. f_equal. lia.
  - assert ((a + 1) * p <= (a + d) * p)%nat by (apply Nat.mul_le_mono_r; lia).
    rewrite (proj2 (Nat.leb_le _ _)) by lia. destruct (Nat.ltb_spec ((a + d) * p + q) (a * p + (q + m))); [lia|].
    rewrite Cconj_R, Cplus_0_r, tmat_at by lia. destruct (Nat.leb_spec q (q + m)); [|lia]. f_equal. lia.
Qed.
Lemma tb_conj i j : i <> j -> toeplitz_block n T1 T2 i j = Cconj (toeplitz_block n T1 T2 j i).
Proof.
  intros N. unfold toeplitz_block. cbv zeta.
  destruct (Nat.leb_spec i j), (Nat.ltb_spec j i), (Nat.leb_spec j i), (Nat.ltb_spec i j); try lia; rewrite ?Cconj_plus, ?Cconj_conj, ?Cconj_R; ring.
Qed.

Lemma fst_csum n' f g : (forall i, (i < n')%nat -> fst (f i) = fst (g i)) -> fst (csum n' f) = fst (csum n' g).
Proof. induction n'; cbn [csum]; intros H; auto. cbn [fst Cplus]. rewrite IHn', H; auto. Qed.
Lemma tb_pair : pair2 (n * p) (n * p) v (toeplitz_block n T1 T2) =
  pair1 (n * p) (vjp_tb1 n (n * p) v) (entries T1) + pair1 (n * p) (vjp_tb2 n (n * p) v) (entries T2).
Proof.
  unfold pair2, pair1. fold (phi (n * p) (entries T1) (vjp_tb1 n (n * p) v)). fold (phi (n * p) (entries T2) (vjp_tb2 n (n * p) v)).
  rewrite tb1_sum, tb2_sum. set (B := toeplitz_block n T1 T2). set (F i j := Cmult (v i j) (B i j)).
  rewrite (csum_ext (n * p) _ (fun i => csum (n * p) (fun j => F i j))) by auto.
  rewrite csum_blocks.
  rewrite (csum_ext n _ (fun a => csum n (fun b => csum p (fun q => csum p (fun r => F (a * p + q)%nat (b * p + r)%nat))))).
  2:{ intros a Ha. rewrite csum_swap. rewrite <- csum_swap. rewrite (csum_ext p _ (fun q => csum n (fun b => csum p (fun r => F (a * p + q)%nat (b * p + r)%nat)))).
      - apply csum_swap.
      - intros q Hq. apply csum_blocks. }
  rewrite pairs_split.
  change (fst ?x + fst ?y) with (fst (Cplus x y)). rewrite <- csum_plus. apply fst_csum. intros a Ha.
  rewrite <- csum_plus. apply fst_csum. intros d Hd. rewrite <- csum_plus.
  (* one pair of mirror blocks *)
  rewrite pairs_split.
  destruct (Nat.eqb_spec d 0) as [E|E].
  - rewrite Cplus_0_r. f_equal. apply csum_ext. intros q Hq. rewrite csum_plus. f_equal.
    + apply csum_ext. intros m Hm. unfold F, B. rewrite tb_up by lia. rewrite Nat.add_assoc. ring.
    + replace (p - q)%nat with (S (p - q - 1)) by lia. rewrite csum_first. cbn [Nat.eqb]. rewrite Cplus_0_l. replace (S (p - q - 1) - 1)%nat with (p - q - 1)%nat by lia.
      apply csum_ext. intros m Hm. unfold F, B. rewrite (tb_low a q d (S m)) by lia.
      replace (a * p + (q + S m))%nat with (a * p + q + 1 + m)%nat by lia. replace (d * p + S m)%nat with (d * p + 1 + m)%nat by lia. ring.
  - (* mirror block: conjugate *)
    assert (M : fst (csum p (fun q => csum p (fun r => F ((a + d) * p + q)%nat (a * p + r)%nat))) =
                fst (csum p (fun q => csum p (fun r => Cmult (Cconj (v ((a + d) * p + r)%nat (a * p + q)%nat)) (B (a * p + q)%nat ((a + d) * p + r)%nat))))).
    { rewrite csum_swap. apply fst_csum. intros q Hq. apply fst_csum. intros r Hr. unfold F.
      unfold B. rewrite tb_conj by (assert ((a + 1) * p <= (a + d) * p)%nat by (apply Nat.mul_le_mono_r; lia); lia). fold B.
      destruct (v ((a + d) * p + r)%nat (a * p + q)%nat), (B (a * p + q)%nat ((a + d) * p + r)%nat). cbn. ring. }
    change (fst (Cplus ?x ?y)) with (fst x + fst y). rewrite M. change (fst ?x + fst ?y) with (fst (Cplus x y)). f_equal.
    rewrite pairs_split. rewrite <- csum_plus. apply csum_ext. intros q Hq. rewrite <- csum_plus.
    transitivity (Cplus (csum (p - q) (fun m => Cmult (Cplus (v (a * p + q)%nat ((a + d) * p + (q + m))%nat) (Cconj (v ((a + d) * p + (q + m))%nat (a * p + q)%nat))) (entries T1 (d * p + m)%nat)))
       (csum (p - q) (fun m => if Nat.eqb m 0 then RtoC 0 else
         Cmult (Cplus (v (a * p + (q + m))%nat ((a + d) * p + q)%nat) (Cconj (v ((a + d) * p + q)%nat (a * p + (q + m))%nat))) (entries T2 (d * p + m)%nat)))).
    + rewrite <- csum_plus. apply csum_ext. intros m Hm. unfold F, B. rewrite tb_up by lia.
      destruct (Nat.eqb_spec m 0) as [->|Nm]; [ring|]. rewrite tb_low by lia. ring.
    + f_equal.
      * apply csum_ext. intros m Hm. rewrite !Nat.add_assoc. auto.
      * replace (p - q)%nat with (S (p - q - 1)) at 1 by lia. rewrite csum_first. cbn [Nat.eqb]. rewrite Cplus_0_l.
        apply csum_ext. intros m Hm. replace (a * p + (q + S m))%nat with (a * p + q + 1 + m)%nat by lia. replace (d * p + S m)%nat with (d * p + 1 + m)%nat by lia. auto.
Qed.
End TB.

Lemma tb_adjoint n p v T1 T2 dT1 dT2 : (0 < n)%nat -> (0 < p)%nat -> nearby (fun s => consistent n p (T1 s) (T2 s)) ->
  curve1 (n * p) (fun s => entries (T1 s)) (entries dT1) -> curve1 (n * p) (fun s => entries (T2 s)) (entries dT2) ->
  derivable_pt_lim (fun s => pair2 (n * p) (n * p) v (toeplitz_block n (T1 s) (T2 s))) 0
    (pair1 (n * p) (vjp_tb1 n (n * p) v) (entries dT1) + pair1 (n * p) (vjp_tb2 n (n * p) v) (entries dT2)).
Proof.
  intros Hn Hp (d & Hd & H) C1 C2.
  apply (dlim_near (fun s => pair1 (n * p) (vjp_tb1 n (n * p) v) (entries (T1 s)) + pair1 (n * p) (vjp_tb2 n (n * p) v) (entries (T2 s)))).
  { exists d. split; auto. intros s Hs. symmetry. apply tb_pair; auto. }
  apply (derivable_pt_lim_plus _ _ 0 _ _ (pair1_curve _ _ (fun s => entries (T1 s)) _ C1) (pair1_curve _ _ (fun s => entries (T2 s)) _ C2)).
Qed.

(** ** the lists of the solvers are consistent *)
Lemma tbt_consistent b1 b2 n1 n2 ft rc : rc_g rc = map (cmb b1 b2) (block n1 n2) -> rc_n1 rc = Z.of_nat (2 * n1 + 1) -> rc_n2 rc = Z.of_nat (2 * n2 + 1) ->
  conj_symmetric ft ->
  consistent (2 * n1 + 1) (2 * n2 + 1) (map ft (G1_of (rc_g rc))) (map ft (G2_of (rc_g rc) (2 * n1 + 1) (2 * n2 + 1))).
Proof.
  intros Hg H1 H2 Hc. pose proof (G1_len b1 b2 n1 n2 rc Hg) as L1. pose proof (G2_len n1 n2 rc) as L2.
  split; [rewrite map_length; auto|]. split; [rewrite map_length; auto|].
  assert (LT : forall a p, (a < 2 * n1 + 1)%nat -> (p < 2 * n2 + 1)%nat -> (a * (2 * n2 + 1) + p < (2 * n1 + 1) * (2 * n2 + 1))%nat).
  { intros. assert ((a + 1) * (2 * n2 + 1) <= (2 * n1 + 1) * (2 * n2 + 1))%nat by (apply Nat.mul_le_mono_r; lia). lia. }
  assert (N1 : forall a p, (a < 2 * n1 + 1)%nat -> (p < 2 * n2 + 1)%nat -> entries (map ft (G1_of (rc_g rc))) (a * (2 * n2 + 1) + p)%nat = ft (cmb b1 b2 (- Z.of_nat a, - Z.of_nat p)%Z)).
  { intros a p Ha Hp. unfold entries. rewrite (nth_map_lt _ _ _ (0, 0)) by (rewrite L1; apply LT; auto). f_equal. apply (G1_nth b1 b2 n1 n2 rc Hg a p Ha Hp). }
  assert (N2 : forall a p, (a < 2 * n1 + 1)%nat -> (p < 2 * n2 + 1)%nat -> entries (map ft (G2_of (rc_g rc) (2 * n1 + 1) (2 * n2 + 1))) (a * (2 * n2 + 1) + p)%nat = ft (cmb b1 b2 (- Z.of_nat a, Z.of_nat p)%Z)).
  { intros a p Ha Hp. unfold entries. rewrite (nth_map_lt _ _ _ (0, 0)) by (rewrite L2; apply LT; auto). f_equal. apply (G2_nth b1 b2 n1 n2 rc Hg a p Ha Hp). }
  split.
  - intros k Hk. rewrite <- (Nat.add_0_r (k * _)). rewrite N1, N2 by lia. auto.
  - intros j Hj. pose proof (N1 0%nat j ltac:(lia) ltac:(lia)) as E1. pose proof (N2 0%nat j ltac:(lia) ltac:(lia)) as E2.
    rewrite Nat.mul_0_l, Nat.add_0_l in E1, E2. rewrite E1, E2, <- Hc. f_equal. unfold opp, cmb, LatticeSpec.comb. cbn [fst snd].
    rewrite !opp_IZR. cbn [Z.of_nat Z.opp]. f_equal; ring.
Qed.
