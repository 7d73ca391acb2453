(** Plane-wave sets (C24, C25, C26). *)
From Coq Require Import Nsatz FinFun.
From Verif Require Import Py LatticeModel LatticeSpec LatticeProofs CBase PhcModel RecipModel RecipSpec.
Open Scope R_scope.
Open Scope list_scope.

Lemma norm2_len g : norm2 g = len g.
Proof. unfold norm2, len, inner. f_equal. ring. Qed.
Lemma len_pos g : 0 <= len g. Proof. apply sqrt_pos. Qed.
Lemma len_opp g : len (opp g) = len g.
Proof. unfold len, inner, opp; simpl. f_equal. ring. Qed.

Lemma np_int_spec x : 0 <= x -> exists n : nat, np_int x = Z.of_nat n /\ integer_part x n.
Proof.
  intros H. unfold np_int. rewrite (proj2 (Rleb_true _ _) H).
  destruct (base_Int_part x) as [A B].
  assert (0 <= Int_part x)%Z.
  { apply Z.lt_succ_r, lt_IZR. unfold Z.succ. rewrite plus_IZR. lra. }
  exists (Z.to_nat (Int_part x)). rewrite Z2Nat.id by auto. split; auto.
  unfold integer_part. rewrite INR_IZR_INZ, Z2Nat.id by auto. lra.
Qed.

Definition ar (n : nat) : list Z := map (fun k => (Z.of_nat k - Z.of_nat n)%Z) (seq 0 (2 * n + 1)).
Lemma arange_ar n : arange_sym (Z.of_nat n) = ar n.
Proof. unfold arange_sym, ar. do 2 f_equal. lia. Qed.
Lemma ar_len n : List.length (ar n) = (2 * n + 1)%nat.
Proof. unfold ar. rewrite map_length, seq_length. auto. Qed.
Lemma ar_nth n k d : (k < 2 * n + 1)%nat -> nth k (ar n) d = (Z.of_nat k - Z.of_nat n)%Z.
Proof.
  intros H. unfold ar. rewrite (nth_indep _ d ((fun k => (Z.of_nat k - Z.of_nat n)%Z) 0%nat)) by (rewrite map_length, seq_length; auto).
  rewrite (map_nth (fun k => (Z.of_nat k - Z.of_nat n)%Z)), seq_nth by auto. auto.
Qed.
Lemma ar_in n i : In i (ar n) <-> (Z.abs i <= Z.of_nat n)%Z.
Proof.
  unfold ar. rewrite in_map_iff. split.
  - intros (k & <- & Hk). apply in_seq in Hk. lia.
  - intros H. exists (Z.to_nat (i + Z.of_nat n)). split; [lia|]. apply in_seq. lia.
Qed.
Lemma ar_nodup n : NoDup (ar n).
Proof.
  unfold ar. apply FinFun.Injective_map_NoDup; [|apply seq_NoDup]. intros x y H. lia.
Qed.

Definition block (n1 n2 : nat) : list (Z * Z) := list_prod (ar n1) (ar n2).
Lemma combine_tile (l l2 : list Z) :
  combine (flat_map (fun i => repeat i (List.length l2)) l) (List.concat (repeat l2 (List.length l))) = list_prod l l2.
Proof.
  induction l as [|i l IH]; auto. cbn [flat_map List.length repeat List.concat list_prod].
  assert (E : forall r1 r2, combine (repeat i (List.length l2) ++ r1) (l2 ++ r2) = map (fun y => (i, y)) l2 ++ combine r1 r2).
  { clear. induction l2; intros; cbn; auto. f_equal. auto. }
  rewrite E, IH. auto.
Qed.
Lemma inds_block n1 n2 : combine (inds1_of (Z.of_nat n1) (Z.of_nat n2)) (inds2_of (Z.of_nat n1) (Z.of_nat n2)) = block n1 n2.
Proof.
  unfold inds1_of, inds2_of, block. rewrite !arange_ar.
  replace (Z.to_nat (2 * Z.of_nat n2 + 1)) with (List.length (ar n2)) by (rewrite ar_len; lia).
  replace (Z.to_nat (2 * Z.of_nat n1 + 1)) with (List.length (ar n1)) by (rewrite ar_len; lia).
  apply combine_tile.
Qed.
Lemma inds_len n1 n2 :
  List.length (inds1_of (Z.of_nat n1) (Z.of_nat n2)) = List.length (inds2_of (Z.of_nat n1) (Z.of_nat n2)).
Proof.
  unfold inds1_of, inds2_of. rewrite !arange_ar.
  replace (Z.to_nat (2 * Z.of_nat n2 + 1)) with (List.length (ar n2)) by (rewrite ar_len; lia).
  replace (Z.to_nat (2 * Z.of_nat n1 + 1)) with (List.length (ar n1)) by (rewrite ar_len; lia).
  generalize (ar n1) (ar n2). clear. intros l m. induction l; cbn; auto. rewrite !app_length, repeat_length, IHl. auto.
Qed.

Definition cmb (b1 b2 : R * R) (ij : Z * Z) : R * R := comb (fst ij) (snd ij) b1 b2.
Lemma gvec_cmb b1 b2 i1 i2 : gvec_of b1 b2 i1 i2 = map (cmb b1 b2) (combine i1 i2).
Proof. unfold gvec_of, cmb, comb. apply map_ext. intros [i j]. cbn [fst snd]. f_equal; ring. Qed.

Lemma block_len n1 n2 : List.length (block n1 n2) = ((2 * n1 + 1) * (2 * n2 + 1))%nat.
Proof. unfold block. rewrite prod_length, !ar_len. auto. Qed.
Lemma nth_list_prod {A B} (l : list A) (m : list B) a p da db :
  (a < List.length l)%nat -> (p < List.length m)%nat ->
  nth (a * List.length m + p) (list_prod l m) (da, db) = (nth a l da, nth p m db).
Proof.
  revert a. induction l as [|x l IH]; intros a Ha Hp; [simpl in Ha; lia|].
  cbn [list_prod]. destruct a as [|a].
  - rewrite app_nth1 by (rewrite map_length; lia). cbn [Nat.mul Nat.add nth].
    rewrite (nth_indep _ (da, db) ((fun y => (x, y)) db)) by (rewrite map_length; auto).
    rewrite (map_nth (fun y => (x, y))). auto.
  - rewrite app_nth2 by (rewrite map_length; lia). rewrite map_length.
    replace (S a * List.length m + p - List.length m)%nat with (a * List.length m + p)%nat by lia.
    cbn [List.length] in Ha. apply IH; lia.
Qed.
Lemma block_nth n1 n2 a p : (a < 2 * n1 + 1)%nat -> (p < 2 * n2 + 1)%nat ->
  nth (a * (2 * n2 + 1) + p) (block n1 n2) (0, 0)%Z = ((Z.of_nat a - Z.of_nat n1)%Z, (Z.of_nat p - Z.of_nat n2)%Z).
Proof.
  intros Ha Hp. unfold block. rewrite <- (ar_len n2) at 1.
  rewrite nth_list_prod by (rewrite ar_len; auto). rewrite !ar_nth by auto. auto.
Qed.
Lemma block_in n1 n2 i j : In (i, j) (block n1 n2) <-> (Z.abs i <= Z.of_nat n1)%Z /\ (Z.abs j <= Z.of_nat n2)%Z.
Proof. unfold block. rewrite in_prod_iff, !ar_in. tauto. Qed.
Lemma nodup_prod {A B} (l : list A) (m : list B) : NoDup l -> NoDup m -> NoDup (list_prod l m).
Proof.
  intros Hl Hm. induction Hl as [|x l Hx Hl IH]; cbn; [constructor|].
  assert (N : NoDup (map (fun y => (x, y)) m)) by (apply FinFun.Injective_map_NoDup; auto; intros a b E; congruence).
  assert (D : forall z, In z (map (fun y => (x, y)) m) -> ~ In z (list_prod l m)).
  { intros z Hz Hz2. apply in_map_iff in Hz. destruct Hz as (y & <- & _). apply in_prod_iff in Hz2. tauto. }
  revert N D. generalize (map (fun y => (x, y)) m) as q. intros q N D. induction N; cbn; auto.
  constructor.
  - rewrite in_app_iff. intros [H1|H1]; [auto|]. apply (D x0); [left; auto|auto].
  - apply IHN. intros z Hz. apply D. right; auto.
Qed.
Lemma block_nodup n1 n2 : NoDup (block n1 n2).
Proof. apply nodup_prod; apply ar_nodup. Qed.

Definition zopp (u : Z * Z) : Z * Z := ((- fst u)%Z, (- snd u)%Z).
Lemma block_opp n1 n2 k : (k < (2 * n1 + 1) * (2 * n2 + 1))%nat ->
  nth ((2 * n1 + 1) * (2 * n2 + 1) - 1 - k) (block n1 n2) (0, 0)%Z = zopp (nth k (block n1 n2) (0, 0)%Z).
Proof.
  intros H. set (m := (2 * n2 + 1)%nat) in *.
  assert (Hk : k = (k / m * m + k mod m)%nat) by (rewrite Nat.mul_comm; apply Nat.div_mod; lia).
  assert (Hp : (k mod m < m)%nat) by (apply Nat.mod_upper_bound; lia).
  assert (Ha : (k / m < 2 * n1 + 1)%nat) by (apply Nat.div_lt_upper_bound; nia).
  set (a := (k / m)%nat) in *. set (p := (k mod m)%nat) in *. rewrite Hk.
  replace ((2 * n1 + 1) * m - 1 - (a * m + p))%nat with ((2 * n1 - a) * m + (2 * n2 - p))%nat by nia.
  unfold m. rewrite !block_nth by lia. unfold zopp; cbn [fst snd]. f_equal; lia.
Qed.

Lemma cmb_opp b1 b2 u : cmb b1 b2 (zopp u) = opp (cmb b1 b2 u).
Proof. unfold cmb, comb, zopp, opp; cbn [fst snd]. rewrite !opp_IZR. f_equal; ring. Qed.
Lemma cmb_inj b1 b2 u v : independent b1 b2 -> cmb b1 b2 u = cmb b1 b2 v -> u = v.
Proof.
  unfold independent, cmb, comb, det. intros Hd E. destruct u as [i j], v as [k l]. cbn [fst snd] in E.
  pose proof (f_equal fst E) as E1. pose proof (f_equal snd E) as E2. cbn [fst snd] in E1, E2.
  assert (A : IZR i = IZR k).
  { apply Rmult_eq_reg_r with (fst b1 * snd b2 - snd b1 * fst b2); auto. nsatz. }
  assert (B : IZR j = IZR l).
  { apply Rmult_eq_reg_r with (fst b1 * snd b2 - snd b1 * fst b2); auto. nsatz. }
  apply eq_IZR in A, B. congruence.
Qed.
Lemma cmb_0 b1 b2 : cmb b1 b2 (0, 0)%Z = (0, 0).
Proof. unfold cmb, comb; cbn [fst snd]. f_equal; ring. Qed.

Lemma indep_recip args L : lattice_init args = Ok L -> independent (lt_a1 L) (lt_a2 L) ->
  independent (lt_b1 L) (lt_b2 L).
Proof.
  intros H Hi. destruct (duality _ _ H Hi) as (A & B & D & E). unfold independent, det, inner in *.
  intros Z. apply (Rmult_integral_contrapositive_currified (2 * PI) (2 * PI)); try (pose proof PI_RGT_0; lra).
  transitivity ((fst (lt_b1 L) * fst (lt_a1 L) + snd (lt_b1 L) * snd (lt_a1 L)) * (fst (lt_b2 L) * fst (lt_a2 L) + snd (lt_b2 L) * snd (lt_a2 L))
     - (fst (lt_b1 L) * fst (lt_a2 L) + snd (lt_b1 L) * snd (lt_a2 L)) * (fst (lt_b2 L) * fst (lt_a1 L) + snd (lt_b2 L) * snd (lt_a1 L))).
  - rewrite A, B, D. ring.
  - transitivity ((fst (lt_b1 L) * snd (lt_b2 L) - snd (lt_b1 L) * fst (lt_b2 L)) * (fst (lt_a1 L) * snd (lt_a2 L) - snd (lt_a1 L) * fst (lt_a2 L))); [ring|].
    rewrite Z. ring.
Qed.
Lemma indep_len b1 b2 : independent b1 b2 -> 0 < len b1 /\ 0 < len b2.
Proof.
  unfold independent, det, len, inner. intros H. split; apply sqrt_lt_R0.
  - assert (fst b1 <> 0 \/ snd b1 <> 0) as [E|E].
    { destruct (Req_dec (fst b1) 0) as [E1|]; auto. right. intros E2. apply H. rewrite E1, E2. ring. }
    + pose proof (Rsqr_pos_lt _ E); pose proof (Rle_0_sqr (snd b1)); unfold Rsqr in *; lra.
    + pose proof (Rsqr_pos_lt _ E); pose proof (Rle_0_sqr (fst b1)); unfold Rsqr in *; lra.
  - assert (fst b2 <> 0 \/ snd b2 <> 0) as [E|E].
    { destruct (Req_dec (fst b2) 0) as [E1|]; auto. right. intros E2. apply H. rewrite E1, E2. ring. }
    + pose proof (Rsqr_pos_lt _ E); pose proof (Rle_0_sqr (snd b2)); unfold Rsqr in *; lra.
    + pose proof (Rsqr_pos_lt _ E); pose proof (Rle_0_sqr (fst b2)); unfold Rsqr in *; lra.
Qed.
Lemma nmax_ok c gmax b : 0 <= c -> 0 <= gmax -> 0 < len b ->
  exists n, nmax_for c gmax b = Z.of_nat n /\ integer_part (c * PI * gmax / len b) n.
Proof.
  intros Hc Hg Hb. unfold nmax_for. rewrite norm2_len. apply np_int_spec.
  apply Rmult_le_pos; [|left; apply Rinv_0_lt_compat; auto]. pose proof PI_RGT_0. apply Rmult_le_pos; nra.
Qed.

(** ** C24 *)
Lemma recip_tbt_form L gmax : 0 <= gmax -> independent (lt_b1 L) (lt_b2 L) ->
  exists n1 n2 : nat,
    integer_part (2 * PI * gmax / len (lt_b1 L)) n1 /\ integer_part (2 * PI * gmax / len (lt_b2 L)) n2 /\
    rc_g (recip_tbt L gmax) = map (cmb (lt_b1 L) (lt_b2 L)) (block n1 n2) /\
    rc_n1 (recip_tbt L gmax) = Z.of_nat (2 * n1 + 1) /\ rc_n2 (recip_tbt L gmax) = Z.of_nat (2 * n2 + 1) /\
    combine (rc_i1 (recip_tbt L gmax)) (rc_i2 (recip_tbt L gmax)) = block n1 n2.
Proof.
  intros Hg Hi. destruct (indep_len _ _ Hi) as [P1 P2].
  destruct (nmax_ok 2 gmax (lt_b1 L)) as (n1 & E1 & I1); auto; [lra|].
  destruct (nmax_ok 2 gmax (lt_b2 L)) as (n2 & E2 & I2); auto; [lra|].
  exists n1, n2. split; auto. split; auto. unfold recip_tbt. rewrite E1, E2. cbn [rc_g rc_n1 rc_n2 rc_i1 rc_i2].
  rewrite gvec_cmb, inds_block. repeat split; lia.
Qed.
Lemma tbt_set args L gmax : lattice_init args = Ok L -> independent (lt_a1 L) (lt_a2 L) -> 0 <= gmax ->
  let gs := rc_g (recip_tbt L gmax) in
  exists n1 n2 : nat,
    integer_part (2 * PI * gmax / len (lt_b1 L)) n1 /\ integer_part (2 * PI * gmax / len (lt_b2 L)) n2 /\
    rc_n1 (recip_tbt L gmax) = Z.of_nat (2 * n1 + 1) /\ rc_n2 (recip_tbt L gmax) = Z.of_nat (2 * n2 + 1) /\
    List.length gs = ((2 * n1 + 1) * (2 * n2 + 1))%nat /\ NoDup gs /\
    (forall a p, (a < 2 * n1 + 1)%nat -> (p < 2 * n2 + 1)%nat ->
       nth_error gs (a * (2 * n2 + 1) + p) =
       Some (comb (Z.of_nat a - Z.of_nat n1) (Z.of_nat p - Z.of_nat n2) (lt_b1 L) (lt_b2 L))) /\
    (forall g, In g gs <-> exists i j, (Z.abs i <= Z.of_nat n1)%Z /\ (Z.abs j <= Z.of_nat n2)%Z /\
                                        g = comb i j (lt_b1 L) (lt_b2 L)) /\
    nth_error gs ((List.length gs - 1) / 2) = Some (0, 0) /\
    (forall k, (k < List.length gs)%nat -> nth_error gs (List.length gs - 1 - k) = option_map opp (nth_error gs k)).
Proof.
  intros HL Ha Hg gs. pose proof (indep_recip _ _ HL Ha) as Hb.
  destruct (recip_tbt_form L gmax Hg Hb) as (n1 & n2 & I1 & I2 & G & N1 & N2 & _).
  exists n1, n2. unfold gs. rewrite G, map_length, block_len.
  assert (NE : forall k, (k < (2 * n1 + 1) * (2 * n2 + 1))%nat ->
     nth_error (map (cmb (lt_b1 L) (lt_b2 L)) (block n1 n2)) k = Some (cmb (lt_b1 L) (lt_b2 L) (nth k (block n1 n2) (0,0)%Z))).
  { intros k Hk. rewrite nth_error_map. rewrite (nth_error_nth' _ (0,0)%Z) by (rewrite block_len; auto). auto. }
  repeat (split; [auto; fail|]).
  split; [apply FinFun.Injective_map_NoDup; [intros u v; apply cmb_inj; auto|apply block_nodup]|].
  split; [|split; [|split]].
  - intros a p H1 H2. rewrite NE by nia. rewrite block_nth by auto. auto.
  - intros g. rewrite in_map_iff. split.
    + intros ([i j] & <- & H). apply block_in in H. exists i, j. tauto.
    + intros (i & j & H1 & H2 & ->). exists (i, j). split; auto. apply block_in; auto.
  - replace (((2 * n1 + 1) * (2 * n2 + 1) - 1) / 2)%nat with (n1 * (2 * n2 + 1) + n2)%nat.
    2:{ apply Nat.div_unique with 0%nat; nia. }
    rewrite NE by nia. rewrite block_nth by lia. rewrite !Z.sub_diag, cmb_0. auto.
  - intros k Hk. rewrite !NE by lia. rewrite block_opp by auto. rewrite cmb_opp. auto.
Qed.
