(** Every complex polynomial of positive degree has a root, and every complex
    n x n matrix with n > 0 has an eigenvector.  Generic mathematics only. *)
From Coq Require Import Classical ClassicalEpsilon.
From Coquelicot Require Import Coquelicot.
From Verif Require Import Py CBase SymSpec RunSpec LinProofs LinProofs2.
Open Scope R_scope.

Fixpoint cpw (z : C) (k : nat) : C := match k with O => RtoC 1 | S k' => (z * cpw z k')%C end.
Lemma cpw_add z a b : cpw z (a + b) = (cpw z a * cpw z b)%C.
Proof. induction a as [|a IH]; cbn [cpw Nat.add]; [ring|]. rewrite IH. ring. Qed.
Lemma cpw_mult z w k : cpw (z * w)%C k = (cpw z k * cpw w k)%C.
Proof. induction k as [|k IH]; cbn [cpw]; [ring|]. rewrite IH. ring. Qed.
Lemma cpw_R t k : cpw (RtoC t) k = RtoC (t ^ k).
Proof. induction k as [|k IH]; cbn [cpw pow]; [reflexivity|]. rewrite IH, <- RtoC_mult. reflexivity. Qed.
Lemma cpw_exp a k : cpw (cexp a) k = cexp (RtoC (INR k) * a)%C.
Proof.
  induction k as [|k IH]; [cbn [cpw INR]; rewrite Cmult_0_l, cexp_0; reflexivity|].
  cbn [cpw]. rewrite IH, <- cexp_plus. f_equal. rewrite S_INR, RtoC_plus. ring.
Qed.

(** polynomials: m coefficients *)
Definition pol (c : nat -> C) (m : nat) (z : C) : C := csum m (fun k => c k * cpw z k)%C.
Lemma horner c m z : pol c (S m) z = (c 0%nat + z * pol (fun k => c (S k)) m z)%C.
Proof.
  unfold pol. rewrite csum_first. cbn [cpw]. rewrite <- csum_scal_l. rewrite Cmult_1_r. f_equal. apply csum_ext. intros. ring.
Qed.

Lemma pol_bound m : forall c rho, exists K, 0 <= K /\ forall w, Cmod w <= rho -> Cmod (pol c m w) <= K.
Proof.
  induction m as [|m IH]; intros c rho.
  - exists 0. split; [lra|]. intros w _. unfold pol. cbn [csum]. rewrite Cmod_0. lra.
  - destruct (IH (fun k => c (S k)) rho) as (K & HK & HB). exists (Cmod (c 0%nat) + Rmax rho 0 * K). split.
    + pose proof (Cmod_ge_0 (c 0%nat)). pose proof (Rmax_r rho 0). nra.
    + intros w Hw. rewrite horner. eapply Rle_trans; [apply Cmod_triangle|]. apply Rplus_le_compat_l. rewrite Cmod_mult.
      apply Rmult_le_compat; [apply Cmod_ge_0|apply Cmod_ge_0|eapply Rle_trans; [exact Hw|apply Rmax_l]|apply HB; exact Hw].
Qed.

Lemma Cmod_minus_le a b : Cmod b - Cmod a <= Cmod (a + b)%C.
Proof.
  pose proof (Cmod_triangle (a + b)%C (- a)%C) as H. replace (a + b + - a)%C with b in H by ring. rewrite Cmod_opp in H. lra.
Qed.

Lemma pol_low m : forall c, c m <> RtoC 0 -> exists e rho, 0 < e /\ forall z, rho <= Cmod z -> e <= Cmod (pol c (S m) z).
Proof.
  induction m as [|m IH]; intros c Hc.
  - exists (Cmod (c 0%nat)), 0. split; [apply Cmod_gt_0; exact Hc|]. intros z _. rewrite horner. unfold pol. cbn [csum]. rewrite Cmult_0_r, Cplus_0_r. lra.
  - destruct (IH (fun k => c (S k)) Hc) as (e & rho & He & HB).
    exists 1, (Rmax rho ((1 + Cmod (c 0%nat)) / e)). split; [lra|]. intros z Hz. rewrite horner.
    assert (Z1 : rho <= Cmod z) by (eapply Rle_trans; [apply Rmax_l|exact Hz]).
    assert (Z2 : (1 + Cmod (c 0%nat)) / e <= Cmod z) by (eapply Rle_trans; [apply Rmax_r|exact Hz]).
    specialize (HB z Z1). eapply Rle_trans; [|apply Cmod_minus_le]. rewrite Cmod_mult.
    apply (Rmult_le_compat_r e) in Z2; [|lra]. replace ((1 + Cmod (c 0%nat)) / e * e) with (1 + Cmod (c 0%nat)) in Z2 by (field; lra).
    pose proof (Cmod_ge_0 z). nra.
Qed.
Lemma pol_grow m c M : c (S m) <> RtoC 0 -> exists rho, forall z, rho <= Cmod z -> M <= Cmod (pol c (S (S m)) z).
Proof.
  intros Hc. destruct (pol_low m (fun k => c (S k)) Hc) as (e & rho & He & HB).
  exists (Rmax rho ((M + Cmod (c 0%nat)) / e)). intros z Hz. rewrite horner.
  assert (Z1 : rho <= Cmod z) by (eapply Rle_trans; [apply Rmax_l|exact Hz]).
  assert (Z2 : (M + Cmod (c 0%nat)) / e <= Cmod z) by (eapply Rle_trans; [apply Rmax_r|exact Hz]).
  specialize (HB z Z1). eapply Rle_trans; [|apply Cmod_minus_le]. rewrite Cmod_mult.
  apply (Rmult_le_compat_r e) in Z2; [|lra]. replace ((M + Cmod (c 0%nat)) / e * e) with (M + Cmod (c 0%nat)) in Z2 by (field; lra).
  pose proof (Cmod_ge_0 z). nra.
Qed.

Lemma ccv_pol m : forall c z a, ccv z a -> ccv (fun t => pol c m (z t)) (pol c m a).
Proof.
  induction m as [|m IH]; intros c z a H; [apply ccv_const|].
  apply (ccv_ext (fun t => (c 0%nat + z t * pol (fun k => c (S k)) m (z t))%C)); [intros; symmetry; apply horner|]. rewrite horner.
  apply ccv_plus; [apply ccv_const|]. apply ccv_mult; [exact H|apply IH; exact H].
Qed.
Definition sq (z : C) : R := fst z * fst z + snd z * snd z.
Lemma ccv_sq z a : ccv z a -> is_lim_seq (fun t => sq (z t)) (sq a).
Proof. intros [H1 H2]. apply is_lim_seq_plus'; apply is_lim_seq_mult'; assumption. Qed.
Lemma sq_mod z : sq z = Cmod z * Cmod z.
Proof. unfold sq, Cmod. rewrite sqrt_sqrt; [ring|]. pose proof (pow2_ge_0 (fst z)). pose proof (pow2_ge_0 (snd z)). lra. Qed.
Lemma coord_mod z : Rabs (fst z) <= Cmod z /\ Rabs (snd z) <= Cmod z.
Proof.
  pose proof (Rmax_Cmod z) as H. split; (eapply Rle_trans; [|exact H]); [apply Rmax_l|apply Rmax_r].
Qed.

(** the least modulus is attained *)
Lemma pol_min m c : c (S m) <> RtoC 0 -> exists z, forall w, Cmod (pol c (S (S m)) z) <= Cmod (pol c (S (S m)) w).
Proof.
  intros Hc. set (p := pol c (S (S m))).
  destruct (completeness (fun x => exists z, x = - sq (p z))) as [b [Hub Hleast]].
  { exists 0. intros x (z & ->). rewrite sq_mod. pose proof (Cmod_ge_0 (p z)). nra. }
  { exists (- sq (p (RtoC 0))), (RtoC 0). reflexivity. }
  assert (NX : forall t : nat, exists z, b - / INR (S t) < - sq (p z)).
  { intros t. apply NNPP. intros H. assert (b <= b - / INR (S t)).
    { apply Hleast. intros x (z & ->). apply Rnot_lt_le. intros L. apply H. exists z. exact L. }
    pose proof (inv_S_pos t). lra. }
  set (u := fun t => proj1_sig (constructive_indefinite_description _ (NX t))).
  assert (Hu : forall t, b - / INR (S t) < - sq (p (u t))) by (intros t; exact (proj2_sig (constructive_indefinite_description _ (NX t)))).
  destruct (pol_grow m c (2 + Rabs b) Hc) as [rho Hrho].
  assert (Bd : forall t, Cmod (u t) < rho).
  { intros t. apply Rnot_le_lt. intros L. specialize (Hrho _ L). fold p in Hrho. specialize (Hu t). rewrite sq_mod in Hu.
    assert (/ INR (S t) <= 1). { rewrite <- Rinv_1. apply Rinv_le_contravar; [lra|]. rewrite S_INR. pose proof (pos_INR t). lra. }
    pose proof (Rabs_pos b). pose proof (Rle_abs (- b)). rewrite Rabs_Ropp in *. nra. }
  destruct (bwn 1 (fun t _ => u t) rho) as (phi & l & Hphi & Hl).
  { intros t i _. pose proof (coord_mod (u t)) as [H1 H2]. pose proof (Bd t). lra. }
  specialize (Hl 0%nat ltac:(lia)). exists (l 0%nat). intros w.
  assert (Lq : is_lim_seq (fun t => sq (p (u (phi t)))) (sq (p (l 0%nat)))).
  { apply ccv_sq. apply ccv_pol. exact Hl. }
  assert (sq (p (l 0%nat)) <= - b).
  { assert (Lb : is_lim_seq (fun t => - b + / INR (S t)) (- b + 0)).
    { apply is_lim_seq_plus'; [apply is_lim_seq_const|]. apply is_lim_seq_spec. intros eps.
      destruct (archimed_cor1 eps (cond_pos eps)) as (N & HN & HN0). exists N. intros t Ht. rewrite Rminus_0_r.
      rewrite Rabs_pos_eq by (apply Rlt_le, inv_S_pos). eapply Rle_lt_trans; [|exact HN]. apply Rinv_le_contravar; [apply lt_0_INR; lia|apply le_INR; lia]. }
    rewrite Rplus_0_r in Lb. change (Rbar_le (sq (p (l 0%nat))) (- b)). apply (is_lim_seq_le (fun t => sq (p (u (phi t)))) (fun t => - b + / INR (S t))); [|exact Lq|exact Lb].
    intros t. specialize (Hu (phi t)). assert (/ INR (S (phi t)) <= / INR (S t)).
    { apply Rinv_le_contravar; [apply lt_0_INR; lia|apply le_INR]. pose proof (strict_ge phi Hphi t). lia. }
    lra. }
  assert (- sq (p w) <= b) by (apply Hub; exists w; reflexivity).
  rewrite !sq_mod in *. pose proof (Cmod_ge_0 (p w)). pose proof (Cmod_ge_0 (p (l 0%nat))). apply Rnot_lt_le. intros L. nra.
Qed.

(** polar form and roots *)
Lemma polar_unit x y : x * x + y * y = 1 -> exists t, cos t = x /\ sin t = y.
Proof.
  intros H. assert (Hx : -1 <= x <= 1) by (split; nra). destruct (Rle_dec 0 y) as [P|N].
  - exists (acos x). split; [apply cos_acos; exact Hx|]. rewrite sin_acos by exact Hx. unfold Rsqr. replace (1 - x * x) with (y * y) by lra. apply sqrt_square. exact P.
  - exists (- acos x). rewrite cos_neg, sin_neg. split; [apply cos_acos; exact Hx|]. rewrite sin_acos by exact Hx. unfold Rsqr. replace (1 - x * x) with ((- y) * (- y)) by lra. rewrite sqrt_square; lra.
Qed.
Lemma polar c : c <> RtoC 0 -> exists a, cexp a = c.
Proof.
  intros Hc. pose proof (Cmod_gt_0 c) as [H _]. specialize (H Hc).
  destruct (polar_unit (fst c / Cmod c) (snd c / Cmod c)) as (t & H1 & H2).
  { pose proof (sq_mod c) as E. unfold sq in E. field_simplify_eq; [|lra]. nra. }
  exists (ln (Cmod c), t). unfold cexp, expi. cbn [fst snd]. rewrite exp_ln by exact H. rewrite H1, H2.
  apply Ceq; cbn [fst snd Cmult RtoC]; field; lra.
Qed.
Lemma kroot c k : c <> RtoC 0 -> (0 < k)%nat -> exists u, cpw u k = c.
Proof.
  intros Hc Hk. destruct (polar c Hc) as [a Ha]. exists (cexp (RtoC (/ INR k) * a)%C). rewrite cpw_exp, <- Ha. f_equal.
  rewrite Cmult_assoc, <- RtoC_mult, Rinv_r by (apply not_0_INR; lia). ring.
Qed.

(** Taylor coefficients *)
Lemma shift_pol m : forall c z0, exists b, b m = c m /\ forall w, pol c (S m) (z0 + w)%C = pol b (S m) w.
Proof.
  induction m as [|m IH]; intros c z0.
  - exists c. split; [reflexivity|]. intros w. unfold pol. cbn [csum cpw]. reflexivity.
  - destruct (IH (fun k => c (S k)) z0) as (b & Hb & HE).
    exists (fun k => ((if Nat.eqb k 0 then c 0%nat else b (k - 1)%nat) + z0 * (if Nat.ltb m k then RtoC 0 else b k))%C). split.
    + cbn [Nat.eqb]. destruct (Nat.ltb_spec m (S m)); [|lia]. replace (S m - 1)%nat with m by lia. rewrite Hb. ring.
    + intros w. rewrite (horner c), HE. unfold pol.
      rewrite (csum_ext (S (S m)) _ (fun k => (if Nat.eqb k 0 then c 0%nat else b (k - 1)%nat) * cpw w k + z0 * ((if Nat.ltb m k then RtoC 0 else b k) * cpw w k))%C) by (intros; ring).
      rewrite csum_plus, csum_scal_l. rewrite (csum_first (S m) (fun k => (if Nat.eqb k 0 then c 0%nat else b (k - 1)%nat) * cpw w k)%C).
      rewrite (csum_ext (S m) (fun i => (if Nat.eqb (S i) 0 then c 0%nat else b (S i - 1)%nat) * cpw w (S i))%C (fun i => w * (b i * cpw w i))%C).
      2:{ intros i Hi. cbn [Nat.eqb cpw]. replace (S i - 1)%nat with i by lia. ring. }
      rewrite csum_scal_l. cbn [Nat.eqb cpw]. 
      change (csum (S (S m)) (fun k => (if (m <? k)%nat then RtoC 0 else b k) * cpw w k)%C) with
        (csum (S m) (fun k => (if (m <? k)%nat then RtoC 0 else b k) * cpw w k)%C + (if (m <? S m)%nat then RtoC 0 else b (S m)) * cpw w (S m))%C.
      destruct (Nat.ltb_spec m (S m)); [|lia].
      rewrite (csum_ext (S m) (fun k => (if (m <? k)%nat then RtoC 0 else b k) * cpw w k)%C (fun k => b k * cpw w k)%C).
      2:{ intros k Hk. destruct (Nat.ltb_spec m k); [lia|reflexivity]. }
      ring.
Qed.

Lemma least_nonzero (b : nat -> C) m : b (S m) <> RtoC 0 -> exists k, (1 <= k <= S m)%nat /\ b k <> RtoC 0 /\ forall j, (1 <= j < k)%nat -> b j = RtoC 0.
Proof.
  intros H. assert (G : forall d, (exists k, (1 <= k <= d)%nat /\ b k <> RtoC 0 /\ forall j, (1 <= j < k)%nat -> b j = RtoC 0) \/ forall j, (1 <= j <= d)%nat -> b j = RtoC 0).
  { induction d as [|d [IH|IH]]; [right; lia| |].
    - left. destruct IH as (k & Hk & R). exists k. split; [lia|exact R].
    - destruct (classic (b (S d) = RtoC 0)) as [E|E].
      + right. intros j Hj. destruct (Nat.eq_dec j (S d)) as [->|]; [exact E|apply IH; lia].
      + left. exists (S d). split; [lia|]. split; [exact E|]. intros j Hj. apply IH. lia. }
  destruct (G (S m)) as [R|R]; [exact R|]. elim H. apply R. lia.
Qed.

Theorem root_exists m c : c (S m) <> RtoC 0 -> exists z, pol c (S (S m)) z = RtoC 0.
Proof.
  intros Hc. destruct (pol_min m c Hc) as [z0 Hmin]. exists z0. apply NNPP. intros Hne.
  destruct (shift_pol (S m) c z0) as (b & Hb & HE).
  assert (B0 : pol c (S (S m)) z0 = b 0%nat).
  { pose proof (HE (RtoC 0)) as E. rewrite Cplus_0_r in E. rewrite E, horner. ring. }
  rewrite B0 in *. rewrite <- Hb in Hc. destruct (least_nonzero b m Hc) as (k & Hk & Hbk & Hz).
  destruct (kroot (- b 0%nat / b k)%C k) as [u Hu]; [|lia|].
  { intros E. apply Hne. transitivity (- (- b 0%nat / b k) * b k)%C; [field; exact Hbk|rewrite E; ring]. }
  set (r := pol (fun j => b (S k + j)%nat) (S m - k)).
  assert (Split : forall w, pol b (S (S m)) w = (b 0%nat + b k * cpw w k + cpw w (S k) * r w)%C).
  { intros w. unfold pol at 1. replace (S (S m)) with (S k + (S m - k))%nat by lia. rewrite csum_add.
    rewrite (csum_ext (S m - k) _ (fun j => cpw w (S k) * (b (S k + j)%nat * cpw w j))%C) by (intros; rewrite cpw_add; ring).
    rewrite csum_scal_l. fold (pol (fun j => b (S k + j)%nat) (S m - k) w). fold (r w). f_equal.
    cbn [csum]. f_equal. destruct k as [|k]; [lia|]. rewrite csum_first. cbn [cpw]. rewrite csum_0; [ring|].
    intros i Hi. rewrite Hz by lia. ring. }
  destruct (pol_bound (S m - k) (fun j => b (S k + j)%nat) (Cmod u)) as (K & HK & HB). fold r in HB.
  pose proof (Cmod_ge_0 u) as Hu0. pose proof (proj1 (Cmod_gt_0 (b 0%nat)) Hne) as P0.
  set (D := Cmod (cpw u (S k)) * K). assert (HD : 0 <= D). { unfold D. pose proof (Cmod_ge_0 (cpw u (S k))). nra. }
  set (t := Cmod (b 0%nat) / (2 * (Cmod (b 0%nat) + D))).
  assert (Ht : 0 < t < 1 /\ t * D < Cmod (b 0%nat)).
  { unfold t. assert (Q : 0 < 2 * (Cmod (b 0%nat) + D)) by lra. repeat split.
    - apply Rdiv_lt_0_compat; lra.
    - apply (Rmult_lt_reg_r (2 * (Cmod (b 0%nat) + D))); [exact Q|]. replace (Cmod (b 0%nat) / (2 * (Cmod (b 0%nat) + D)) * (2 * (Cmod (b 0%nat) + D))) with (Cmod (b 0%nat)) by (field; lra). lra.
    - apply (Rmult_lt_reg_r (2 * (Cmod (b 0%nat) + D))); [exact Q|]. replace (Cmod (b 0%nat) / (2 * (Cmod (b 0%nat) + D)) * D * (2 * (Cmod (b 0%nat) + D))) with (Cmod (b 0%nat) * D) by (field; lra). nra. }
  destruct Ht as [[T0 T1] T2].
  specialize (Hmin (z0 + RtoC t * u)%C). rewrite HE, Split in Hmin.
  rewrite !cpw_mult, !cpw_R, Hu in Hmin.
  replace (b 0%nat + b k * (RtoC (t ^ k) * (- b 0%nat / b k)) + RtoC (t ^ S k) * cpw u (S k) * r (RtoC t * u)%C)%C
    with (RtoC (1 - t ^ k) * b 0%nat + RtoC (t ^ S k) * cpw u (S k) * r (RtoC t * u)%C)%C in Hmin.
  2:{ rewrite RtoC_minus. field. exact Hbk. }
  assert (Tk : 0 < t ^ k) by (apply pow_lt; exact T0).
  assert (Tk1 : t ^ k < 1) by (apply (pow_lt_1_compat t k); [lra|lia]).
  pose proof (Cmod_triangle (RtoC (1 - t ^ k) * b 0%nat)%C (RtoC (t ^ S k) * cpw u (S k) * r (RtoC t * u)%C)%C) as Tr.
  rewrite !Cmod_mult, !Cmod_R in Tr. rewrite (Rabs_pos_eq (1 - t ^ k)) in Tr by lra. rewrite (Rabs_pos_eq (t ^ S k)) in Tr by (apply pow_le; lra).
  assert (Rb : Cmod (r (RtoC t * u)%C) <= K).
  { apply HB. rewrite Cmod_mult, Cmod_R, Rabs_pos_eq by lra. nra. }
  assert (X : t ^ S k * Cmod (cpw u (S k)) * Cmod (r (RtoC t * u)%C) <= t ^ S k * D).
  { unfold D. rewrite Rmult_assoc. apply Rmult_le_compat_l; [apply pow_le; lra|]. apply Rmult_le_compat_l; [apply Cmod_ge_0|exact Rb]. }
  replace (t ^ S k) with (t ^ k * t) in * by (cbn [pow]; ring).
  assert (Y : t ^ k * (t * D) < t ^ k * Cmod (b 0%nat)) by (apply Rmult_lt_compat_l; [exact Tk|exact T2]). lra.
Qed.

(** ** an eigenvector of every matrix *)
(** A^k v and p(A) v *)
Fixpoint mpw (n : nat) (A : cmat) (k : nat) (v : cvec) : cvec := match k with O => v | S k' => mvec n A (mpw n A k' v) end.
Definition papp (n : nat) (A : cmat) (c : nat -> C) (m : nat) (v : cvec) : cvec := fun i => csum m (fun k => c k * mpw n A k v i)%C.
Lemma mvec_papp n A c m v i : mvec n A (papp n A c m v) i = csum m (fun k => c k * mpw n A (S k) v i)%C.
Proof.
  unfold papp, mvec at 1. rewrite (csum_ext n _ (fun j => csum m (fun k => A i j * (c k * mpw n A k v j)))%C) by (intros; symmetry; apply csum_scal_l).
  rewrite csum_swap. apply csum_ext. intros k Hk. cbn [mpw]. unfold mvec. rewrite <- csum_scal_l. apply csum_ext. intros. ring.
Qed.
(** division by z - r *)
Lemma divide m c r : pol c (S (S m)) r = RtoC 0 -> exists b, b m = c (S m) /\
  forall n A v i, (papp n A c (S (S m)) v i = mvec n A (papp n A b (S m) v) i - r * papp n A b (S m) v i)%C.
Proof.
  intros H. set (b := fun k => pol (fun j => c (S k + j)%nat) (S m - k) r).
  assert (B0 : c 0%nat = (- (r * b 0%nat))%C).
  { rewrite horner in H. unfold b. rewrite Nat.sub_0_r. cbn [Nat.add].
    transitivity (c 0%nat + r * pol (fun k => c (S k)) (S m) r - r * pol (fun k => c (S k)) (S m) r)%C; [ring|rewrite H; ring]. }
  assert (Bk : forall k, (k < S m)%nat -> c (S k) = (b k - r * b (S k))%C).
  { intros k Hk. unfold b. replace (S m - k)%nat with (S (S m - S k)) by lia. rewrite horner. rewrite Nat.add_0_r.
    assert (E : pol (fun j => c (S k + S j)%nat) (S m - S k) r = pol (fun j => c (S (S k) + j)%nat) (S m - S k) r).
    { apply csum_ext. intros j Hj. do 2 f_equal. lia. }
    rewrite E. ring. }
  exists b. split.
  - unfold b. replace (S m - m)%nat with 1%nat by lia. unfold pol. cbn [csum cpw]. rewrite Nat.add_0_r. ring.
  - intros n A v i. rewrite mvec_papp. unfold papp at 1. rewrite csum_first.
    rewrite (csum_ext (S m) (fun i0 => c (S i0) * mpw n A (S i0) v i)%C (fun k => b k * mpw n A (S k) v i - r * (b (S k) * mpw n A (S k) v i))%C).
    2:{ intros k Hk. rewrite Bk by exact Hk. ring. }
    rewrite csum_minus, csum_scal_l.
    assert (E : (b 0%nat * v i + csum (S m) (fun k => b (S k) * mpw n A (S k) v i) = papp n A b (S m) v i)%C).
    { transitivity (csum (S (S m)) (fun k => b k * mpw n A k v i)%C); [symmetry; apply (csum_first (S m) (fun k => b k * mpw n A k v i)%C)|]. unfold papp.
      change (csum (S (S m)) (fun k => b k * mpw n A k v i)%C) with (csum (S m) (fun k => b k * mpw n A k v i)%C + b (S m) * mpw n A (S m) v i)%C.
      replace (b (S m)) with (RtoC 0); [ring|]. unfold b. rewrite Nat.sub_diag. reflexivity. }
    rewrite <- E, B0. cbn [mpw]. ring.
Qed.

Lemma killed n A m : forall c v, c m <> RtoC 0 -> (exists i, (i < n)%nat /\ v i <> RtoC 0) ->
  (forall i, (i < n)%nat -> papp n A c (S m) v i = RtoC 0) -> exists l w, eigvec n A l w.
Proof.
  induction m as [|m IH]; intros c v Hc Hv Hz.
  - destruct Hv as (i & Hi & Hv). elim Hv. specialize (Hz i Hi). unfold papp in Hz. cbn [csum mpw] in Hz. rewrite Cplus_0_l in Hz.
    apply NNPP. intros N. elim (Cmult_neq_0 _ _ Hc N Hz).
  - destruct (root_exists m c Hc) as [r Hr]. destruct (divide m c r Hr) as (b & Hb & HE).
    destruct (classic (exists i, (i < n)%nat /\ papp n A b (S m) v i <> RtoC 0)) as [Hw|Hw].
    + exists r, (papp n A b (S m) v). split; [exact Hw|]. intros i Hi. specialize (HE n A v i). rewrite (Hz i Hi) in HE.
      transitivity (mvec n A (papp n A b (S m) v) i - r * papp n A b (S m) v i + r * papp n A b (S m) v i)%C; [ring|]. rewrite <- HE. ring.
    + apply (IH b v); [rewrite Hb; exact Hc|exact Hv|]. intros i Hi. apply NNPP. intros N. apply Hw. exists i. auto.
Qed.
Lemma top_nonzero (c : nat -> C) m : (exists j, (j < m)%nat /\ c j <> RtoC 0) -> exists d, (d < m)%nat /\ c d <> RtoC 0 /\ forall j, (d < j < m)%nat -> c j = RtoC 0.
Proof.
  induction m as [|m IH]; intros (j & Hj & H); [lia|]. destruct (classic (c m = RtoC 0)) as [E|E].
  - destruct IH as (d & Hd & Hn & Hz). { exists j. split; [|exact H]. destruct (Nat.eq_dec j m) as [->|]; [congruence|lia]. }
    exists d. split; [lia|]. split; [exact Hn|]. intros l Hl. destruct (Nat.eq_dec l m) as [->|]; [exact E|apply Hz; lia].
  - exists m. split; [lia|]. split; [exact E|]. intros; lia.
Qed.
Theorem eigenvector_exists n A : (0 < n)%nat -> exists l v, eigvec n A l v.
Proof.
  intros Hn. set (v := fun i => if Nat.eqb i 0 then RtoC 1 else RtoC 0).
  destruct (underdetermined n (S n) (fun i j => mpw n A j v i) ltac:(lia)) as (c & Hc & Hz).
  destruct (top_nonzero c (S n) Hc) as (d & Hd & Hne & Hup).
  apply (killed n A d c v Hne).
  - exists 0%nat. split; [exact Hn|]. unfold v. cbn. apply RtoC_neq0. lra.
  - intros i Hi. specialize (Hz i Hi). rewrite <- Hz. unfold papp. replace (S n) with (S d + (n - d))%nat by lia. rewrite csum_add.
    rewrite (csum_0 (n - d)); [rewrite Cplus_0_r; apply csum_ext; intros; ring|]. intros j Hj. rewrite (Hup (S d + j)%nat) by lia. ring.
Qed.
