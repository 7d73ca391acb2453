(** The spectral theorem for Hermitian matrices: every Hermitian matrix has an
    orthonormal eigensystem.  Generic mathematics only. *)
From Coq Require Import Classical ClassicalEpsilon.
From Coquelicot Require Import Coquelicot.
From Verif Require Import Py CBase SymSpec RunSpec LinProofs.
Open Scope R_scope.

Lemma cdot_plus_r n u v w : cdot n u (fun i => v i + w i)%C = (cdot n u v + cdot n u w)%C.
Proof. unfold cdot. rewrite <- csum_plus. apply csum_ext. intros. ring. Qed.
Lemma cdot_plus_l n u v w : cdot n (fun i => v i + w i)%C u = (cdot n v u + cdot n w u)%C.
Proof. unfold cdot. rewrite <- csum_plus. apply csum_ext. intros. rewrite Cconj_plus. ring. Qed.
Lemma cdot_scal_r n c u v : cdot n u (fun i => c * v i)%C = (c * cdot n u v)%C.
Proof. unfold cdot. rewrite <- csum_scal_l. apply csum_ext. intros. ring. Qed.
Lemma cdot_scal_l n c u v : cdot n (fun i => c * v i)%C u = (Cconj c * cdot n v u)%C.
Proof. unfold cdot. rewrite <- csum_scal_l. apply csum_ext. intros. rewrite Cconj_mult. ring. Qed.
Lemma cdot_ext n u u' v v' : (forall i, (i < n)%nat -> u i = u' i) -> (forall i, (i < n)%nat -> v i = v' i) -> cdot n u v = cdot n u' v'.
Proof. intros H1 H2. apply csum_ext. intros i Hi. rewrite H1, H2 by exact Hi. reflexivity. Qed.
Lemma cdot_conj n u v : Cconj (cdot n u v) = cdot n v u.
Proof. unfold cdot. rewrite csum_conj. apply csum_ext. intros. rewrite Cconj_mult, Cconj_conj. ring. Qed.
Lemma mvec_plus n A v w i : mvec n A (fun i => v i + w i)%C i = (mvec n A v i + mvec n A w i)%C.
Proof. unfold mvec. rewrite <- csum_plus. apply csum_ext. intros. ring. Qed.
Lemma mvec_scal n A c v i : mvec n A (fun i => c * v i)%C i = (c * mvec n A v i)%C.
Proof. unfold mvec. rewrite <- csum_scal_l. apply csum_ext. intros. ring. Qed.
Lemma mvec_ext n A v w i : (forall j, (j < n)%nat -> v j = w j) -> mvec n A v i = mvec n A w i.
Proof. intros H. apply csum_ext. intros j Hj. rewrite H by exact Hj. reflexivity. Qed.

(** squared norm *)
Definition nrm (n : nat) (v : cvec) : R := fst (cdot n v v).
Lemma nrm_S n v : nrm (S n) v = nrm n v + (fst (v n) * fst (v n) + snd (v n) * snd (v n)).
Proof. unfold nrm, cdot. cbn [csum]. cbn [fst snd Cplus Cmult Cconj]. ring. Qed.
Lemma nrm_nonneg n v : 0 <= nrm n v.
Proof. induction n as [|n IH]; [unfold nrm, cdot; cbn; lra|]. rewrite nrm_S. pose proof (Rle_0_sqr (fst (v n))). pose proof (Rle_0_sqr (snd (v n))). unfold Rsqr in *. lra. Qed.
Lemma nrm_coord n v i : (i < n)%nat -> fst (v i) * fst (v i) + snd (v i) * snd (v i) <= nrm n v.
Proof.
  induction n as [|n IH]; [lia|]. intros Hi. rewrite nrm_S. pose proof (nrm_nonneg n v).
  pose proof (Rle_0_sqr (fst (v n))). pose proof (Rle_0_sqr (snd (v n))). unfold Rsqr in *.
  destruct (Nat.eq_dec i n) as [->|]; [lra|]. specialize (IH ltac:(lia)). lra.
Qed.
Lemma nrm_zero n v : nrm n v = 0 -> forall i, (i < n)%nat -> v i = RtoC 0.
Proof.
  intros H i Hi. pose proof (nrm_coord n v i Hi). pose proof (Rle_0_sqr (fst (v i))). pose proof (Rle_0_sqr (snd (v i))). unfold Rsqr in *.
  apply Ceq; cbn; nra.
Qed.
Lemma nrm_pos n v i : (i < n)%nat -> v i <> RtoC 0 -> 0 < nrm n v.
Proof. intros Hi H. destruct (nrm_nonneg n v) as [P|E]; [exact P|]. elim H. apply (nrm_zero n v); auto. Qed.
Lemma cdot_nrm n v : cdot n v v = RtoC (nrm n v).
Proof. apply Ceq; [reflexivity|]. pose proof (cdot_self_real n v) as H. apply is_real_iff in H. exact H. Qed.
Lemma coord_le1 n v i : nrm n v = 1 -> (i < n)%nat -> Rabs (fst (v i)) <= 1 /\ Rabs (snd (v i)) <= 1.
Proof.
  intros H Hi. pose proof (nrm_coord n v i Hi). pose proof (Rle_0_sqr (fst (v i))). pose proof (Rle_0_sqr (snd (v i))). unfold Rsqr in *.
  split; apply Rabs_le; split; nra.
Qed.
(** a non-zero vector can be scaled to unit length *)
Lemma normalise n v : 0 < nrm n v -> nrm n (fun i => RtoC (/ sqrt (nrm n v)) * v i)%C = 1.
Proof.
  intros H. unfold nrm at 1. rewrite cdot_scal_l, cdot_scal_r, cdot_nrm, Cconj_R.
  rewrite <- !RtoC_mult. cbn [fst RtoC]. pose proof (sqrt_lt_R0 _ H) as P. pose proof (sqrt_sqrt (nrm n v) (Rlt_le _ _ H)) as Q.
  set (s := sqrt (nrm n v)) in *. rewrite <- Q. field. lra.
Qed.

Section Step.
Variables (n : nat) (A : cmat).
Hypothesis Herm : forall i j, (i < n)%nat -> (j < n)%nat -> A i j = Cconj (A j i).

Lemma self_adj u v : cdot n u (mvec n A v) = cdot n (mvec n A u) v.
Proof.
  rewrite cdot_adj. apply cdot_ext; [|reflexivity]. intros i Hi. unfold mvec, madj. apply csum_ext. intros j Hj. rewrite <- Herm by assumption. reflexivity.
Qed.
Definition q (v : cvec) : R := fst (cdot n v (mvec n A v)).
Lemma form_real v : cdot n v (mvec n A v) = RtoC (q v).
Proof.
  apply Ceq; [reflexivity|]. assert (H : is_real (cdot n v (mvec n A v))).
  { unfold is_real. rewrite cdot_conj. symmetry. apply self_adj. }
  apply is_real_iff in H. exact H.
Qed.
Lemma form_scal c v : q (fun i => RtoC c * v i)%C = c * c * q v.
Proof.
  unfold q. rewrite (cdot_ext n _ (fun i => RtoC c * v i)%C _ (fun i => RtoC c * mvec n A v i)%C); [|reflexivity|intros; apply mvec_scal].
  rewrite cdot_scal_l, cdot_scal_r, Cconj_R, form_real, <- !RtoC_mult. cbn [fst RtoC]. ring.
Qed.

Variables (k : nat) (V : cmat) (ls : nat -> R).
Hypothesis Hk : (k < n)%nat.
Hypothesis Orth : forall j l, (j < k)%nat -> (l < k)%nat -> cdot n (fun i => V i j) (fun i => V i l) = if Nat.eqb j l then RtoC 1 else RtoC 0.
Hypothesis Eig : forall i j, (i < n)%nat -> (j < k)%nat -> mvec n A (fun i => V i j) i = (RtoC (ls j) * V i j)%C.

Definition perp (v : cvec) : Prop := forall j, (j < k)%nat -> cdot n (fun i => V i j) v = RtoC 0.
Definition sphere (v : cvec) : Prop := perp v /\ nrm n v = 1.

Lemma sphere_ne : exists v, sphere v.
Proof.
  destruct (underdetermined k n (fun j i => Cconj (V i j)) Hk) as (c & (j & Hj & Hc) & Hz).
  pose proof (nrm_pos n c j Hj Hc) as P. exists (fun i => RtoC (/ sqrt (nrm n c)) * c i)%C. split; [|apply normalise; exact P].
  intros l Hl. rewrite cdot_scal_r. unfold cdot. rewrite (Hz l Hl). apply Cmult_0_r.
Qed.

Lemma q_bound : exists D, forall v, nrm n v = 1 -> Rabs (q v) <= D.
Proof.
  set (B := fold_right Rmax 1 (map (fun p => Rabs (fst (A (fst p) (snd p))) + Rabs (snd (A (fst p) (snd p)))) (list_prod (seq 0 n) (seq 0 n)))).
  assert (HB : forall i j, (i < n)%nat -> (j < n)%nat -> Rabs (fst (A i j)) + Rabs (snd (A i j)) <= B).
  { intros i j Hi Hj. unfold B. assert (G : forall l (x : R), In x l -> x <= fold_right Rmax 1 l).
    { induction l as [|y l IH]; intros x []; cbn [fold_right]; [subst; apply Rmax_l|]. eapply Rle_trans; [apply IH; eassumption|apply Rmax_r]. }
    apply G. apply in_map_iff. exists (i, j). split; [reflexivity|]. apply in_prod; apply in_seq; lia. }
  assert (S1 : forall m (f : nat -> C) D, (forall i, (i < m)%nat -> Rabs (fst (f i)) + Rabs (snd (f i)) <= D) -> Rabs (fst (csum m f)) + Rabs (snd (csum m f)) <= INR m * D).
  { intros m f D. induction m as [|m IH]; intros Hf; [cbn; rewrite Rabs_R0; lra|]. cbn [csum]. rewrite S_INR. cbn [fst snd Cplus].
    specialize (IH ltac:(intros; apply Hf; lia)). specialize (Hf m ltac:(lia)).
    pose proof (Rabs_triang (fst (csum m f)) (fst (f m))). pose proof (Rabs_triang (snd (csum m f)) (snd (f m))). lra. }
  assert (M1 : forall a b X Y, Rabs (fst a) <= 1 -> Rabs (snd a) <= 1 -> Rabs (fst b) + Rabs (snd b) <= Y -> X = Y * 2 -> Rabs (fst (a * b)%C) + Rabs (snd (a * b)%C) <= X).
  { intros a b X Y H1 H2 H3 ->. cbn [fst snd Cmult].
    pose proof (Rabs_triang (fst a * fst b) (- (snd a * snd b))). pose proof (Rabs_triang (fst a * snd b) (snd a * fst b)).
    rewrite Rabs_Ropp in *. rewrite !Rabs_mult in *. unfold Rminus in *.
    pose proof (Rabs_pos (fst a)). pose proof (Rabs_pos (snd a)). pose proof (Rabs_pos (fst b)). pose proof (Rabs_pos (snd b)). nra. }
  exists (INR n * (INR n * (B * 2) * 2)). intros v H.
  assert (C1 := fun i Hi => coord_le1 n v i H Hi).
  assert (T : Rabs (q v) + Rabs (snd (cdot n v (mvec n A v))) <= INR n * (INR n * (B * 2) * 2)).
  { unfold q, cdot. apply S1. intros i Hi. destruct (C1 i Hi) as [Ca Cb].
    apply (M1 _ _ _ (INR n * (B * 2))); [exact Ca|cbn [snd Cconj]; rewrite Rabs_Ropp; exact Cb| |reflexivity].
    unfold mvec. apply S1. intros j Hj. rewrite Cmult_comm. destruct (C1 j Hj). apply (M1 _ _ _ B); auto. }
  pose proof (Rabs_pos (snd (cdot n v (mvec n A v)))). lra.
Qed.

(** the least value of the form on the sphere is attained *)
Lemma attained : exists v, sphere v /\ forall w, sphere w -> q v <= q w.
Proof.
  destruct q_bound as [D HD]. destruct sphere_ne as [v0 Hv0].
  destruct (completeness (fun x => exists v, sphere v /\ x = - q v)) as [m [Hub Hleast]].
  { exists D. intros x (v & [Hv Hn] & ->). specialize (HD v Hn). apply Rabs_le_between in HD. lra. }
  { exists (- q v0), v0. auto. }
  assert (NX : forall t : nat, exists v, sphere v /\ m - / INR (S t) < - q v).
  { intros t. apply NNPP. intros H. assert (m <= m - / INR (S t)).
    { apply Hleast. intros x (v & Hv & ->). apply Rnot_lt_le. intros L. apply H. exists v. auto. }
    pose proof (inv_S_pos t). lra. }
  set (u := fun t => proj1_sig (constructive_indefinite_description _ (NX t))).
  assert (Hu : forall t, sphere (u t) /\ m - / INR (S t) < - q (u t)).
  { intros t. exact (proj2_sig (constructive_indefinite_description _ (NX t))). }
  destruct (bwn n u 1) as (phi & l & Hphi & Hl).
  { intros t i Hi. destruct (Hu t) as [[_ Hn] _]. apply (coord_le1 n (u t) i Hn Hi). }
  assert (Lcoef : forall (w : nat -> cvec) (a : cvec), (forall i, (i < n)%nat -> ccv (fun t => w t i) (a i)) -> forall i, ccv (fun t => mvec n A (w t) i) (mvec n A a i)).
  { intros w a Hw i. unfold mvec. apply (ccv_csum n (fun t k => A i k * w t k)%C (fun k => A i k * a k)%C). intros j Hj. apply ccv_mult; [apply ccv_const|apply Hw; exact Hj]. }
  assert (Ldot : forall (w x : nat -> cvec) (a b : cvec), (forall i, (i < n)%nat -> ccv (fun t => w t i) (a i)) -> (forall i, (i < n)%nat -> ccv (fun t => x t i) (b i)) -> ccv (fun t => cdot n (w t) (x t)) (cdot n a b)).
  { intros w x a b Hw Hx. unfold cdot. apply (ccv_csum n (fun t i => Cconj (w t i) * x t i)%C (fun i => Cconj (a i) * b i)%C). intros j Hj. apply ccv_mult; [apply ccv_conj; apply Hw; exact Hj|apply Hx; exact Hj]. }
  exists l. split; [split|].
  - intros j Hj. apply (ccv_unique (fun t => cdot n (fun i => V i j) (u (phi t)))).
    + apply Ldot; [intros; apply ccv_const|exact Hl].
    + apply (ccv_ext (fun _ => RtoC 0)); [|apply ccv_const]. intros t. symmetry. apply (proj1 (proj1 (Hu (phi t)))). exact Hj.
  - assert (E : cdot n l l = RtoC 1).
    { apply (ccv_unique (fun t => cdot n (u (phi t)) (u (phi t)))); [apply Ldot; exact Hl|].
      apply (ccv_ext (fun _ => RtoC 1)); [|apply ccv_const]. intros t. rewrite cdot_nrm. rewrite (proj2 (proj1 (Hu (phi t)))). reflexivity. }
    unfold nrm. rewrite E. reflexivity.
  - assert (Lq : is_lim_seq (fun t => q (u (phi t))) (q l)).
    { apply (Ldot (fun t => u (phi t)) (fun t => mvec n A (u (phi t))) l (mvec n A l)); [exact Hl|]. intros i _. apply (Lcoef (fun t => u (phi t))). exact Hl. }
    intros w Hw. assert (q l <= - m).
    { assert (Lb : is_lim_seq (fun t => - m + / INR (S t)) (- m + 0)).
      { apply is_lim_seq_plus'; [apply is_lim_seq_const|]. apply is_lim_seq_spec. intros eps.
        destruct (archimed_cor1 eps (cond_pos eps)) as (N & HN & HN0). exists N. intros t Ht. rewrite Rminus_0_r.
        rewrite Rabs_pos_eq by (apply Rlt_le, inv_S_pos). eapply Rle_lt_trans; [|exact HN]. apply Rinv_le_contravar; [apply lt_0_INR; lia|apply le_INR; lia]. }
      rewrite Rplus_0_r in Lb. change (Rbar_le (q l) (- m)). apply (is_lim_seq_le (fun t => q (u (phi t))) (fun t => - m + / INR (S t))); [|exact Lq|exact Lb].
      intros t. destruct (Hu (phi t)) as [_ B1]. assert (/ INR (S (phi t)) <= / INR (S t)).
      { apply Rinv_le_contravar; [apply lt_0_INR; lia|apply le_INR]. pose proof (strict_ge phi Hphi t). lia. }
      lra. }
    assert (- q w <= m) by (apply Hub; exists w; auto). lra.
Qed.

Lemma next_pair : exists v lam, perp v /\ nrm n v = 1 /\ forall i, (i < n)%nat -> mvec n A v i = (RtoC lam * v i)%C.
Proof.
  destruct attained as (v & [Hp Hn] & Hmin). exists v, (q v). split; [exact Hp|]. split; [exact Hn|].
  assert (Hall : forall w, perp w -> q v * nrm n w <= q w).
  { intros w Hw. destruct (nrm_nonneg n w) as [P|E].
    - specialize (Hmin (fun i => RtoC (/ sqrt (nrm n w)) * w i)%C). rewrite form_scal in Hmin.
      assert (G : sphere (fun i => RtoC (/ sqrt (nrm n w)) * w i)%C).
      { split; [|apply normalise; exact P]. intros j Hj. rewrite cdot_scal_r. rewrite (Hw j Hj). apply Cmult_0_r. }
      specialize (Hmin G). pose proof (sqrt_lt_R0 _ P) as Q. pose proof (sqrt_sqrt (nrm n w) (Rlt_le _ _ P)) as Q2.
      set (s := sqrt (nrm n w)) in *. rewrite <- Q2. apply (Rmult_le_compat_l (s * s)) in Hmin; [|nra].
      replace (s * s * (/ s * / s * q w)) with (q w) in Hmin by (field; lra). lra.
    - assert (Q0 : q w = 0).
      { unfold q. rewrite (cdot_ext n w (fun _ => RtoC 0) (mvec n A w) (mvec n A w)); [|apply (nrm_zero n w); auto|auto].
        unfold cdot. rewrite csum_0; [reflexivity|]. intros. rewrite Cconj_R. apply Cmult_0_l. }
      rewrite <- E, Q0. lra. }
  set (g := fun i => (mvec n A v i + RtoC (- q v) * v i)%C).
  assert (Hg : perp g).
  { intros j Hj. unfold g. rewrite cdot_plus_r, cdot_scal_r, (Hp j Hj), self_adj.
    rewrite (cdot_ext n _ (fun i => RtoC (ls j) * V i j)%C _ v); [|intros i Hi; apply Eig; assumption|reflexivity].
    rewrite cdot_scal_l, (Hp j Hj). ring. }
  assert (Hvg : cdot n v g = RtoC 0).
  { unfold g. rewrite cdot_plus_r, cdot_scal_r, form_real, cdot_nrm, Hn, <- !RtoC_mult, <- RtoC_plus. f_equal. ring. }
  assert (Hgv : cdot n g v = RtoC 0) by (rewrite <- cdot_conj, Hvg; apply Cconj_R).
  assert (Hgg : cdot n g (mvec n A v) = RtoC (nrm n g)).
  { transitivity (cdot n g (fun i => g i + RtoC (q v) * v i)%C).
    - apply cdot_ext; [reflexivity|]. intros i Hi. unfold g. rewrite RtoC_opp. ring.
    - rewrite cdot_plus_r, cdot_scal_r, Hgv, cdot_nrm. ring. }
  assert (Quad : forall t, 0 <= 2 * t * nrm n g + t * t * (q g - q v * nrm n g)).
  { intros t. set (w := fun i => (v i + RtoC t * g i)%C).
    assert (Hw : perp w). { intros j Hj. unfold w. rewrite cdot_plus_r, cdot_scal_r, (Hp j Hj), (Hg j Hj). ring. }
    specialize (Hall w Hw).
    assert (Nw : nrm n w = 1 + t * t * nrm n g).
    { unfold nrm at 1. unfold w. rewrite cdot_plus_r, !cdot_plus_l, !cdot_scal_r, !cdot_scal_l, Hvg, Hgv, !cdot_nrm, Hn, Cconj_R. rewrite <- !RtoC_mult. cbn. ring. }
    assert (Qw : q w = q v + 2 * t * nrm n g + t * t * q g).
    { unfold q at 1. unfold w. rewrite (cdot_ext n _ (fun i => v i + RtoC t * g i)%C _ (fun i => mvec n A v i + RtoC t * mvec n A g i)%C); [|reflexivity|intros; rewrite mvec_plus, mvec_scal; reflexivity].
      rewrite cdot_plus_r, !cdot_plus_l, !cdot_scal_r, !cdot_scal_l, !form_real, Hgg, (self_adj v g).
      rewrite <- (cdot_conj n g (mvec n A v)), Hgg, !Cconj_R. rewrite <- !RtoC_mult. cbn. ring. }
    rewrite Nw, Qw in Hall. lra. }
  assert (Z : nrm n g = 0).
  { pose proof (Hall g Hg) as Hc. pose proof (nrm_nonneg n g) as Hng. set (c := q g - q v * nrm n g) in *. set (N := nrm n g) in *.
    assert (0 <= c) by (unfold c; lra). destruct (Rle_lt_or_eq_dec 0 c H) as [P|E].
    - specialize (Quad (- N / c)). replace (2 * (- N / c) * N + - N / c * (- N / c) * c) with (- (N * N) / c) in Quad by (field; lra).
      assert (N * N <= 0). { apply (Rmult_le_compat_r c) in Quad; [|lra]. replace (- (N * N) / c * c) with (- (N * N)) in Quad by (field; lra). lra. }
      nra.
    - specialize (Quad (- 1)). rewrite <- E in Quad. lra. }
  intros i Hi. pose proof (nrm_zero n g Z i Hi) as E. unfold g in E. rewrite RtoC_opp in E.
  transitivity (mvec n A v i + - RtoC (q v) * v i + RtoC (q v) * v i)%C; [ring|]. rewrite E. ring.
Qed.
End Step.

Lemma partial_system n A : (forall i j, (i < n)%nat -> (j < n)%nat -> A i j = Cconj (A j i)) -> forall k, (k <= n)%nat -> exists V ls,
  (forall j l, (j < k)%nat -> (l < k)%nat -> cdot n (fun i => V i j) (fun i => V i l) = if Nat.eqb j l then RtoC 1 else RtoC 0) /\
  (forall i j, (i < n)%nat -> (j < k)%nat -> mvec n A (fun i => V i j) i = (RtoC (ls j) * V i j)%C).
Proof.
  intros Herm k. induction k as [|k IH]; intros Hk.
  - exists (fun _ _ => RtoC 0), (fun _ => 0). split; intros; lia.
  - destruct (IH ltac:(lia)) as (V & ls & Orth & Eig).
    destruct (next_pair n A Herm k V ls ltac:(lia) Eig) as (v & lam & Hp & Hn & Hv).
    exists (fun i j => if Nat.eqb j k then v i else V i j), (fun j => if Nat.eqb j k then lam else ls j). split.
    + intros j l Hj Hl. destruct (Nat.eqb_spec j k) as [->|Hjk]; destruct (Nat.eqb_spec l k) as [->|Hlk].
      * rewrite Nat.eqb_refl. change (cdot n v v = RtoC 1). rewrite cdot_nrm, Hn. reflexivity.
      * destruct (Nat.eqb_spec k l) as [E|_]; [congruence|]. change (cdot n v (fun i => V i l) = RtoC 0). rewrite <- cdot_conj, (Hp l) by lia. apply Cconj_R.
      * destruct (Nat.eqb_spec j k) as [E|_]; [congruence|]. apply (Hp j). lia.
      * apply Orth; lia.
    + intros i j Hi Hj. destruct (Nat.eqb_spec j k) as [->|Hjk]; [apply Hv; exact Hi|apply Eig; [exact Hi|lia]].
Qed.

Theorem spectral n A : (forall i j, (i < n)%nat -> (j < n)%nat -> A i j = Cconj (A j i)) -> exists ls V, eigensystem n A ls V.
Proof.
  intros Herm. destruct (partial_system n A Herm n (le_n n)) as (V & ls & Orth & Eig).
  exists (map ls (seq 0 n)), V. split; [rewrite map_length, seq_length; reflexivity|]. split.
  - intros j k Hj Hk. apply (Orth j k Hj Hk).
  - intros i j Hi Hj. rewrite (Eig i j Hi Hj). do 2 f_equal.
    rewrite (nth_indep _ 0 (ls 0%nat)) by (rewrite map_length, seq_length; exact Hj). rewrite map_nth, seq_nth by exact Hj. reflexivity.
Qed.
