(** The gradient of the matrix inverse. *)
From Verif Require Import Py CBase RecipModel PrimSpec PrimModel PrimProofs.
Open Scope R_scope.
Open Scope list_scope.

(** ** real finite sums and the entrywise norm *)
Fixpoint rs (n : nat) (f : nat -> R) : R := match n with O => 0 | S k => rs k f + f k end.
Lemma rs_le n f g : (forall i, (i < n)%nat -> f i <= g i) -> rs n f <= rs n g.
Proof. induction n; simpl; intros H; [lra|]. pose proof (IHn ltac:(auto)). pose proof (H n ltac:(auto)). lra. Qed.
Lemma rs_ext n f g : (forall i, (i < n)%nat -> f i = g i) -> rs n f = rs n g.
Proof. induction n; simpl; intros H; auto. rewrite IHn, H; auto. Qed.
Lemma rs_nonneg n f : (forall i, (i < n)%nat -> 0 <= f i) -> 0 <= rs n f.
Proof. induction n; simpl; intros H; [lra|]. pose proof (IHn ltac:(auto)). pose proof (H n ltac:(auto)). lra. Qed.
Lemma rs_scal_l n c f : rs n (fun i => c * f i) = c * rs n f.
Proof. induction n; simpl; [ring|]. rewrite IHn; ring. Qed.
Lemma rs_scal_r n c f : rs n (fun i => f i * c) = rs n f * c.
Proof. induction n; simpl; [ring|]. rewrite IHn; ring. Qed.
Lemma rs_plus n f g : rs n (fun i => f i + g i) = rs n f + rs n g.
Proof. induction n; simpl; [ring|]. rewrite IHn; ring. Qed.
Lemma rs_zero n : rs n (fun _ => 0) = 0.
Proof. induction n; simpl; auto. rewrite IHn; ring. Qed.
Lemma rs_swap n m f : rs n (fun i => rs m (fun j => f i j)) = rs m (fun j => rs n (fun i => f i j)).
Proof.
  induction n; simpl; [symmetry; apply rs_zero|]. rewrite IHn, <- rs_plus. apply rs_ext; auto.
Qed.
Lemma rs_term n f i : (forall i, (i < n)%nat -> 0 <= f i) -> (i < n)%nat -> f i <= rs n f.
Proof.
  induction n; simpl; intros H Hi; [lia|]. destruct (Nat.eq_dec i n) as [->|].
  - pose proof (rs_nonneg n f ltac:(auto)). lra.
  - pose proof (IHn ltac:(auto) ltac:(lia)). pose proof (H n ltac:(lia)). lra.
Qed.
Lemma Cmod_csum n f : Cmod (csum n f) <= rs n (fun i => Cmod (f i)).
Proof. induction n; simpl; [rewrite Cmod_0; lra|]. eapply Rle_trans; [apply Cmod_triangle|]. lra. Qed.
Definition nrm (n : nat) (A : cmat) : R := rs n (fun i => rs n (fun j => Cmod (A i j))).
Lemma nrm_pos n A : 0 <= nrm n A.
Proof. apply rs_nonneg. intros. apply rs_nonneg. intros. apply Cmod_ge_0. Qed.
Lemma nrm_entry n A i j : (i < n)%nat -> (j < n)%nat -> Cmod (A i j) <= nrm n A.
Proof.
  intros Hi Hj. eapply Rle_trans; [|apply (rs_term n (fun i => rs n (fun j => Cmod (A i j))) i)]; auto.
  - apply (rs_term n (fun j => Cmod (A i j))); auto. intros; apply Cmod_ge_0.
  - intros. apply rs_nonneg. intros. apply Cmod_ge_0.
Qed.
Lemma nrm_ext n A B : meq n n A B -> nrm n A = nrm n B.
Proof. intros H. apply rs_ext. intros i Hi. apply rs_ext. intros j Hj. rewrite H; auto. Qed.
Lemma nrm_plus n A B : nrm n (fun i j => Cplus (A i j) (B i j)) <= nrm n A + nrm n B.
Proof.
  unfold nrm. rewrite <- rs_plus. apply rs_le. intros i _. rewrite <- rs_plus. apply rs_le. intros. apply Cmod_triangle.
Qed.
Lemma nrm_mul n A B : nrm n (mmul n A B) <= nrm n A * nrm n B.
Proof.
  apply (Rle_trans _ (rs n (fun i => rs n (fun j => rs n (fun k => Cmod (A i k) * Cmod (B k j)))))).
  { apply rs_le. intros i _. apply rs_le. intros j _. unfold mmul. eapply Rle_trans; [apply Cmod_csum|].
    apply rs_le. intros k _. rewrite Cmod_mult. lra. }
  unfold nrm at 1. rewrite <- rs_scal_r. apply rs_le. intros i _. rewrite rs_swap. rewrite <- rs_scal_r. apply rs_le.
  intros k Hk. rewrite rs_scal_l. apply Rmult_le_compat_l; [apply Cmod_ge_0|].
  apply (rs_term n (fun i => rs n (fun j => Cmod (B i j)))); auto. intros. apply rs_nonneg. intros. apply Cmod_ge_0.
Qed.

(** ** a differentiable curve moves at most linearly *)
Definition linear_bound (f : R -> R) : Prop := exists K d, 0 < d /\ 0 <= K /\ forall s, Rabs s < d -> f s <= K * Rabs s.
Lemma lb_dlim f l : derivable_pt_lim f 0 l -> linear_bound (fun s => Rabs (f s - f 0)).
Proof.
  intros H. destruct (H 1 Rlt_0_1) as (d & Hd). exists (Rabs l + 1), d. split; [apply cond_pos|]. pose proof (Rabs_pos l). split; [lra|].
  intros s Hs. destruct (Req_dec s 0) as [->|N]; [rewrite Rminus_eq_0, Rabs_R0; lra|].
  pose proof (Hd s N Hs) as B. rewrite Rplus_0_l in B.
  pose proof (Rabs_triang_inv ((f s - f 0) / s) l) as T.
  assert (Rabs ((f s - f 0) / s) <= Rabs l + 1) by lra. unfold Rdiv in H1. rewrite Rabs_mult, Rabs_inv in H1.
  assert (0 < Rabs s) by (apply Rabs_pos_lt; auto).
  apply (Rmult_le_compat_r (Rabs s)) in H1; [|lra]. rewrite Rmult_assoc, Rinv_l in H1 by lra. lra.
Qed.
Lemma lb_plus f g : linear_bound f -> linear_bound g -> linear_bound (fun s => f s + g s).
Proof.
  intros (K & d & Hd & HK & H) (K' & d' & Hd' & HK' & H'). exists (K + K'), (Rmin d d').
  split; [apply Rmin_pos; auto|]. split; [lra|]. intros s Hs. pose proof (Rmin_l d d'). pose proof (Rmin_r d d').
  pose proof (H s ltac:(lra)). pose proof (H' s ltac:(lra)). lra.
Qed.
Lemma lb_rs n (f : R -> nat -> R) : (forall i, (i < n)%nat -> linear_bound (fun s => f s i)) -> linear_bound (fun s => rs n (f s)).
Proof.
  induction n; simpl; intros H.
  - exists 0, 1. split; [lra|]. split; [lra|]. intros. lra.
  - apply (lb_plus (fun s => rs n (f s)) (fun s => f s n)); auto.
Qed.
Lemma lb_mono f g : (forall s, f s <= g s) -> linear_bound g -> linear_bound f.
Proof. intros E (K & d & Hd & HK & H). exists K, d. split; auto. split; auto. intros s Hs. pose proof (E s). pose proof (H s Hs). lra. Qed.
Lemma lb_cderiv z a : cderiv z a -> linear_bound (fun s => Cmod (Cminus (z s) (z 0))).
Proof.
  intros (A & B). eapply lb_mono; [|apply (lb_plus _ _ (lb_dlim _ _ A) (lb_dlim _ _ B))].
  intros s. cbn beta. destruct (z s) as [x y], (z 0) as [x0 y0]. unfold Cmod, Cminus, Cplus, Copp. cbn [fst snd].
  pose proof (Rabs_pos (x - x0)). pose proof (Rabs_pos (y - y0)).
  apply Rsqr_incr_0_var; [|lra]. rewrite Rsqr_sqrt by (apply Rplus_le_le_0_compat; apply pow2_ge_0). unfold Rsqr.
  assert (forall t, t * t = Rabs t * Rabs t) by (intros t; destruct (Rcase_abs t); [rewrite Rabs_left|rewrite Rabs_right]; auto; nra).
  replace ((x + - x0) ^ 2 + (y + - y0) ^ 2) with ((x - x0) * (x - x0) + (y - y0) * (y - y0)) by ring. rewrite (H1 (x - x0)), (H1 (y - y0)). nra.
Qed.
Lemma lb_nrm n A dA : curve2 n n A dA -> linear_bound (fun s => nrm n (fun i j => Cminus (A s i j) (A 0 i j))).
Proof.
  intros H. apply lb_rs. intros i Hi. apply lb_rs. intros j Hj. apply (lb_cderiv (fun s => A s i j) (dA i j)). auto.
Qed.

(** ** the derivative of the inverse *)
Section Inv.
Variables (n : nat) (A Y : R -> cmat) (dA : cmat).
Hypothesis HA : curve2 n n A dA.
Hypothesis HY : nearby (fun s => inverse_of n (A s) (Y s)).
Let D s : cmat := fun i j => Cminus (A s i j) (A 0 i j).

Lemma inv0 : inverse_of n (A 0) (Y 0).
Proof. destruct HY as (d & Hd & H). apply H. rewrite Rabs_R0. auto. Qed.
Lemma mmul_minus B X X' i j : mmul n B (fun a b => Cminus (X a b) (X' a b)) i j = Cminus (mmul n B X i j) (mmul n B X' i j).
Proof. unfold mmul. rewrite <- csum_minus. apply csum_ext. intros. ring. Qed.
Lemma mmul_minus_l B X X' i j : mmul n (fun a b => Cminus (X a b) (X' a b)) B i j = Cminus (mmul n X B i j) (mmul n X' B i j).
Proof. unfold mmul. rewrite <- csum_minus. apply csum_ext. intros. ring. Qed.
Lemma step1 s : inverse_of n (A s) (Y s) -> forall i j, (i < n)%nat -> (j < n)%nat ->
  Y s i j = Cminus (Y 0 i j) (mmul n (Y 0) (mmul n (D s) (Y s)) i j).
Proof.
  intros (I1 & _) i j Hi Hj. destruct inv0 as (_ & I0).
  assert (E : mmul n (Y 0) (mmul n (D s) (Y s)) i j = Cminus (Y 0 i j) (Y s i j)).
  { rewrite (mmul_ext n (Y 0) (Y 0) _ (fun a b => Cminus (mid a b) (mmul n (A 0) (Y s) a b))); auto.
    2:{ intros k Hk. unfold D. rewrite mmul_minus_l, I1; auto. }
    rewrite mmul_minus, mmul_id_r by auto. f_equal. rewrite <- mmul_assoc.
    rewrite (mmul_ext n (mmul n (Y 0) (A 0)) mid (Y s) (Y s)); auto. apply mmul_id_l; auto. }
  rewrite E. ring.
Qed.
Lemma step2 s : inverse_of n (A s) (Y s) -> forall i j, (i < n)%nat -> (j < n)%nat ->
  Y s i j = Cplus (Cminus (Y 0 i j) (mmul n (Y 0) (mmul n (D s) (Y 0)) i j))
                  (mmul n (Y 0) (mmul n (D s) (mmul n (Y 0) (mmul n (D s) (Y s)))) i j).
Proof.
  intros I i j Hi Hj. rewrite (step1 s I i j Hi Hj) at 1.
  rewrite (mmul_ext n (Y 0) (Y 0) (mmul n (D s) (Y s)) (fun a b => Cminus (mmul n (D s) (Y 0) a b) (mmul n (D s) (mmul n (Y 0) (mmul n (D s) (Y s))) a b))); auto.
  - rewrite mmul_minus. ring.
  - intros k Hk. rewrite <- mmul_minus. apply mmul_ext; auto. intros l Hl. apply step1; auto.
Qed.
Lemma Y_bounded : exists d, 0 < d /\ forall s, Rabs s < d -> nrm n (Y s) <= 2 * nrm n (Y 0).
Proof.
  destruct HY as (d & Hd & H). destruct (lb_nrm n A dA HA) as (K & d' & Hd' & HK & L).
  pose proof (nrm_pos n (Y 0)) as P0.
  set (e := 1 / (2 * (K + 1) * (nrm n (Y 0) + 1))).
  assert (He : 0 < e) by (apply Rdiv_lt_0_compat; nra).
  exists (Rmin d (Rmin d' e)). split; [repeat apply Rmin_pos; auto|].
  intros s Hs. pose proof (Rmin_l d (Rmin d' e)). pose proof (Rmin_r d (Rmin d' e)). pose proof (Rmin_l d' e). pose proof (Rmin_r d' e).
  assert (I : inverse_of n (A s) (Y s)) by (apply H; lra).
  assert (B : nrm n (Y s) <= nrm n (Y 0) + nrm n (Y 0) * (nrm n (D s) * nrm n (Y s))).
  { set (W := mmul n (Y 0) (mmul n (D s) (Y s))).
    apply (Rle_trans _ (nrm n (fun i j => Cplus (Y 0 i j) (Copp (W i j))))).
    { right. apply nrm_ext. intros i j Hi Hj. apply (step1 s I i j Hi Hj). }
    eapply Rle_trans; [apply nrm_plus|]. apply Rplus_le_compat_l.
    apply (Rle_trans _ (nrm n W)). { right. apply rs_ext. intros i _. apply rs_ext. intros j _. apply Cmod_opp. }
    eapply Rle_trans; [apply (nrm_mul n (Y 0) (mmul n (D s) (Y s)))|]. apply Rmult_le_compat_l; auto. apply nrm_mul. }
  pose proof (L s ltac:(lra)) as LD. fold (D s) in LD. pose proof (nrm_pos n (D s)). pose proof (nrm_pos n (Y s)) as PY. pose proof (Rabs_pos s).
  assert (HD : nrm n (Y 0) * nrm n (D s) <= 1 / 2).
  { assert (nrm n (D s) <= K * e) by (eapply Rle_trans; [exact LD|]; apply Rmult_le_compat_l; lra).
    assert (E : (K + 1) * e * (nrm n (Y 0) + 1) = 1 / 2) by (unfold e; field; split; lra).
    nra. }
  assert (nrm n (Y 0) * (nrm n (D s) * nrm n (Y s)) <= 1 / 2 * nrm n (Y s)) by nra. lra.
Qed.
Lemma remainder_small i j : (i < n)%nat -> (j < n)%nat -> exists K d, 0 < d /\ forall s, Rabs s < d ->
  Cmod (mmul n (Y 0) (mmul n (D s) (mmul n (Y 0) (mmul n (D s) (Y s)))) i j) <= K * (s * s).
Proof.
  intros Hi Hj. destruct Y_bounded as (d & Hd & B). destruct (lb_nrm n A dA HA) as (K & d' & Hd' & HK & L).
  set (y := nrm n (Y 0)). assert (Py : 0 <= y) by apply nrm_pos.
  exists (y * K * y * K * (2 * y)), (Rmin d d'). split; [apply Rmin_pos; auto|]. intros s Hs.
  pose proof (Rmin_l d d'). pose proof (Rmin_r d d').
  pose proof (B s ltac:(lra)) as BY. pose proof (L s ltac:(lra)) as LD. fold (D s) in LD. fold y in BY.
  pose proof (nrm_pos n (D s)) as PD. pose proof (nrm_pos n (Y s)) as PY. pose proof (Rabs_pos s) as Ps.
  eapply Rle_trans; [apply (nrm_entry n _ i j Hi Hj)|].
  eapply Rle_trans; [apply nrm_mul|]. fold y.
  apply (Rle_trans _ (y * (nrm n (D s) * (y * (nrm n (D s) * nrm n (Y s)))))).
  { apply Rmult_le_compat_l; auto. eapply Rle_trans; [apply nrm_mul|]. apply Rmult_le_compat_l; auto.
    eapply Rle_trans; [apply nrm_mul|]. fold y. apply Rmult_le_compat_l; auto. apply nrm_mul. }
  assert (Es : s * s = Rabs s * Rabs s) by (destruct (Rcase_abs s); [rewrite Rabs_left|rewrite Rabs_right]; auto; nra).
  rewrite Es. set (t := nrm n (D s)) in *. set (z := nrm n (Y s)) in *.
  assert (0 <= K * Rabs s) by nra.
  assert (t * z <= K * Rabs s * (2 * y)) by (apply Rmult_le_compat; lra).
  assert (t * (y * (t * z)) <= K * Rabs s * (y * (K * Rabs s * (2 * y)))).
  { assert (0 <= t * z) by (apply Rmult_le_pos; auto). apply Rmult_le_compat; auto; [apply Rmult_le_pos; auto|]. apply Rmult_le_compat_l; auto. }
  apply (Rmult_le_compat_l y) in H3; auto. eapply Rle_trans; [exact H3|]. right. ring.
Qed.
Lemma inverse_deriv : curve2 n n Y (fun i j => Copp (mmul n (Y 0) (mmul n dA (Y 0)) i j)).
Proof.
  intros i j Hi Hj. set (rem s := mmul n (Y 0) (mmul n (D s) (mmul n (Y 0) (mmul n (D s) (Y s)))) i j).
  set (lin s := Cminus (Y 0 i j) (mmul n (Y 0) (mmul n (D s) (Y 0)) i j)).
  destruct HY as (d & Hd & H).
  apply (cderiv_near (fun s => Cplus (lin s) (rem s))).
  { exists d. split; auto. intros s Hs. symmetry. apply step2; auto. }
  assert (R0 : cderiv rem (RtoC 0)).
  { destruct (remainder_small i j Hi Hj) as (K & d' & Hd' & B). fold rem in B.
    assert (Z0 : rem 0 = RtoC 0).
    { unfold rem, mmul. apply csum_0. intros k _. rewrite csum_0; [ring|]. intros l _. unfold D. ring. }
    split; cbn [fst snd RtoC]; apply (dlim_zero_quad _ K d'); auto; try (rewrite Z0; reflexivity); intros s Hs;
      (eapply Rle_trans; [|apply (B s Hs)]); pose proof (Rmax_Cmod (rem s)); pose proof (Rmax_l (Rabs (fst (rem s))) (Rabs (snd (rem s))));
      pose proof (Rmax_r (Rabs (fst (rem s))) (Rabs (snd (rem s)))); unfold rem in *; cbv beta in *; lra. }
  eapply cderiv_val; [|apply (cderiv_plus lin rem (Cminus (RtoC 0) (mmul n (Y 0) (mmul n dA (Y 0)) i j)) (RtoC 0)); [|exact R0]].
  2:{ unfold lin. apply (cderiv_minus (fun _ => Y 0 i j) (fun s => mmul n (Y 0) (mmul n (D s) (Y 0)) i j) (RtoC 0) (mmul n (Y 0) (mmul n dA (Y 0)) i j)); [apply cderiv_const|].
      unfold mmul. apply (cderiv_csum n (fun s k => Cmult (Y 0 i k) (csum n (fun l => Cmult (D s k l) (Y 0 l j))))). intros k Hk. apply cderiv_scal.
      apply (cderiv_csum n (fun s l => Cmult (D s k l) (Y 0 l j))). intros l Hl.
      eapply cderiv_val; [|apply (cderiv_mult (fun s => D s k l) (fun _ => Y 0 l j) (dA k l) (RtoC 0)); [|apply cderiv_const]]; [ring|].
      eapply cderiv_val; [|apply (cderiv_minus (fun s => A s k l) (fun _ => A 0 k l) (dA k l) (RtoC 0)); [apply HA; auto|apply cderiv_const]]. ring. }
  cring.
Qed.
Lemma inv_pair g : pair2 n n g (fun i j => Copp (mmul n (Y 0) (mmul n dA (Y 0)) i j)) = pair2 n n (vjp_inv n (Y 0) g) dA.
Proof.
  unfold pair2, vjp_inv. f_equal. set (y := Y 0).
  transitivity (Copp (csum n (fun i => csum n (fun j => csum n (fun k => csum n (fun l => Cmult (Cmult (y k i) (g k l)) (Cmult (y j l) (dA i j)))))))).
  2:{ rewrite <- csum_opp. apply csum_ext. intros i _. rewrite <- csum_opp. apply csum_ext. intros j _.
      transitivity (Copp (Cmult (csum n (fun k => csum n (fun l => Cmult (Cmult (y k i) (g k l)) (y j l)))) (dA i j))).
      - f_equal. rewrite <- csum_scal_r. apply csum_ext. intros k _. rewrite <- csum_scal_r. apply csum_ext. intros. ring.
      - unfold mmul, mtr. rewrite (csum_ext n (fun k => Cmult (csum n (fun k0 => Cmult (y k0 i) (g k0 k))) (y j k)) (fun l => csum n (fun k => Cmult (Cmult (y k i) (g k l)) (y j l)))) by (intros; rewrite csum_scal_r; auto).
        rewrite csum_swap. ring. }
  transitivity (Copp (csum n (fun k => csum n (fun l => csum n (fun i => csum n (fun j => Cmult (Cmult (y k i) (g k l)) (Cmult (y j l) (dA i j)))))))).
  - rewrite <- csum_opp. apply csum_ext. intros k _. rewrite <- csum_opp. apply csum_ext. intros l _. unfold mmul.
    transitivity (Copp (Cmult (g k l) (csum n (fun i => Cmult (y k i) (csum n (fun j => Cmult (dA i j) (y j l))))))); [ring|]. f_equal.
    rewrite <- csum_scal_l. apply csum_ext. intros i _. rewrite <- !csum_scal_l. apply csum_ext. intros. ring.
  - f_equal. rewrite (csum_ext n _ (fun k => csum n (fun i => csum n (fun l => csum n (fun j => Cmult (Cmult (y k i) (g k l)) (Cmult (y j l) (dA i j))))))) by (intros; apply csum_swap).
    rewrite csum_swap. apply csum_ext. intros i _.
    rewrite (csum_ext n _ (fun k => csum n (fun j => csum n (fun l => Cmult (Cmult (y k i) (g k l)) (Cmult (y j l) (dA i j)))))) by (intros; apply csum_swap).
    apply csum_swap.
Qed.
Lemma inv_adjoint g : derivable_pt_lim (fun s => pair2 n n g (Y s)) 0 (pair2 n n (vjp_inv n (Y 0) g) dA).
Proof. rewrite <- inv_pair. apply pair2_curve. apply inverse_deriv. Qed.
End Inv.
