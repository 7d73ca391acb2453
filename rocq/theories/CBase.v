(** Complex numbers (Coquelicot's [C]), finite sums and matrices as functions.
    Generic mathematics only; nothing about legume lives here. *)
From Verif Require Export Py.
From Coquelicot Require Export Complex.
Open Scope R_scope.
Open Scope C_scope.
Notation "a ^*" := (Cconj a) (at level 9, format "a ^*") : C_scope.

Lemma Ceq (a b : C) : fst a = fst b -> snd a = snd b -> a = b.
Proof. destruct a, b; simpl; intros; subst; reflexivity. Qed.

(** Prove a polynomial identity in C componentwise. *)
Ltac cring := apply Ceq; cbv [fst snd Re Im Cplus Cminus Copp Cmult Cconj RtoC Ci]; ring.

Lemma Cconj_plus a b : (a + b)^* = a^* + b^*. Proof. cring. Qed.
Lemma Cconj_minus a b : (a - b)^* = a^* - b^*. Proof. cring. Qed.
Lemma Cconj_opp a : (- a)^* = - a^*. Proof. cring. Qed.
Lemma Cconj_mult a b : (a * b)^* = a^* * b^*. Proof. cring. Qed.
Lemma Cconj_R (x : R) : (RtoC x)^* = x. Proof. cring. Qed.
Lemma Cconj_i : Ci^* = - Ci. Proof. cring. Qed.
Lemma Cconj_conj a : (a^*)^* = a. Proof. cring. Qed.
Lemma Cconj_inv a : (/ a)^* = / (a^*).
Proof.
  apply Ceq; simpl; unfold Rdiv; [f_equal; f_equal; ring|].
  replace (- snd a * (- snd a * 1))%R with (snd a * (snd a * 1))%R by ring. ring.
Qed.
Lemma Cconj_div a b : (a / b)^* = a^* / b^*.
Proof. unfold Cdiv; rewrite Cconj_mult, Cconj_inv; reflexivity. Qed.
Lemma Cconj_neq0 (a : C) : a <> RtoC 0 -> a^* <> RtoC 0.
Proof. intros H E; apply H. rewrite <- (Cconj_conj a), E. cring. Qed.
Lemma Ci_sq : Ci * Ci = - RtoC 1. Proof. cring. Qed.
Lemma Ci_neq0 : Ci <> 0. Proof. intros E; inversion E; lra. Qed.
Lemma RtoC_neq0 (x : R) : (x <> 0)%R -> RtoC x <> 0.
Proof. intros H E; apply H; inversion E; reflexivity. Qed.
Lemma Cconj_mod a : a * a^* = RtoC (fst a * fst a + snd a * snd a)%R.
Proof. cring. Qed.

#[export] Hint Rewrite Cconj_plus Cconj_minus Cconj_opp Cconj_mult Cconj_R Cconj_i
  Cconj_conj Cconj_inv Cconj_div : cconj.

Definition is_real (a : C) : Prop := a^* = a.
Lemma is_real_R x : is_real (RtoC x). Proof. apply Cconj_R. Qed.
Lemma is_real_iff a : is_real a <-> snd a = 0%R.
Proof.
  unfold is_real; split; intros H.
  - apply (f_equal snd) in H; simpl in H; lra.
  - apply Ceq; simpl; lra.
Qed.

(** e^{i t} and the complex exponential *)
Definition expi (t : R) : C := (cos t, sin t).
Definition cexp (z : C) : C := RtoC (exp (fst z)) * expi (snd z).

Lemma expi_plus a b : expi (a + b) = expi a * expi b.
Proof. apply Ceq; simpl; [rewrite cos_plus|rewrite sin_plus]; ring. Qed.
Lemma expi_0 : expi 0 = 1.
Proof. apply Ceq; simpl; [apply cos_0|apply sin_0]. Qed.
Lemma expi_conj a : (expi a)^* = expi (- a).
Proof. apply Ceq; simpl; [rewrite cos_neg|rewrite sin_neg]; reflexivity. Qed.
Lemma expi_unit a : expi a * expi (- a) = 1.
Proof. rewrite <- expi_plus. replace (a + - a)%R with 0%R by ring. apply expi_0. Qed.
Lemma expi_neq0 a : expi a <> 0.
Proof. intros E. pose proof (expi_unit a) as H. rewrite E, Cmult_0_l in H. inversion H; lra. Qed.
Lemma expi_norm a : expi a * (expi a)^* = 1.
Proof. rewrite expi_conj. apply expi_unit. Qed.

Lemma cexp_plus a b : cexp (a + b) = cexp a * cexp b.
Proof.
  unfold cexp. simpl. rewrite exp_plus, expi_plus.
  replace (RtoC (exp (fst a) * exp (fst b))%R) with (RtoC (exp (fst a)) * RtoC (exp (fst b))) by cring.
  ring.
Qed.
Lemma cexp_0 : cexp 0 = 1.
Proof. unfold cexp; simpl. rewrite exp_0, expi_0. cring. Qed.
Lemma cexp_neg a : cexp a * cexp (- a) = 1.
Proof. rewrite <- cexp_plus. replace (a + - a) with (RtoC 0) by ring. apply cexp_0. Qed.
Lemma cexp_neq0 a : cexp a <> 0.
Proof. intros E. pose proof (cexp_neg a) as H. rewrite E, Cmult_0_l in H. inversion H; lra. Qed.
Lemma cexp_opp a : cexp (- a) = / cexp a.
Proof.
  assert (H := cexp_neq0 a).
  pose proof (cexp_neg a) as E. rewrite <- (Cmult_1_r (/ cexp a)), <- E, Cmult_assoc, Cinv_l, Cmult_1_l by auto.
  reflexivity.
Qed.
Lemma cexp_conj a : (cexp a)^* = cexp (a^*).
Proof. unfold cexp. rewrite Cconj_mult, Cconj_R, expi_conj. reflexivity. Qed.
Lemma cexp_i t : cexp (Ci * RtoC t) = expi t.
Proof.
  unfold cexp. replace (fst (Ci * t)) with 0%R by (simpl; ring).
  replace (snd (Ci * t)) with t by (simpl; ring). rewrite exp_0. ring.
Qed.
Lemma cexp_R t : cexp (RtoC t) = RtoC (exp t).
Proof. unfold cexp; simpl. rewrite expi_0. ring. Qed.

(** Finite sums: sum of f i for i < n *)
Fixpoint csum (n : nat) (f : nat -> C) : C :=
  match n with O => 0 | S k => csum k f + f k end.

Lemma csum_ext n f g : (forall i, (i < n)%nat -> f i = g i) -> csum n f = csum n g.
Proof. induction n; simpl; intros H; auto. rewrite IHn, H; auto. Qed.
Lemma csum_zero n : csum n (fun _ => 0) = 0.
Proof. induction n; simpl; auto. rewrite IHn; ring. Qed.
Lemma csum_0 n (f : nat -> C) : (forall i, (i < n)%nat -> f i = 0) -> csum n f = 0.
Proof. intros H. rewrite (csum_ext n f (fun _ => RtoC 0)) by auto. apply csum_zero. Qed.
Lemma csum_plus n f g : csum n (fun i => f i + g i) = csum n f + csum n g.
Proof. induction n; simpl; [ring|rewrite IHn; ring]. Qed.
Lemma csum_minus n f g : csum n (fun i => f i - g i) = csum n f - csum n g.
Proof. induction n; simpl; [ring|rewrite IHn; ring]. Qed.
Lemma csum_opp n f : csum n (fun i => - f i) = - csum n f.
Proof. induction n; simpl; [ring|rewrite IHn; ring]. Qed.
Lemma csum_scal_l n c f : csum n (fun i => c * f i) = c * csum n f.
Proof. induction n; simpl; [ring|rewrite IHn; ring]. Qed.
Lemma csum_scal_r n c f : csum n (fun i => f i * c) = csum n f * c.
Proof. induction n; simpl; [ring|rewrite IHn; ring]. Qed.
Lemma csum_conj n f : (csum n f)^* = csum n (fun i => (f i)^*).
Proof. induction n; simpl; [cring|rewrite Cconj_plus, IHn; auto]. Qed.
Lemma csum_swap n m (f : nat -> nat -> C) :
  csum n (fun i => csum m (fun j => f i j)) = csum m (fun j => csum n (fun i => f i j)).
Proof.
  induction n; simpl; [symmetry; apply csum_zero|].
  rewrite IHn, <- csum_plus. apply csum_ext; intros; reflexivity.
Qed.
Lemma csum_add n m f : csum (n + m) f = csum n f + csum m (fun i => f (n + i)%nat).
Proof.
  induction m; simpl; [rewrite Nat.add_0_r; ring|].
  rewrite Nat.add_succ_r. simpl. rewrite IHm. ring.
Qed.
Lemma csum_first n f : csum (S n) f = f O + csum n (fun i => f (S i)).
Proof. rewrite (csum_add 1 n). simpl. ring. Qed.
Lemma csum_single n k (f : nat -> C) : (k < n)%nat -> (forall i, (i < n)%nat -> i <> k -> f i = 0) ->
  csum n f = f k.
Proof.
  induction n; simpl; intros Hk H; [lia|].
  destruct (Nat.eq_dec n k) as [->|Hne].
  - rewrite csum_0; [ring|]. intros; apply H; lia.
  - rewrite IHn by (auto; lia). rewrite (H n) by lia. ring.
Qed.
Lemma csum_delta n k (c : C) : (k < n)%nat -> csum n (fun i => if Nat.eqb i k then c else 0) = c.
Proof.
  intros H. rewrite (csum_single n k); auto.
  - rewrite Nat.eqb_refl; auto.
  - intros i _ Hi. apply Nat.eqb_neq in Hi. rewrite Hi; auto.
Qed.
Lemma csum_const n c : csum n (fun _ => c) = RtoC (INR n) * c.
Proof. induction n; [simpl; ring|]. cbn [csum]. rewrite IHn, S_INR, RtoC_plus. ring. Qed.
Lemma csum_fst n f : fst (csum n f) = fold_right Rplus 0%R (map (fun i => fst (f i)) (rev (seq 0 n))).
Proof.
  induction n; simpl csum; auto. rewrite seq_S, rev_app_distr. simpl. rewrite IHn. ring.
Qed.
Lemma csum_RtoC n (f : nat -> R) : exists s : R, csum n (fun i => RtoC (f i)) = RtoC s.
Proof.
  induction n; [exists 0%R; auto|]. destruct IHn as [s IH]. exists (s + f n)%R.
  cbn [csum]. rewrite IH. cring.
Qed.

(** Reversal of the summation order *)
Lemma csum_rev n f : csum n f = csum n (fun i => f (n - 1 - i)%nat).
Proof.
  revert f; induction n; intros f; auto. rewrite csum_first. cbn [csum].
  replace (S n - 1 - n)%nat with 0%nat by lia. rewrite Cplus_comm. f_equal.
  rewrite (IHn (fun i => f (S i))). apply csum_ext. intros i Hi. f_equal. lia.
Qed.

(** Matrices and vectors as functions; sizes are always explicit. *)
Definition cmat := nat -> nat -> C.
Definition cvec := nat -> C.
Definition mmul (n : nat) (A B : cmat) : cmat := fun i j => csum n (fun k => A i k * B k j).
Definition mvec (n : nat) (A : cmat) (v : cvec) : cvec := fun i => csum n (fun k => A i k * v k).
Definition madj (A : cmat) : cmat := fun i j => (A j i)^*.
Definition mtr (A : cmat) : cmat := fun i j => A j i.
Definition mid : cmat := fun i j => if Nat.eqb i j then 1 else 0.
Definition meq (n m : nat) (A B : cmat) : Prop :=
  forall i j, (i < n)%nat -> (j < m)%nat -> A i j = B i j.
Definition hermitian (n : nat) (A : cmat) : Prop :=
  forall i j, (i < n)%nat -> (j < n)%nat -> A i j = (A j i)^*.
Definition cdot (n : nat) (u v : cvec) : C := csum n (fun i => (u i)^* * v i).

Lemma mmul_assoc n m A B D i j :
  mmul m (mmul n A B) D i j = mmul n A (mmul m B D) i j.
Proof.
  unfold mmul.
  rewrite (csum_ext m _ (fun k => csum n (fun l => A i l * B l k * D k j)))
    by (intros; rewrite csum_scal_r; auto).
  rewrite csum_swap. apply csum_ext; intros l _.
  rewrite <- csum_scal_l. apply csum_ext; intros; ring.
Qed.
Lemma mmul_id_l n A i j : (i < n)%nat -> mmul n mid A i j = A i j.
Proof.
  intros H. unfold mmul, mid. rewrite (csum_single n i); auto.
  - rewrite Nat.eqb_refl; ring.
  - intros k _ Hk. destruct (Nat.eqb_spec i k); [congruence|ring].
Qed.
Lemma mmul_id_r n A i j : (j < n)%nat -> mmul n A mid i j = A i j.
Proof.
  intros H. unfold mmul, mid. rewrite (csum_single n j); auto.
  - rewrite Nat.eqb_refl; ring.
  - intros k _ Hk. destruct (Nat.eqb_spec k j); [congruence|ring].
Qed.
Lemma mmul_ext n A A' B B' i j : (forall k, (k < n)%nat -> A i k = A' i k) ->
  (forall k, (k < n)%nat -> B k j = B' k j) -> mmul n A B i j = mmul n A' B' i j.
Proof. intros H1 H2. unfold mmul. apply csum_ext. intros k Hk. rewrite H1, H2; auto. Qed.
Lemma madj_mmul n A B i j : madj (mmul n A B) i j = mmul n (madj B) (madj A) i j.
Proof.
  unfold madj, mmul. rewrite csum_conj. apply csum_ext; intros. rewrite Cconj_mult; ring.
Qed.
Lemma mvec_mmul n m A B v i : mvec m (mmul n A B) v i = mvec n A (mvec m B v) i.
Proof.
  unfold mvec, mmul.
  rewrite (csum_ext m _ (fun k => csum n (fun l => A i l * B l k * v k)))
    by (intros; rewrite csum_scal_r; auto).
  rewrite csum_swap. apply csum_ext; intros l _.
  rewrite <- csum_scal_l. apply csum_ext; intros; ring.
Qed.
Lemma mvec_id n v i : (i < n)%nat -> mvec n mid v i = v i.
Proof.
  intros H. unfold mvec, mid. rewrite (csum_single n i); auto.
  - rewrite Nat.eqb_refl; ring.
  - intros k _ Hk. destruct (Nat.eqb_spec i k); [congruence|ring].
Qed.
Lemma cdot_self_real n v : is_real (cdot n v v).
Proof.
  unfold is_real, cdot. rewrite csum_conj. apply csum_ext; intros.
  rewrite Cconj_mult, Cconj_conj; ring.
Qed.
Lemma cdot_adj n m A u v : cdot n u (mvec m A v) = cdot m (mvec n (madj A) u) v.
Proof.
  unfold cdot, mvec, madj.
  rewrite (csum_ext n _ (fun i => csum m (fun k => (u i)^* * (A i k * v k))))
    by (intros; rewrite csum_scal_l; auto).
  rewrite csum_swap. apply csum_ext; intros k _.
  rewrite csum_conj, <- csum_scal_r. apply csum_ext; intros.
  rewrite Cconj_mult, Cconj_conj; ring.
Qed.
