(** Unitary and antiunitary changes of basis that permute the plane waves and
    multiply them by phases. *)
From Coq Require Import Permutation List FunctionalExtensionality.
From Verif Require Import Py CBase LatticeSpec RecipSpec RunSpec PweSpec PweProofs PweProofs2 SymProofs2 InvSpec.
Open Scope R_scope.
Open Scope list_scope.

(** a permutation of 0..n-1 *)
Definition perm_on (n : nat) (sg : nat -> nat) : Prop :=
  (forall i, (i < n)%nat -> (sg i < n)%nat) /\ forall i j, (i < n)%nat -> (j < n)%nat -> sg i = sg j -> i = j.
Lemma perm_list n sg : perm_on n sg -> Permutation (map sg (seq 0 n)) (seq 0 n).
Proof.
  intros [A B]. apply NoDup_Permutation_bis.
  - assert (K : forall l, NoDup l -> (forall x, In x l -> (x < n)%nat) -> NoDup (map sg l)).
    { induction l as [|x l IH]; intros ND H; [constructor|]. inversion ND; subst. simpl. constructor.
      - intros I. apply in_map_iff in I. destruct I as (y & E & I). apply B in E; [subst; auto| |]; apply H; simpl; auto.
      - apply IH; auto. intros; apply H; simpl; auto. }
    apply K; [apply seq_NoDup|]. intros x I. apply in_seq in I. lia.
  - rewrite map_length. lia.
  - intros y I. apply in_map_iff in I. destruct I as (x & <- & I). apply in_seq in I. apply in_seq. specialize (A x). lia.
Qed.
Lemma csum_sg n sg f : perm_on n sg -> csum n (fun i => f (sg i)) = csum n f.
Proof.
  intros P. rewrite <- (csum_perm n (map sg (seq 0 n)) f (perm_list n sg P)). apply csum_ext. intros i Hi.
  rewrite (nth_indep _ 0%nat (sg 0%nat)) by (rewrite map_length, seq_length; auto). rewrite map_nth, seq_nth by auto. reflexivity.
Qed.
Lemma perm_inv n sg : perm_on n sg -> exists tau, (forall i, (i < n)%nat -> (tau i < n)%nat /\ sg (tau i) = i).
Proof.
  intros P. exists (fun j => hd 0%nat (filter (fun i => Nat.eqb (sg i) j) (seq 0 n))). intros j Hj.
  assert (I : In j (map sg (seq 0 n))) by (apply (Permutation_in _ (Permutation_sym (perm_list n sg P))); apply in_seq; lia).
  apply in_map_iff in I. destruct I as (i & E & I).
  assert (I2 : In i (filter (fun i => Nat.eqb (sg i) j) (seq 0 n))) by (apply filter_In; split; [auto|apply Nat.eqb_eq; auto]).
  destruct (filter _ _) as [|x l] eqn:F; [contradiction|].
  assert (Hx : In x (filter (fun i => Nat.eqb (sg i) j) (seq 0 n))) by (rewrite F; simpl; auto).
  apply filter_In in Hx. destruct Hx as [H1 H2]. apply in_seq in H1. apply Nat.eqb_eq in H2. simpl. lia.
Qed.

(** the identity or complex conjugation *)
Definition field_auto (f : C -> C) : Prop := (forall z, f z = z) \/ (forall z, f z = Cconj z).
Lemma auto_mult f a b : field_auto f -> f (a * b)%C = (f a * f b)%C.
Proof. intros [H|H]; rewrite !H; [auto|apply Cconj_mult]. Qed.
Lemma auto_conj f a : field_auto f -> f (Cconj a) = Cconj (f a).
Proof. intros [H|H]; rewrite !H; auto. Qed.
Lemma auto_R f (x : R) : field_auto f -> f (RtoC x) = RtoC x.
Proof. intros [H|H]; rewrite !H; [auto|apply Cconj_R]. Qed.
Lemma auto_sum f n g : field_auto f -> f (csum n g) = csum n (fun i => f (g i)).
Proof. intros [H|H]; rewrite H; [|rewrite csum_conj]; apply csum_ext; intros; rewrite H; auto. Qed.
Lemma auto_fst f z : field_auto f -> fst (f z) = fst z.
Proof. intros [H|H]; rewrite H; auto. Qed.
Lemma auto_auto f z : field_auto f -> f (f z) = z.
Proof. intros [H|H]; rewrite !H; [auto|apply Cconj_conj]. Qed.

Section Twist.
Variables (n : nat) (sg : nat -> nat) (d : nat -> C) (f : C -> C).
Hypotheses (P : perm_on n sg) (D : forall i, (i < n)%nat -> (d i * Cconj (d i))%C = RtoC 1) (F : field_auto f).
Definition twist (A : cmat) : cmat := fun i j => (d i * f (A (sg i) (sg j)) * Cconj (d j))%C.
Definition twistv (v : cvec) : cvec := fun i => (d i * f (v (sg i)))%C.

Lemma twist_dot u v : cdot n (twistv u) (twistv v) = f (cdot n u v).
Proof.
  unfold cdot. rewrite (auto_sum f) by exact F. rewrite <- (csum_sg n sg (fun i => f (Cconj (u i) * v i)%C) P).
  apply csum_ext. intros i Hi. unfold twistv. rewrite Cconj_mult, (auto_mult f), (auto_conj f) by exact F.
  transitivity ((d i * Cconj (d i)) * (Cconj (f (u (sg i))) * f (v (sg i))))%C; [ring|rewrite D by auto; ring].
Qed.
Lemma twist_mvec A v i : mvec n (twist A) (twistv v) i = twistv (mvec n A v) i.
Proof.
  unfold twistv at 2. unfold mvec at 2. rewrite (auto_sum f) by exact F.
  rewrite <- (csum_sg n sg (fun j => f (A (sg i) j * v j)%C) P), <- csum_scal_l. unfold mvec. apply csum_ext. intros j Hj.
  unfold twist, twistv. rewrite (auto_mult f) by exact F.
  transitivity ((d j * Cconj (d j)) * (d i * (f (A (sg i) (sg j)) * f (v (sg j)))))%C; [ring|rewrite D by auto; ring].
Qed.
Lemma twist_mmul A B i j : (i < n)%nat -> (j < n)%nat -> mmul n (twist A) (twist B) i j = twist (mmul n A B) i j.
Proof.
  intros Hi Hj. unfold twist at 3. unfold mmul at 2. rewrite (auto_sum f) by exact F.
  rewrite <- (csum_sg n sg (fun k => f (A (sg i) k * B k (sg j))%C) P), <- csum_scal_l, <- csum_scal_r. unfold mmul. apply csum_ext. intros k Hk.
  unfold twist. rewrite (auto_mult f) by exact F.
  transitivity ((d k * Cconj (d k)) * (d i * (f (A (sg i) (sg k)) * f (B (sg k) (sg j))) * Cconj (d j)))%C; [ring|rewrite D by auto; ring].
Qed.
Lemma twist_id i j : (i < n)%nat -> (j < n)%nat -> twist mid i j = mid i j.
Proof.
  intros Hi Hj. unfold twist, mid. destruct (Nat.eqb_spec i j) as [->|N].
  - rewrite Nat.eqb_refl, (auto_R f) by exact F. transitivity (d j * Cconj (d j))%C; [ring|rewrite D; auto].
  - destruct (Nat.eqb_spec (sg i) (sg j)) as [E|_]; [apply (proj2 P) in E; auto; contradiction|]. rewrite (auto_R f) by exact F. ring.
Qed.
Lemma twist_ext A B i j : perm_on n sg -> (i < n)%nat -> (j < n)%nat -> (forall i j, (i < n)%nat -> (j < n)%nat -> A i j = B i j) -> twist A i j = twist B i j.
Proof. intros [Q _] Hi Hj H. unfold twist. rewrite H; auto. Qed.
Lemma twist_inverse A B : is_inverse n A B -> is_inverse n (twist A) (twist B).
Proof.
  intros [H1 H2]. split; intros i j Hi Hj; rewrite twist_mmul by auto.
  - rewrite (twist_ext _ mid) by auto. apply twist_id; auto.
  - rewrite (twist_ext _ mid) by auto. apply twist_id; auto.
Qed.
Lemma twist_onto v : exists u, forall i, (i < n)%nat -> v i = twistv u i.
Proof.
  destruct (perm_inv n sg P) as (tau & T). exists (fun j => f (Cconj (d (tau j)) * v (tau j))%C). intros i Hi. unfold twistv.
  assert (E : tau (sg i) = i). { destruct (T (sg i)) as [T1 T2]; [apply P; auto|]. apply (proj2 P) in T2; auto. }
  rewrite E, (auto_auto f) by exact F. transitivity ((d i * Cconj (d i)) * v i)%C; [rewrite D by auto; ring|ring].
Qed.
Lemma twist_psd A : psd n A -> psd n (twist A).
Proof.
  intros H v. destruct (twist_onto v) as (u & U).
  assert (E : cdot n v (mvec n (twist A) v) = cdot n (twistv u) (mvec n (twist A) (twistv u))).
  { unfold cdot. apply csum_ext. intros i Hi. rewrite <- U by auto. f_equal. unfold mvec. apply csum_ext. intros j Hj. rewrite U; auto. }
  rewrite E. assert (E2 : cdot n (twistv u) (mvec n (twist A) (twistv u)) = cdot n (twistv u) (twistv (mvec n A u))).
  { unfold cdot. apply csum_ext. intros i Hi. rewrite twist_mvec. reflexivity. }
  rewrite E2, twist_dot, (auto_fst f) by exact F. apply H.
Qed.
Lemma twist_system A ls V : eigensystem n A ls V -> eigensystem n (twist A) ls (fun i j => twistv (fun i => V i j) i).
Proof.
  intros (E1 & E2 & E3). split; [auto|]. split.
  - intros j k Hj Hk. change (cdot n (twistv (fun i => V i j)) (twistv (fun i => V i k)) = if Nat.eqb j k then RtoC 1 else RtoC 0).
    rewrite twist_dot. unfold cdot. rewrite E2 by auto. destruct (Nat.eqb j k); apply auto_R; exact F.
  - intros i j Hi Hj. etransitivity; [exact (twist_mvec A (fun i => V i j) i)|]. unfold twistv. rewrite E3 by (auto; apply P; auto).
    rewrite (auto_mult f), (auto_R f) by exact F. ring.
Qed.
Lemma twist_lowest m A fs vs : lowest n m A fs vs -> exists vs', lowest n m (twist A) fs vs'.
Proof.
  intros (ls & V & E & H1 & H2 & H3 & H4 & H5).
  exists (map (fun b => (n, fun i => twistv (fun i => V i b) i)) (seq 0 (Nat.min m n))), ls, (fun i j => twistv (fun i => V i j) i).
  split; [apply twist_system; auto|]. split; [auto|]. split; [auto|]. split; [auto|]. split; [rewrite map_length, seq_length; auto|].
  intros b Hb. set (g := fun b => _). rewrite (nth_indep _ _ (g 0%nat)) by (rewrite map_length, seq_length; auto). rewrite map_nth, seq_nth by auto.
  split; auto.
Qed.
End Twist.
