(** A matrix commuting with the reflection splits in a parity basis. *)
From Coq Require Import Permutation.
From Verif Require Import Py CBase LatticeModel MatElSpec MatElModel SymSpec SymModel SymProofs SymProofs2 SymProofs3.
Open Scope R_scope.

Lemma mvec_ext n A u v i : (forall k, (k < n)%nat -> u k = v k) -> mvec n A u i = mvec n A v i.
Proof. intros H. apply csum_ext. intros k Hk. rewrite H; auto. Qed.
Lemma mvec_ext2 n A B u i : (forall k, (k < n)%nat -> A i k = B i k) -> mvec n A u i = mvec n B u i.
Proof. intros H. apply csum_ext. intros k Hk. rewrite H; auto. Qed.
Lemma mvec_scal n A l u i : mvec n A (fun k => (l * u k)%C) i = (l * mvec n A u i)%C.
Proof. unfold mvec. rewrite <- csum_scal_l. apply csum_ext. intros; ring. Qed.

Section Split.
Variables (n e : nat) (mt : nat -> nat) (s : nat -> R) (V H : cmat).
Hypothesis He : (e <= n)%nat.
Hypothesis I : invol n mt.
Hypothesis Ss : forall i, (i < n)%nat -> s (mt i) = s i /\ (s i = 1 \/ s i = - 1).
Hypothesis PB : parity_basis n e (refl_op mt s) V.
Hypothesis VR : forall i c, Cconj (V i c) = V i c.
Hypothesis HC : forall v i, (i < n)%nat -> mvec n H (refl_op mt s v) i = refl_op mt s (mvec n H v) i.

Lemma refl_sym u v : cdot n u (refl_op mt s v) = cdot n (refl_op mt s u) v.
Proof.
  unfold cdot, refl_op.
  assert (P : Permutation (map mt (seq 0 n)) (seq 0 n)).
  { apply NoDup_Permutation_bis.
    - assert (N : forall l, NoDup l -> (forall x, In x l -> (x < n)%nat) -> NoDup (map mt l)).
      { induction l as [|a l IH]; intros Hl Hx; [constructor|]. inversion Hl; subst. simpl. constructor.
        - intros F. apply in_map_iff in F. destruct F as [b [F1 F2]]. apply H2.
          replace a with b; auto. rewrite <- (proj2 (I b (Hx b (or_intror F2)))), F1. apply I. apply Hx; left; auto.
        - apply IH; auto. intros x Hx'. apply Hx. right; auto. }
      apply N; [apply seq_NoDup|]. intros x Hx. apply in_seq in Hx. lia.
    - rewrite map_length. auto.
    - intros x Hx. apply in_map_iff in Hx. destruct Hx as [y [<- Hy]]. apply in_seq in Hy. apply in_seq.
      pose proof (proj1 (I y ltac:(lia))). lia. }
  rewrite <- (csum_perm n (map mt (seq 0 n)) _ P).
  apply csum_ext. intros i Hi.
  assert (E : nth i (map mt (seq 0 n)) 0%nat = mt i).
  { rewrite nth_indep with (d' := mt 0%nat) by (rewrite map_length, seq_length; auto). rewrite map_nth, seq_nth by auto. reflexivity. }
  rewrite E. destruct (I i Hi) as [A B]. rewrite B, (proj1 (Ss i Hi)), Cconj_mult, Cconj_R. ring.
Qed.

Definition Sm : cmat := mmul n (mtr V) (mmul n H V).
Lemma Sm_dot c d : Sm c d = cdot n (fun i => V i c) (mvec n H (fun i => V i d)).
Proof. unfold Sm, mmul, mtr, cdot, mvec. apply csum_ext. intros i Hi. rewrite VR. reflexivity. Qed.

Lemma Sm_off c d : (c < e)%nat -> (e <= d < n)%nat -> Sm c d = RtoC 0 /\ Sm d c = RtoC 0.
Proof.
  intros Hc Hd. destruct PB as [_ [_ [P1 P2]]].
  assert (Z : forall x : C, x = Copp x -> x = RtoC 0).
  { intros x E. apply Ceq; [apply (f_equal fst) in E|apply (f_equal snd) in E]; simpl in *; lra. }
  assert (Xc : forall w, cdot n (fun i => V i c) w = cdot n (refl_op mt s (fun i => V i c)) w).
  { intros w. unfold cdot. apply csum_ext. intros i Hi. rewrite P1 by auto. reflexivity. }
  assert (Xd : forall w, cdot n (fun i => V i d) w = Copp (cdot n (refl_op mt s (fun i => V i d)) w)).
  { intros w. unfold cdot. rewrite <- csum_opp. apply csum_ext. intros i Hi. rewrite P2 by auto. rewrite Cconj_opp. ring. }
  assert (Y : forall u v, cdot n (refl_op mt s u) (mvec n H v) = cdot n u (mvec n H (refl_op mt s v))).
  { intros u v. rewrite <- refl_sym. unfold cdot. apply csum_ext. intros i Hi. rewrite HC by auto. reflexivity. }
  split; apply Z.
  - rewrite Sm_dot at 1. rewrite Xc, Y.
    rewrite Sm_dot. unfold cdot. rewrite <- csum_opp. apply csum_ext. intros i Hi.
    rewrite (mvec_ext n H (refl_op mt s (fun i => V i d)) (fun i => (- RtoC 1 * V i d)%C)).
    + rewrite mvec_scal. ring.
    + intros k Hk. rewrite P2 by auto. ring.
  - rewrite Sm_dot at 1. rewrite Xd, Y.
    rewrite Sm_dot. f_equal. unfold cdot. apply csum_ext. intros i Hi. f_equal. apply mvec_ext. intros k Hk. rewrite P1 by auto. reflexivity.
Qed.

Lemma VtV u i : (i < n)%nat -> mvec n (mtr V) (mvec n V u) i = u i.
Proof.
  intros Hi. rewrite <- mvec_mmul. destruct PB as [P _].
  rewrite (mvec_ext2 n _ mid u i); [apply mvec_id; auto|]. intros k Hk. rewrite <- P by auto.
  apply csum_ext. intros j Hj. unfold madj, mtr. rewrite VR. reflexivity.
Qed.
Lemma VVt u i : (i < n)%nat -> mvec n V (mvec n (mtr V) u) i = u i.
Proof.
  intros Hi. rewrite <- mvec_mmul. destruct PB as [_ [P _]].
  rewrite (mvec_ext2 n _ mid u i); [apply mvec_id; auto|]. intros k Hk. rewrite <- P by auto.
  apply csum_ext. intros j Hj. unfold madj, mtr. rewrite VR. reflexivity.
Qed.
Lemma S_app u i : mvec n Sm u i = mvec n (mtr V) (mvec n H (mvec n V u)) i.
Proof. unfold Sm. rewrite mvec_mmul. apply mvec_ext. intros k Hk. apply mvec_mmul. Qed.

Let o := (n - e)%nat.
Definition Ev : cmat := Sm.
Definition Od : cmat := fun i j => Sm (e + i)%nat (e + j)%nat.
Definition padE (u : cvec) : cvec := fun d => if Nat.ltb d e then u d else RtoC 0.
Definition padO (u : cvec) : cvec := fun d => if Nat.ltb d e then RtoC 0 else u (d - e)%nat.

Lemma n_eo : n = (e + o)%nat. Proof. unfold o. lia. Qed.
Lemma split_even u c : (c < e)%nat -> mvec n Sm u c = mvec e Ev u c.
Proof.
  intros Hc. unfold mvec. rewrite n_eo at 1. rewrite csum_add.
  rewrite (csum_0 o); [unfold Ev; ring|]. intros i Hi. rewrite (proj1 (Sm_off c (e + i) Hc ltac:(unfold o in Hi; lia))). ring.
Qed.
Lemma split_odd u c : (c < o)%nat -> mvec n Sm u (e + c)%nat = mvec o Od (fun i => u (e + i)%nat) c.
Proof.
  intros Hc. unfold mvec. rewrite n_eo at 1. rewrite csum_add.
  rewrite (csum_0 e); [unfold Od; ring|]. intros i Hi. rewrite (proj2 (Sm_off i (e + c) Hi ltac:(unfold o in Hc; lia))). ring.
Qed.

Lemma nz_dec m (v : cvec) : (exists i, (i < m)%nat /\ v i <> RtoC 0) \/ forall i, (i < m)%nat -> v i = RtoC 0.
Proof.
  induction m as [|m IH]; [right; intros; lia|]. destruct IH as [[i [A B]]|A]; [left; exists i; auto|].
  destruct (Ceq_dec (v m) (RtoC 0)) as [B|B]; [right|left; exists m; auto].
  intros i Hi. destruct (Nat.eq_dec i m) as [->|]; auto. apply A. lia.
Qed.
Lemma V_nz u : (exists i, (i < n)%nat /\ u i <> RtoC 0) -> exists i, (i < n)%nat /\ mvec n V u i <> RtoC 0.
Proof.
  intros [k [Hk Nk]]. destruct (nz_dec n (mvec n V u)) as [Y|Z]; auto. exfalso. apply Nk.
  rewrite <- (VtV u k Hk). apply csum_0. intros i Hi. rewrite Z by auto. ring.
Qed.
Lemma V_eig l u : eigvec n Sm l u -> eigvec n H l (mvec n V u).
Proof.
  intros [N E]. split; [apply V_nz; auto|]. intros i Hi.
  rewrite <- (VVt (mvec n H (mvec n V u)) i Hi).
  rewrite (mvec_ext n V _ (fun k => (l * u k)%C)); [apply mvec_scal|].
  intros k Hk. rewrite <- S_app. auto.
Qed.

(** block eigenvectors, padded and transformed back, are eigenvectors of H with
    the parity of the block *)
Lemma back_even l u : eigvec e Ev l u -> eigvec n H l (mvec n V (padE u)) /\
  forall i, (i < n)%nat -> refl_op mt s (mvec n V (padE u)) i = mvec n V (padE u) i.
Proof.
  intros [[k [Hk Nk]] E].
  assert (PE : forall d, (d < e)%nat -> padE u d = u d).
  { intros d Hd. unfold padE. rewrite (proj2 (Nat.ltb_lt d e) Hd). reflexivity. }
  assert (PO : forall d, (e <= d)%nat -> padE u d = RtoC 0).
  { intros d Hd. unfold padE. rewrite (proj2 (Nat.ltb_ge d e) Hd). reflexivity. }
  split.
  - apply V_eig. split; [exists k; split; [lia|rewrite PE; auto]|]. intros i Hi.
    destruct (Nat.lt_ge_cases i e) as [L|L].
    + rewrite split_even by auto. rewrite (mvec_ext e Ev _ u) by auto. rewrite PE by auto. auto.
    + replace i with (e + (i - e))%nat by lia. rewrite split_odd by (unfold o; lia). rewrite PO by lia.
      transitivity (RtoC 0); [|ring]. apply csum_0. intros j Hj. rewrite PO by lia. ring.
  - intros i Hi. destruct PB as [_ [_ [P1 _]]]. unfold refl_op, mvec. rewrite <- csum_scal_l. apply csum_ext. intros d Hd.
    destruct (Nat.lt_ge_cases d e) as [L|L].
    + rewrite <- (P1 i d Hi L). unfold refl_op. ring.
    + rewrite PO by auto. ring.
Qed.
Lemma back_odd l u : eigvec o Od l u -> eigvec n H l (mvec n V (padO u)) /\
  forall i, (i < n)%nat -> refl_op mt s (mvec n V (padO u)) i = Copp (mvec n V (padO u) i).
Proof.
  intros [[k [Hk Nk]] E].
  assert (PE : forall d, (d < e)%nat -> padO u d = RtoC 0).
  { intros d Hd. unfold padO. rewrite (proj2 (Nat.ltb_lt d e) Hd). reflexivity. }
  assert (PO : forall d, padO u (e + d)%nat = u d).
  { intros d. unfold padO. rewrite (proj2 (Nat.ltb_ge (e + d) e) ltac:(lia)). f_equal. lia. }
  split.
  - apply V_eig. split; [exists (e + k)%nat; split; [unfold o in Hk; lia|rewrite PO; auto]|]. intros i Hi.
    destruct (Nat.lt_ge_cases i e) as [L|L].
    + rewrite split_even by auto. rewrite PE by auto.
      transitivity (RtoC 0); [|ring]. apply csum_0. intros j Hj. rewrite PE by auto. ring.
    + replace i with (e + (i - e))%nat by lia. rewrite split_odd by (unfold o; lia).
      rewrite (mvec_ext o Od _ u) by (intros; apply PO). rewrite PO. apply E. unfold o. lia.
  - intros i Hi. destruct PB as [_ [_ [_ P2]]]. unfold refl_op, mvec. rewrite <- csum_scal_l, <- csum_opp. apply csum_ext. intros d Hd.
    destruct (Nat.lt_ge_cases d e) as [L|L].
    + rewrite PE by auto. ring.
    + assert (X := P2 i d Hi ltac:(lia)). unfold refl_op in X.
      transitivity ((RtoC (s i) * V (mt i) d) * padO u d)%C; [ring|]. rewrite X. ring.
Qed.

(** and every eigenvalue of H is one of a block *)
Lemma forth l v : eigvec n H l v -> eigval e Ev l \/ eigval o Od l.
Proof.
  intros [[k [Hk Nk]] E]. set (u := mvec n (mtr V) v).
  assert (SE : forall i, (i < n)%nat -> mvec n Sm u i = (l * u i)%C).
  { intros i Hi. rewrite S_app. unfold u at 2. rewrite <- mvec_scal. apply mvec_ext. intros j Hj.
    rewrite (mvec_ext n H _ v) by (intros; apply VVt; auto). auto. }
  destruct (nz_dec e u) as [Y|Z1].
  { left. exists u. split; auto. intros i Hi. rewrite <- split_even by auto. apply SE. lia. }
  destruct (nz_dec o (fun i => u (e + i)%nat)) as [Y|Z2].
  { right. exists (fun i => u (e + i)%nat). split; auto. intros i Hi. rewrite <- split_odd by auto. apply SE. unfold o in Hi. lia. }
  exfalso. apply Nk. rewrite <- (VVt v k Hk). apply csum_0. intros i Hi. fold u.
  destruct (Nat.lt_ge_cases i e) as [L|L]; [rewrite Z1 by auto; ring|].
  replace i with (e + (i - e))%nat by lia. rewrite Z2 by (unfold o; lia). ring.
Qed.
End Split.

Lemma amaxc_0 l : (forall z, In z l -> z = RtoC 0) -> amaxc l = 0.
Proof.
  induction l as [|a l IH]; intros H; [reflexivity|]. cbn [amaxc fold_right]. fold (amaxc l).
  rewrite IH by (intros; apply H; right; auto). rewrite (H a (or_introl eq_refl)), Cmod_0. apply Rmax_left. lra.
Qed.
Lemma entries_in M r0 r1 c0 c1 z : In z (entries M r0 r1 c0 c1) -> exists i j, (r0 <= i < r1)%nat /\ (c0 <= j < c1)%nat /\ z = M i j.
Proof.
  unfold entries. intros Hz. apply in_flat_map in Hz. destruct Hz as [i [Hi Hz]]. apply in_map_iff in Hz.
  destruct Hz as [j [<- Hj]]. apply in_seq in Hi. apply in_seq in Hj. exists i, j. repeat split; auto; lia.
Qed.

Definition blocks_of (n e : nat) (S : cmat) : arr2 * arr2 :=
  (Arr e e S, Arr (n - e) (n - e) (fun i j => S (e + i)%nat (e + j)%nat)).

Section Sep.
Variables (n : nat) (mt : nat -> nat) (s : nat -> R) (H : cmat) (b : sbasis) (thr : R).
Hypothesis Hr : sb_rows b = n.
Hypothesis Hcol : sb_cols b = n.
Hypothesis Hs : (sb_even b + sb_odd b)%nat = n.
Hypothesis I : invol n mt.
Hypothesis Ss : forall i, (i < n)%nat -> s (mt i) = s i /\ (s i = 1 \/ s i = - 1).
Hypothesis PB : parity_basis n (sb_even b) (refl_op mt s) (sb_v b).
Hypothesis VR : forall i c, Cconj (sb_v b i c) = sb_v b i c.
Hypothesis HC : forall v i, (i < n)%nat -> mvec n H (refl_op mt s v) i = refl_op mt s (mvec n H v) i.
Hypothesis Ht : 0 <= thr.
Hypothesis He : (0 < sb_even b)%nat.
Hypothesis Ho : (0 < sb_odd b)%nat.

Lemma chk0 S : (forall i j, S i j = Sm n (sb_v b) H i j) ->
  Rmax (amaxc (entries S (sb_even b) n 0 (sb_even b))) (amaxc (entries S 0 (sb_even b) (sb_even b) n)) = 0.
Proof.
  intros E. rewrite !amaxc_0; [apply Rmax_left; lra| |]; intros z Hz; apply entries_in in Hz;
    destruct Hz as [i [j [A [B ->]]]]; rewrite E.
  - apply (Sm_off n (sb_even b) mt s (sb_v b) H ltac:(lia) I Ss PB VR HC i j); lia.
  - apply (Sm_off n (sb_even b) mt s (sb_v b) H ltac:(lia) I Ss PB VR HC j i); lia.
Qed.
Lemma separate_ok : separate thr (Arr n n H) b = Ok (blocks_of n (sb_even b) (Sm n (sb_v b) H)).
Proof.
  unfold separate. cbn [nr nc ent]. rewrite Hr, Hcol, Nat.eqb_refl. cbn [andb].
  rewrite Nat.min_l by lia.
  rewrite (proj2 (Nat.eqb_neq _ 0)) by lia. rewrite (proj2 (Nat.eqb_neq (sb_even b) 0)) by lia. cbn [orb].
  rewrite (chk0 (mmul n (mtr (sb_v b)) (mmul n H (sb_v b)))) by reflexivity.
  rewrite (proj2 (Rltb_false _ _)) by lra. reflexivity.
Qed.
Lemma sparse_S i j : mmul n (mtr (sb_v b)) (mtr (mmul n (mtr (sb_v b)) (mtr H))) i j = Sm n (sb_v b) H i j.
Proof.
  unfold Sm, mmul, mtr. apply csum_ext. intros k Hk. f_equal. apply csum_ext. intros; ring.
Qed.
Lemma separate_sparse_ok : exists S, separate_sparse thr (Arr n n H) b = Ok (blocks_of n (sb_even b) S) /\
  forall i j, S i j = Sm n (sb_v b) H i j.
Proof.
  eexists. split; [|exact sparse_S].
  unfold separate_sparse. cbn [nr nc ent]. rewrite Hr, Hcol, Nat.eqb_refl. cbn [andb].
  rewrite Nat.min_l by lia.
  rewrite (proj2 (Nat.eqb_neq _ 0)) by lia. rewrite (proj2 (Nat.eqb_neq (sb_even b) 0)) by lia. cbn [orb].
  rewrite (chk0 _ sparse_S). rewrite (proj2 (Rltb_false _ _)) by lra. reflexivity.
Qed.
End Sep.
