(** Linear algebra used to show that the contracts assumed of the external
    eigensolvers can be met: a homogeneous system with more unknowns than
    equations, and the spectral theorem for Hermitian matrices.  Generic
    mathematics only; nothing about legume lives here. *)
From Coq Require Import Classical ClassicalEpsilon.
From Coquelicot Require Import Coquelicot.
From Verif Require Import Py CBase SymSpec RunSpec.
Open Scope R_scope.

(** ** more unknowns than equations *)
Definition skip (p j : nat) : nat := if Nat.ltb j p then j else S j.

Lemma csum_skip n : forall p f, (p <= n)%nat -> csum (S n) f = (f p + csum n (fun j => f (skip p j)))%C.
Proof.
  intros p f Hp. replace (S n) with (p + S (n - p))%nat by lia. rewrite csum_add, csum_first.
  replace n with (p + (n - p))%nat at 2 by lia. rewrite csum_add.
  rewrite (csum_ext p (fun j => f (skip p j)) f).
  2:{ intros i Hi. unfold skip. destruct (Nat.ltb_spec i p); [reflexivity|lia]. }
  rewrite (csum_ext (n - p) (fun i => f (skip p (p + i))) (fun i => f (p + S i)%nat)).
  2:{ intros i Hi. unfold skip. destruct (Nat.ltb_spec (p + i) p); [lia|]. f_equal. lia. }
  rewrite Nat.add_0_r. ring.
Qed.

Definition unskip (p i : nat) : nat := if Nat.ltb i p then i else (i - 1)%nat.
Lemma skip_unskip p i : i <> p -> skip p (unskip p i) = i.
Proof. intros H. unfold skip, unskip. destruct (Nat.ltb_spec i p); [destruct (Nat.ltb_spec i p); lia|destruct (Nat.ltb_spec (i - 1) p); lia]. Qed.
Lemma unskip_skip p j : unskip p (skip p j) = j.
Proof. unfold skip, unskip. destruct (Nat.ltb_spec j p); [destruct (Nat.ltb_spec j p); lia|destruct (Nat.ltb_spec (S j) p); lia]. Qed.
Lemma skip_neq p j : skip p j <> p.
Proof. unfold skip. destruct (Nat.ltb_spec j p); lia. Qed.
Lemma skip_lt p j m : (p <= m)%nat -> (j < m)%nat -> (skip p j < S m)%nat.
Proof. intros H1 H2. unfold skip. destruct (Nat.ltb_spec j p); lia. Qed.

Lemma underdetermined k : forall m (M : cmat), (k < m)%nat -> exists c : cvec, (exists j, (j < m)%nat /\ c j <> RtoC 0) /\
  forall i, (i < k)%nat -> csum m (fun j => (M i j * c j)%C) = RtoC 0.
Proof.
  induction k as [|k IH]; intros m M Hm.
  - exists (fun _ => RtoC 1). split; [exists 0%nat; split; [lia|apply RtoC_neq0; lra]|lia].
  - destruct (classic (exists p, (p < m)%nat /\ M k p <> RtoC 0)) as [(p & Hp & Hne)|Hz].
    + destruct m as [|m]; [lia|].
      set (M' := fun i j => (M i (skip p j) - M i p * (M k (skip p j) / M k p))%C).
      destruct (IH m M' ltac:(lia)) as (c' & (j & Hj & Hcj) & Hc').
      set (q := (- csum m (fun j => M k (skip p j) * c' j) / M k p)%C).
      exists (fun i => if Nat.eqb i p then q else c' (unskip p i)). split.
      * exists (skip p j). split; [apply skip_lt; lia|]. destruct (Nat.eqb_spec (skip p j) p) as [E|_]; [elim (skip_neq p j E)|]. rewrite unskip_skip. exact Hcj.
      * intros i Hi. rewrite (csum_skip m p) by lia. rewrite Nat.eqb_refl.
        rewrite (csum_ext m _ (fun j => M i (skip p j) * c' j)%C).
        2:{ intros l Hl. destruct (Nat.eqb_spec (skip p l) p) as [E|_]; [elim (skip_neq p l E)|]. rewrite unskip_skip. reflexivity. }
        destruct (Nat.eq_dec i k) as [->|Hik].
        -- unfold q. field. exact Hne.
        -- specialize (Hc' i ltac:(lia)). unfold M' in Hc'.
           rewrite (csum_ext m _ (fun j => M i (skip p j) * c' j - (M i p / M k p) * (M k (skip p j) * c' j))%C) in Hc'.
           2:{ intros l Hl. field. exact Hne. }
           rewrite csum_minus, csum_scal_l in Hc'. unfold q.
           set (X := csum m (fun j => M i (skip p j) * c' j)%C) in *. set (Y := csum m (fun j => M k (skip p j) * c' j)%C) in *.
           transitivity (X - M i p / M k p * Y)%C; [field; exact Hne|exact Hc'].
    + destruct (IH m M ltac:(lia)) as (c & Hc & He). exists c. split; [exact Hc|].
      intros i Hi. destruct (Nat.eq_dec i k) as [->|Hik]; [|apply He; lia].
      apply csum_0. intros j Hj. destruct (classic (M k j = RtoC 0)) as [E|E]; [rewrite E; apply Cmult_0_l|elim Hz; exists j; auto].
Qed.

(** ** convergence in C and sequential compactness *)
Definition ccv (z : nat -> C) (l : C) : Prop := is_lim_seq (fun m => fst (z m)) (fst l) /\ is_lim_seq (fun m => snd (z m)) (snd l).
Lemma ccv_const c : ccv (fun _ => c) c.
Proof. split; apply is_lim_seq_const. Qed.
Lemma ccv_plus z w a b : ccv z a -> ccv w b -> ccv (fun m => z m + w m)%C (a + b)%C.
Proof. intros [H1 H2] [H3 H4]. split; cbn [fst snd Cplus]; apply is_lim_seq_plus'; assumption. Qed.
Lemma ccv_mult z w a b : ccv z a -> ccv w b -> ccv (fun m => z m * w m)%C (a * b)%C.
Proof.
  intros [H1 H2] [H3 H4]. split; cbn [fst snd Cmult].
  - apply is_lim_seq_minus'; apply is_lim_seq_mult'; assumption.
  - apply is_lim_seq_plus'; apply is_lim_seq_mult'; assumption.
Qed.
Lemma ccv_conj z a : ccv z a -> ccv (fun m => Cconj (z m)) (Cconj a).
Proof. intros [H1 H2]. split; cbn [fst snd Cconj]; [exact H1|]. apply (is_lim_seq_opp _ (snd a)). exact H2. Qed.
Lemma ccv_csum n (z : nat -> nat -> C) (a : nat -> C) : (forall i, (i < n)%nat -> ccv (fun m => z m i) (a i)) -> ccv (fun m => csum n (z m)) (csum n a).
Proof.
  induction n as [|n IH]; intros H; [apply ccv_const|]. cbn [csum].
  apply (ccv_plus (fun m => csum n (z m)) (fun m => z m n)); [apply IH; intros; apply H; lia|apply H; lia].
Qed.
Lemma ccv_ext z w a : (forall m, z m = w m) -> ccv z a -> ccv w a.
Proof. intros E [H1 H2]. split; [apply (is_lim_seq_ext (fun m => fst (z m)))|apply (is_lim_seq_ext (fun m => snd (z m)))]; auto; intros m; rewrite E; reflexivity. Qed.
Lemma ccv_unique z a b : ccv z a -> ccv z b -> a = b.
Proof.
  intros [H1 H2] [H3 H4]. apply Ceq.
  - apply is_lim_seq_unique in H1. apply is_lim_seq_unique in H3. rewrite H1 in H3. injection H3. auto.
  - apply is_lim_seq_unique in H2. apply is_lim_seq_unique in H4. rewrite H2 in H4. injection H4. auto.
Qed.

Definition strict (phi : nat -> nat) : Prop := forall m, (phi m < phi (S m))%nat.
Lemma strict_ge phi : strict phi -> forall m, (m <= phi m)%nat.
Proof. intros H m. induction m as [|m IH]; [lia|]. specialize (H m). lia. Qed.
Lemma strict_comp f g : strict f -> strict g -> strict (fun m => f (g m)).
Proof.
  intros Hf Hg m. assert (M : forall a b, (a < b)%nat -> (f a < f b)%nat).
  { intros a b. induction b as [|b IH]; [lia|]. intros H. specialize (Hf b). destruct (Nat.eq_dec a b) as [->|]; [exact Hf|]. specialize (IH ltac:(lia)). lia. }
  apply M. apply Hg.
Qed.
Lemma strict_filter phi : strict phi -> filterlim phi Hierarchy.eventually Hierarchy.eventually.
Proof. intros H P [N HN]. exists N. intros n Hn. apply HN. pose proof (strict_ge phi H n). lia. Qed.
Lemma sub_lim u phi l : strict phi -> is_lim_seq u l -> is_lim_seq (fun m => u (phi m)) l.
Proof. intros H. apply is_lim_seq_subseq. apply strict_filter. exact H. Qed.
Lemma sub_ccv z phi l : strict phi -> ccv z l -> ccv (fun m => z (phi m)) l.
Proof. intros H [H1 H2]. split; [apply (sub_lim (fun m => fst (z m)))|apply (sub_lim (fun m => snd (z m)))]; assumption. Qed.

Lemma inv_S_pos m : 0 < / INR (S m).
Proof. apply Rinv_0_lt_compat. apply lt_0_INR. lia. Qed.
Lemma bw1 (u : nat -> R) B : (forall m, Rabs (u m) <= B) -> exists phi (l : R), strict phi /\ is_lim_seq (fun m => u (phi m)) l.
Proof.
  intros HB.
  destruct (Bolzano_Weierstrass u (fun x => - B <= x <= B)) as [l Hl].
  - apply compact_P3.
  - intros m. pose proof (HB m). apply Rabs_le_between in H. exact H.
  - assert (NX : forall p m : nat, exists q, (p < q)%nat /\ Rabs (u q - l) < / INR (S m)).
    { intros p m. destruct (Hl (Rtopology.disc l (mkposreal _ (inv_S_pos m))) (S p)) as (q & Hq & Hd).
      - exists (mkposreal _ (inv_S_pos m)). intros x Hx. exact Hx.
      - exists q. split; [lia|]. exact Hd. }
    set (nx := fun p m => proj1_sig (constructive_indefinite_description _ (NX p m))).
    assert (Hnx : forall p m, (p < nx p m)%nat /\ Rabs (u (nx p m) - l) < / INR (S m)).
    { intros p m. exact (proj2_sig (constructive_indefinite_description _ (NX p m))). }
    set (phi := fix phi m := match m with O => nx 0%nat 0%nat | S m' => nx (phi m') (S m') end).
    exists phi, l. split; [intros m; cbn [phi]; apply Hnx|].
    apply is_lim_seq_spec. intros eps.
    destruct (archimed_cor1 eps (cond_pos eps)) as (N & HN & HN0). exists N. intros m Hm.
    assert (B1 : Rabs (u (phi m) - l) < / INR (S m)) by (destruct m; apply Hnx).
    eapply Rlt_trans; [exact B1|]. eapply Rle_lt_trans; [|exact HN].
    apply Rinv_le_contravar; [apply lt_0_INR; lia|apply le_INR; lia].
Qed.

Lemma bwn n : forall (z : nat -> nat -> C) B, (forall m i, (i < n)%nat -> Rabs (fst (z m i)) <= B /\ Rabs (snd (z m i)) <= B) ->
  exists phi l, strict phi /\ forall i, (i < n)%nat -> ccv (fun m => z (phi m) i) (l i).
Proof.
  induction n as [|n IH]; intros z B H.
  - exists (fun m => m), (fun _ => RtoC 0). split; [intros m; lia|lia].
  - destruct (IH z B) as (p1 & l & S1 & C1); [intros; apply H; lia|].
    destruct (bw1 (fun m => fst (z (p1 m) n)) B) as (p2 & a & S2 & C2); [intros; apply H; lia|].
    destruct (bw1 (fun m => snd (z (p1 (p2 m)) n)) B) as (p3 & b & S3 & C3); [intros; apply H; lia|].
    exists (fun m => p1 (p2 (p3 m))), (fun i => if Nat.eqb i n then (a, b) else l i). split.
    + apply (strict_comp p1 (fun m => p2 (p3 m))); [exact S1|]. apply strict_comp; assumption.
    + intros i Hi. destruct (Nat.eqb_spec i n) as [->|Hne].
      * split; cbn [fst snd]; [|exact C3]. apply (sub_lim (fun m => fst (z (p1 (p2 m)) n)) p3); assumption.
      * apply (sub_ccv (fun m => z (p1 m) i) (fun m => p2 (p3 m))); [apply strict_comp; assumption|]. apply C1. lia.
Qed.
