(** A solver that lists the eigenvalues in ascending order exists. *)
From Coq Require Import Permutation List.
From Verif Require Import Py CBase RunSpec OracProofs GinvSpec.
Open Scope R_scope.
Open Scope list_scope.

Lemma ascending_exists : exists eigh, diagonalises eigh /\ eigh_ascending eigh.
Proof.
  destruct diagonalises_exists as (eigh & He). destruct sorts_exists as (argsort & Hs).
  exists (fun n A => let p := argsort (fst (eigh n A)) in (map (fun j => nth j (fst (eigh n A)) 0) p, fun i j => snd (eigh n A) i (nth j p 0%nat))).
  split; intros n A HA; destruct (He n A HA) as (L & O & E); destruct (Hs (fst (eigh n A))) as (P & S); cbn [fst snd]; set (ls := fst (eigh n A)) in *; set (V := snd (eigh n A)) in *; set (p := argsort ls) in *; rewrite L in P;
    pose proof (Permutation_length P) as PL; rewrite seq_length in PL;
    assert (B : forall j, (j < n)%nat -> (nth j p 0 < n)%nat) by (intros j Hj; assert (I : In (nth j p 0%nat) (seq 0 n)) by (eapply Permutation_in; [exact P|apply nth_In; lia]); apply in_seq in I; lia).
  - split; [rewrite map_length; exact PL|]. split.
    + intros j k Hj Hk. rewrite O by auto. destruct (Nat.eqb_spec j k) as [->|Ne]; [rewrite Nat.eqb_refl; reflexivity|].
      destruct (Nat.eqb_spec (nth j p 0%nat) (nth k p 0%nat)) as [Q|_]; [|reflexivity]. exfalso. apply Ne.
      assert (ND : NoDup p) by (eapply Permutation_NoDup; [symmetry; exact P|apply seq_NoDup]). apply (proj1 (NoDup_nth p 0%nat) ND); auto; lia.
    + intros i j Hi Hj. rewrite (nth_map0 _ p j 0%nat 0) by lia. rewrite <- E by auto. reflexivity.
  - exact S.
Qed.
