(** Proofs about reciprocal. *)
From Verif Require Import Py CBase LatticeModel PhcModel RecipModel ExcModel PweModel PolModel VizModel Viz3Model LatticeSpec RecipSpec Viz3Spec
  LatticeProofs RecipProofs RecipProofs2 RecipProofs3 RecipProofs4 RecipProofs5.
Open Scope R_scope.
Open Scope list_scope.

Lemma tbt_markers args L gmax : lattice_init args = Ok L -> independent (lt_a1 L) (lt_a2 L) -> 0 <= gmax -> lattice_markers (lt_b1 L) (lt_b2 L) (rc_g (recip_tbt L gmax)).
Proof.
  intros H1 H2 H3. destruct (tbt_set args L gmax H1 H2 H3) as (n1 & n2 & _ & _ & _ & _ & _ & N & _ & H & H0 & _).
  split; [exact N|]. split; [eapply nth_error_In; exact H0|]. intros p Hp. apply H in Hp. destruct Hp as (i & j & Hi & Hj & ->).
  split; [exists i, j; reflexivity|]. apply H. exists (- i)%Z, (- j)%Z. rewrite !Z.abs_opp. split; [exact Hi|]. split; [exact Hj|].
  unfold comb. cbn [fst snd]. rewrite !opp_IZR. f_equal; ring.
Qed.
Lemma abs_markers args L gmax fuel rc : lattice_init args = Ok L -> independent (lt_a1 L) (lt_a2 L) -> 0 <= gmax -> recip_abs fuel L gmax = Some (Ok rc) ->
  lattice_markers (lt_b1 L) (lt_b2 L) (rc_g rc).
Proof.
  intros H1 H2 H3 H. destruct (abs_set args L gmax fuel (Ok rc) H1 H2 H3 H) as (rc' & k & E & _ & N & O & Hg & _). inversion E; subst rc'.
  split; [exact N|]. split; [exact O|]. intros p Hp. destruct (Hg p Hp) as ((m & n & ->) & _ & Ho). split; [exists m, n; reflexivity|exact Ho].
Qed.
Lemma exc_init_rc fuel P z V a M E0 loss osc gmax tr s : exc_init fuel P z V a M E0 loss osc gmax tr = Some (Ok s) ->
  ex_rc s = recip_tbt (pc_lattice P) gmax \/ recip_abs fuel (pc_lattice P) gmax = Some (Ok (ex_rc s)).
Proof.
  unfold exc_init. destruct (_ || _)%bool; [discriminate|]. destruct (nth_error _ _) as [ly|]; [|discriminate].
  destruct (check_osc osc) as [os|e]; [|discriminate]. destruct (String.eqb tr "tbt").
  - intros H. inversion H as [H1]. apply bind_ok in H1. destruct H1 as ([t1 t2] & _ & H1). inversion H1. left; reflexivity.
  - destruct (String.eqb tr "abs"); [|discriminate]. destruct (recip_abs _ _ _) as [r|]; [|discriminate]. intros H. inversion H as [H1].
    apply bind_ok in H1. destruct H1 as (rc & -> & H1). apply bind_ok in H1. destruct H1 as ([x t1] & _ & H1). inversion H1. right; reflexivity.
Qed.
Lemma markers args L gmax e : lattice_init args = Ok L -> independent (lt_a1 L) (lt_a2 L) -> 0 <= gmax ->
  (e = EGme (recip_tbt L gmax) \/ (exists fuel rc, recip_abs fuel L gmax = Some (Ok rc) /\ (e = EGme rc \/ e = ran_pol rc)) \/
   e = ran_pol (recip_tbt L gmax) \/ (exists ly ee, e = EPwe (pwe_init L ly gmax ee)) \/
   exists fuel P z V a M E0 loss osc tr s, pc_lattice P = L /\ exc_init fuel P z V a M E0 loss osc gmax tr = Some (Ok s) /\ e = EExc s) ->
  exists ps, reciprocal e = Ok ps /\ lattice_markers (lt_b1 L) (lt_b2 L) ps.
Proof.
  intros H1 H2 H3 [-> | [(fuel & rc & E & [-> | ->]) | [-> | [(ly & ee & ->) | (fuel & P & z & V & a & M & E0 & loss & osc & tr & s & HP & E & ->)]]]]; cbn [reciprocal ran_pol];
    eexists; (split; [reflexivity|]); try (eapply abs_markers; eassumption); try (eapply tbt_markers; eassumption).
  subst L. destruct (exc_init_rc _ _ _ _ _ _ _ _ _ _ _ _ E) as [-> | E']; [eapply tbt_markers|eapply abs_markers]; eassumption.
Qed.
