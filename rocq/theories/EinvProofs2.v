(** Two runs of the exciton solver. *)
From Coq Require Import Permutation List.
From Verif Require Import Py CBase LatticeModel LatticeSpec PhcModel PhcSpec RecipModel RecipSpec RecipProofs RecipProofs2 RecipProofs3 MatElModel RunModel RunSpec RunProofs RunProofs5 PweSpec PweModel PweProofs PweProofs2 ExcSpec ExcModel ExcProofs ExcProofs2.
From Verif Require Import InvSpec InvProofs InvProofs2 InvProofs3 InvProofs4 EinvSpec EinvProofs.
Open Scope R_scope.
Open Scope list_scope.

Section Pair.
Variable argsort : list R -> list nat.
Variable eigh : nat -> cmat -> list R * cmat.
Hypothesis Hs : sorts argsort.
Hypothesis He : diagonalises eigh.
Lemma exc_pair fuel P z V a M E0 loss osc gmax tr args pot s fuel' P' z' V' a' M' E0' loss' osc' gmax' tr' args' pot' s' ks ks' m (Rk : R * R -> R * R -> Prop) (Q : list R -> list R -> Prop) :
  exc_init fuel P z V a M E0 loss osc gmax tr = Some (Ok s) -> tr = "tbt"%string \/ tr = "abs"%string -> lattice_init args = Ok (pc_lattice P) -> independent (lt_a1 (pc_lattice P)) (lt_a2 (pc_lattice P)) -> 0 <= gmax ->
  conj_symmetric pot -> transform_of (lt_ec_area (pc_lattice P)) (ex_layer s) V (rc_g (ex_rc s)) pot ->
  exc_init fuel' P' z' V' a' M' E0' loss' osc' gmax' tr' = Some (Ok s') -> tr' = "tbt"%string \/ tr' = "abs"%string -> lattice_init args' = Ok (pc_lattice P') -> independent (lt_a1 (pc_lattice P')) (lt_a2 (pc_lattice P')) -> 0 <= gmax' ->
  conj_symmetric pot' -> transform_of (lt_ec_area (pc_lattice P')) (ex_layer s') V' (rc_g (ex_rc s')) pot' ->
  ks <> [] -> Forall2 Rk ks ks' ->
  (forall k k' es vs es' vs', Rk k k' -> levels (List.length (rc_g (ex_rc s))) m (schroedinger hbar qe M a (flip (String.eqb tr "abs") pot) (rc_g (ex_rc s)) k) es vs ->
     levels (List.length (rc_g (ex_rc s'))) m (schroedinger hbar qe M' a' (flip (String.eqb tr' "abs") pot') (rc_g (ex_rc s')) k') es' vs' -> Q es es') ->
  exists es es', snd (exc_run argsort eigh s ks m) = Ok tt /\ snd (exc_run argsort eigh s' ks' m) = Ok tt /\ List.length es = List.length ks /\
    ex_eners (fst (exc_run argsort eigh s ks m)) = Some (map (map (fun e => (e + E0, loss))) es) /\
    ex_eners (fst (exc_run argsort eigh s' ks' m)) = Some (map (map (fun e => (e + E0', loss'))) es') /\ Forall2 Q es es'.
Proof.
  intros HI Htr HL Hi Hg Hc Ht HI' Htr' HL' Hi' Hg' Hc' Ht' Ne FK HQ.
  assert (Ne' : ks' <> []) by (intros ->; inversion FK; subst; congruence).
  destruct (exc_whole argsort eigh Hs He fuel P z V a M E0 loss osc gmax tr args pot s HI Htr HL Hi Hg Hc Ht ks m Ne) as (s1 & es & vs & R1 & R2 & _ & _ & R5 & _ & R7).
  destruct (exc_whole argsort eigh Hs He fuel' P' z' V' a' M' E0' loss' osc' gmax' tr' args' pot' s' HI' Htr' HL' Hi' Hg' Hc' Ht' ks' m Ne') as (s1' & es' & vs' & R1' & R2' & _ & _ & R5' & _ & R7').
  exists es, es'. rewrite R1, R1'. cbn [fst snd]. split; [reflexivity|]. split; [reflexivity|]. split; [exact R5|]. split; [exact R2|]. split; [exact R2'|].
  clear R1 R1' R2 R2' Ne Ne'.
  assert (G : forall i k k', nth_error ks i = Some k -> nth_error ks' i = Some k' -> Q (nth i es []) (nth i es' [])).
  { intros i k k' K K'. eapply HQ; [|apply (R7 i k K)|apply (R7' i k' K')]. clear -FK K K'. revert i K K'. induction FK as [|x y l l' H F IH]; intros [|i] K K'; try discriminate; cbn in *; [congruence|eauto]. }
  clear R7 R7'. revert es es' R5 R5' G. induction FK as [|x y l l' H F IH]; intros [|e es] [|e' es'] R5 R5' G; try discriminate; constructor.
  - apply (G 0%nat x y); reflexivity.
  - apply IH; auto. intros i k k' K K'. apply (G (S i) k k'); auto.
Qed.
(** equal energies when the matrices are equivalent *)
Lemma exc_same fuel P P' z z' V V' a M a' M' E0 loss osc osc' gmax tr args pot pot' s s' ks ks' m sg d f :
  exc_init fuel P z V a M E0 loss osc gmax tr = Some (Ok s) -> exc_init fuel P' z' V' a' M' E0 loss osc' gmax tr = Some (Ok s') -> pc_lattice P' = pc_lattice P ->
  tr = "tbt"%string \/ tr = "abs"%string -> lattice_init args = Ok (pc_lattice P) -> independent (lt_a1 (pc_lattice P)) (lt_a2 (pc_lattice P)) -> 0 <= gmax ->
  conj_symmetric pot -> transform_of (lt_ec_area (pc_lattice P)) (ex_layer s) V (rc_g (ex_rc s)) pot ->
  conj_symmetric pot' -> transform_of (lt_ec_area (pc_lattice P)) (ex_layer s') V' (rc_g (ex_rc s)) pot' -> ks <> [] -> ex_rc s' = ex_rc s ->
  let gs := rc_g (ex_rc s) in let n := List.length gs in perm_on n sg -> (forall i, (i < n)%nat -> (d i * Cconj (d i))%C = RtoC 1) -> field_auto f ->
  (forall i j, (i < n)%nat -> (j < n)%nat -> flip (String.eqb tr "abs") pot' (diff (gat gs i) (gat gs j)) = (d i * f (flip (String.eqb tr "abs") pot (diff (gat gs (sg i)) (gat gs (sg j)))) * Cconj (d j))%C) ->
  Forall2 (fun k k' => forall i, (i < n)%nat -> free_energy hbar qe M' a' k' (gat gs i) = free_energy hbar qe M a k (gat gs (sg i))) ks ks' ->
  let r := exc_run argsort eigh s ks m in let r' := exc_run argsort eigh s' ks' m in
  snd r = Ok tt /\ snd r' = Ok tt /\ ex_eners (fst r') = ex_eners (fst r) /\ exists es, ex_eners (fst r) = Some es /\ List.length es = List.length ks.
Proof.
  intros HI HI' HP Htr HL Hi Hg Hc Ht Hc' Ht' Ne HR gs n Psg D F HM FK r r'.
  destruct (exc_pair fuel P z V a M E0 loss osc gmax tr args pot s fuel P' z' V' a' M' E0 loss osc' gmax tr args pot' s' ks ks' m
    (fun k k' => forall i, (i < n)%nat -> free_energy hbar qe M' a' k' (gat gs i) = free_energy hbar qe M a k (gat gs (sg i))) eq) as (es & es' & O & O' & LE & E & E' & Q); auto.
  - rewrite HP; auto.
  - rewrite HP; auto.
  - rewrite HP, HR; auto.
  - intros k k' es vs es' vs' Rk L L'. rewrite HR in L'. symmetry. eapply (levels_twist n m); eauto. intros i j Hi' Hj. unfold schroedinger. fold gs. rewrite HM by auto.
    set (x := flip _ pot _). rewrite Rk by auto.
    assert (fe : forall a b, f (a + b)%C = (f a + f b)%C). { destruct F as [F|F]; intros u w; rewrite !F; [reflexivity|]. unfold Cconj, Cplus. cbn. f_equal; ring. }
    rewrite fe. destruct (Nat.eqb_spec i j) as [->|Nij].
    + rewrite Nat.eqb_refl, auto_R by auto. transitivity (RtoC (free_energy hbar qe M a k (gat gs (sg j))) * (d j * Cconj (d j)) + d j * f x * Cconj (d j))%C; [rewrite D by auto; ring|ring].
    + destruct (Nat.eqb_spec (sg i) (sg j)) as [Z|_]; [exfalso; apply Nij; apply Psg; auto|]. rewrite auto_R by auto. ring.
  - unfold r, r'. split; [exact O|]. split; [exact O'|]. assert (EE : es' = es) by (clear -Q; induction Q; congruence). subst es'. split; [congruence|].
    eexists. split; [exact E|]. rewrite map_length. exact LE.
Qed.
End Pair.
(** the plane waves depend on the lattice and the cut-off alone *)
Lemma init_waves fuel P z V a M E0 loss osc gmax tr s P' z' V' a' M' E0' loss' osc' s' : exc_init fuel P z V a M E0 loss osc gmax tr = Some (Ok s) ->
  exc_init fuel P' z' V' a' M' E0' loss' osc' gmax tr = Some (Ok s') -> pc_lattice P' = pc_lattice P -> tr = "tbt"%string \/ tr = "abs"%string -> ex_rc s' = ex_rc s.
Proof.
  intros HI HI' HP Htr. destruct Htr as [->| ->]; unfold exc_init in HI, HI'; cbv zeta in HI, HI';
      (destruct (_ || _)%bool in HI; [discriminate|]); (destruct (_ || _)%bool in HI'; [discriminate|]);
      (destruct (nth_error _ _) in HI; [|discriminate]); (destruct (nth_error _ _) in HI'; [|discriminate]);
      (destruct (check_osc osc); [|discriminate]); (destruct (check_osc osc'); [|discriminate]); cbn [String.eqb Ascii.eqb Bool.eqb] in HI, HI'; rewrite HP in HI'.
    - destruct (pot_tbt _ _ _ _) as [[]|] in HI; [|discriminate]. destruct (pot_tbt _ _ _ _) as [[]|] in HI'; [|discriminate].
      cbn [bind] in HI, HI'. injection HI as <-. injection HI' as <-. reflexivity.
    - destruct (recip_abs _ _ _) as [[rc|]|]; [|discriminate..]. cbn [bind] in HI, HI'.
      destruct (pot_abs _ _ _ _) as [[]|] in HI; [|discriminate]. destruct (pot_abs _ _ _ _) as [[]|] in HI'; [|discriminate].
      cbn [bind] in HI, HI'. injection HI as <-. injection HI' as <-. reflexivity.
Qed.
