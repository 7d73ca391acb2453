(** Exciton energies: moved potentials, k and -k, symmetries, units, more plane
    waves, higher potentials. *)
From Coq Require Import Permutation List.
From Verif Require Import Py CBase LatticeModel PhcModel PhcSpec RecipModel RecipSpec RecipProofs RecipProofs2 RecipProofs3 MatElModel RunModel RunSpec RunProofs RunProofs5 PweSpec PweModel PweProofs PweProofs2 ExcSpec ExcModel ExcProofs ExcProofs2 ExcProofs3 LatticeSpec.
From Verif Require Import InvSpec InvProofs InvProofs2 InvProofs3 InvProofs4 EinvSpec EinvProofs EinvProofs2.
Open Scope R_scope.
Open Scope list_scope.

Lemma opp_iso : linear_isometry opp.
Proof. split; intros u v; unfold opp, inner; cbn [fst snd]; [f_equal; ring|ring]. Qed.
Lemma opp_opp g : opp (opp g) = g.
Proof. unfold opp. destruct g; cbn. f_equal; ring. Qed.
Lemma flip_conj b pot : conj_symmetric pot -> conj_symmetric (flip b pot).
Proof. intros H g. unfold flip. destruct b; [apply (H (opp g))|apply H]. Qed.
Lemma exc_waves fuel P z V a M E0 loss osc gmax tr s args : exc_init fuel P z V a M E0 loss osc gmax tr = Some (Ok s) ->
  tr = "tbt"%string \/ tr = "abs"%string -> lattice_init args = Ok (pc_lattice P) -> independent (lt_a1 (pc_lattice P)) (lt_a2 (pc_lattice P)) -> 0 <= gmax ->
  NoDup (rc_g (ex_rc s)) /\ closed_under opp (rc_g (ex_rc s)).
Proof.
  intros HI Htr HL Hi Hg. destruct Htr as [->| ->].
  - destruct (init_fields _ _ _ _ _ _ _ _ _ _ _ HI) as (_ & ->). destruct (tbt_set args _ gmax HL Hi Hg) as (n1 & n2 & _ & _ & _ & _ & _ & ND & _ & S & _).
    split; [exact ND|]. intros g Hgs. apply S in Hgs. destruct Hgs as (i & j & Bi & Bj & ->). apply S. exists (- i)%Z, (- j)%Z. split; [lia|]. split; [lia|].
    unfold opp, comb. cbn [fst snd]. rewrite !opp_IZR. f_equal; ring.
  - assert (HR : recip_abs fuel (pc_lattice P) gmax = Some (Ok (ex_rc s))).
    { unfold exc_init in HI. cbv zeta in HI. destruct (_ || _)%bool in HI; [discriminate|]. destruct (nth_error _ _) in HI; [|discriminate]. destruct (check_osc osc); [|discriminate].
      cbn [String.eqb Ascii.eqb Bool.eqb] in HI. destruct (recip_abs _ _ _) as [[rc|]|]; [|discriminate..]. cbn [bind] in HI. destruct (pot_abs _ _ _ _) as [[]|] in HI; [|discriminate].
      cbn [bind] in HI. injection HI as <-. reflexivity. }
    destruct (abs_set args _ gmax fuel _ HL Hi Hg HR) as (rc' & k' & E & _ & ND & _ & O & _). injection E as E. subst rc'. split; [exact ND|]. intros g Hgs. apply O. exact Hgs.
Qed.
Section Two.
Variable argsort : list R -> list nat.
Variable eigh : nat -> cmat -> list R * cmat.
Hypothesis Hs : sorts argsort.
Hypothesis He : diagonalises eigh.
(** [twice s ks s' ks' m]: both runs succeed with the same energies, one list per
    k-point *)
Definition twice (s : exc) ks (s' : exc) ks' m : Prop := let r := exc_run argsort eigh s ks m in let r' := exc_run argsort eigh s' ks' m in
  snd r = Ok tt /\ snd r' = Ok tt /\ ex_eners (fst r') = ex_eners (fst r) /\ exists es, ex_eners (fst r) = Some es /\ List.length es = List.length ks.
Lemma moved_exc fuel P P' z z' V V' a M E0 loss osc osc' gmax tr args pot pot' s s' t ks m :
  exc_init fuel P z V a M E0 loss osc gmax tr = Some (Ok s) -> exc_init fuel P' z' V' a M E0 loss osc' gmax tr = Some (Ok s') -> pc_lattice P' = pc_lattice P ->
  tr = "tbt"%string \/ tr = "abs"%string -> lattice_init args = Ok (pc_lattice P) -> independent (lt_a1 (pc_lattice P)) (lt_a2 (pc_lattice P)) -> 0 <= gmax ->
  conj_symmetric pot -> transform_of (lt_ec_area (pc_lattice P)) (ex_layer s) V (rc_g (ex_rc s)) pot ->
  conj_symmetric pot' -> transform_of (lt_ec_area (pc_lattice P)) (ex_layer s') V' (rc_g (ex_rc s)) pot' ->
  moved_on (difference_of (rc_g (ex_rc s))) t pot pot' -> ks <> [] -> twice s ks s' ks m.
Proof.
  intros HI HI' HP Htr HL Hi Hg Hc Ht Hc' Ht' MV Ne. set (sn := if String.eqb tr "abs" then 1 else -1). set (gs := rc_g (ex_rc s)).
  apply (exc_same argsort eigh Hs He fuel P P' z z' V V' a M a M E0 loss osc osc' gmax tr args pot pot' s s' ks ks m (fun i => i) (fun i => expi (sn * inner (gat gs i) t)) (fun z => z)); auto.
  - eapply init_waves; eauto.
  - apply perm_id.
  - intros i _. apply expi_mod.
  - apply id_auto.
  - intros i j Hi' Hj. fold gs. rewrite expi_conj. 
    assert (IA : difference_of gs (diff (gat gs i) (gat gs j))) by (exists (gat gs i), (gat gs j); split; [apply nth_In; auto|split; [apply nth_In; auto|reflexivity]]).
    assert (IB : difference_of gs (opp (diff (gat gs i) (gat gs j)))) by (rewrite opp_diff; exists (gat gs j), (gat gs i); split; [apply nth_In; auto|split; [apply nth_In; auto|reflexivity]]).
    set (x := diff (gat gs i) (gat gs j)) in *.
    assert (X : expi (sn * inner x t) = (expi (sn * inner (gat gs i) t) * expi (- (sn * inner (gat gs j) t)))%C).
    { rewrite <- expi_plus. f_equal. unfold x, inner, diff. cbn [fst snd]. ring. }
    unfold flip, sn in *. destruct (String.eqb tr "abs").
    + rewrite (MV _ IB). replace (- inner (opp x) t) with (1 * inner x t) by (unfold inner, opp; cbn [fst snd]; ring). rewrite X. ring.
    + rewrite (MV _ IA). replace (- inner x t) with (-1 * inner x t) by ring. rewrite X. ring.
  - clear. induction ks; constructor; auto.
Qed.
Lemma sym_exc fuel P z V a M E0 loss osc gmax tr args pot s T ks m :
  exc_init fuel P z V a M E0 loss osc gmax tr = Some (Ok s) ->
  tr = "tbt"%string \/ tr = "abs"%string -> lattice_init args = Ok (pc_lattice P) -> independent (lt_a1 (pc_lattice P)) (lt_a2 (pc_lattice P)) -> 0 <= gmax ->
  conj_symmetric pot -> transform_of (lt_ec_area (pc_lattice P)) (ex_layer s) V (rc_g (ex_rc s)) pot ->
  linear_isometry T -> closed_under T (rc_g (ex_rc s)) -> (invariant_on (difference_of (rc_g (ex_rc s))) T pot \/ forall g, T g = opp g) -> ks <> [] -> twice s ks s (map T ks) m.
Proof.
  intros HI Htr HL Hi Hg Hc Ht HT CT IV Ne. destruct (exc_waves _ _ _ _ _ _ _ _ _ _ _ _ _ HI Htr HL Hi Hg) as (ND & _). set (gs := rc_g (ex_rc s)) in *.
  destruct (closed_perm T gs HT ND CT) as (sg & Psg & Esg).
  assert (FE : Forall2 (fun k k' => forall i, (i < List.length gs)%nat -> free_energy hbar qe M a k' (gat gs i) = free_energy hbar qe M a k (gat gs (sg i))) ks (map T ks)).
  { clear Ne. induction ks as [|k ks IH]; constructor; auto. intros i Hi'. rewrite (Esg i Hi'). unfold free_energy. f_equal. f_equal. f_equal. f_equal.
    set (g := gat gs (sg i)). pose proof (proj1 HT k g) as A. pose proof (proj2 HT (fst k + fst g, snd k + snd g) (fst k + fst g, snd k + snd g)) as B. rewrite A in B.
    unfold shifted, len. unfold inner in B. cbn [fst snd] in *. f_equal. first [exact B|simpl in *; lra]. }
  assert (DI : forall i j, (i < List.length gs)%nat -> (j < List.length gs)%nat -> difference_of gs (diff (gat gs (sg i)) (gat gs (sg j))) /\ difference_of gs (diff (gat gs (sg j)) (gat gs (sg i)))).
  { intros i j Hi' Hj. split; [exists (gat gs (sg i)), (gat gs (sg j))|exists (gat gs (sg j)), (gat gs (sg i))]; (split; [apply nth_In; apply Psg; auto|split; [apply nth_In; apply Psg; auto|reflexivity]]). }
  destruct IV as [IV|OP].
  - apply (exc_same argsort eigh Hs He fuel P P z z V V a M a M E0 loss osc osc gmax tr args pot pot s s ks (map T ks) m sg (fun _ => RtoC 1) (fun z => z)); auto.
    + intros i _. rewrite Cconj_R. ring.
    + apply id_auto.
    + intros i j Hi' Hj. fold gs in Hi', Hj |- *. rewrite Esg, (Esg j), <- (iso_diff T HT) by auto. destruct (DI i j Hi' Hj) as (D1 & D2). unfold flip. rewrite Cconj_R. destruct (String.eqb tr "abs").
      * assert (OT : opp (T (diff (gat gs (sg i)) (gat gs (sg j)))) = T (diff (gat gs (sg j)) (gat gs (sg i)))) by (rewrite !(iso_diff T HT); apply opp_diff).
        rewrite OT, (IV _ D2), opp_diff. ring.
      * rewrite (IV _ D1). ring.
  - apply (exc_same argsort eigh Hs He fuel P P z z V V a M a M E0 loss osc osc gmax tr args pot pot s s ks (map T ks) m sg (fun _ => RtoC 1) Cconj); auto.
    + intros i _. rewrite Cconj_R. ring.
    + apply conj_auto.
    + intros i j Hi' Hj. fold gs in Hi', Hj |- *. rewrite Esg, (Esg j), <- (iso_diff T HT), OP by auto. rewrite (flip_conj _ pot Hc). rewrite Cconj_R. ring.
Qed.
Lemma reversed_exc fuel P z V a M E0 loss osc gmax tr args pot s ks m :
  exc_init fuel P z V a M E0 loss osc gmax tr = Some (Ok s) ->
  tr = "tbt"%string \/ tr = "abs"%string -> lattice_init args = Ok (pc_lattice P) -> independent (lt_a1 (pc_lattice P)) (lt_a2 (pc_lattice P)) -> 0 <= gmax ->
  conj_symmetric pot -> transform_of (lt_ec_area (pc_lattice P)) (ex_layer s) V (rc_g (ex_rc s)) pot -> ks <> [] -> twice s ks s (map opp ks) m.
Proof.
  intros HI Htr HL Hi Hg Hc Ht Ne. destruct (exc_waves _ _ _ _ _ _ _ _ _ _ _ _ _ HI Htr HL Hi Hg) as (ND & CO).
  apply (sym_exc fuel P z V a M E0 loss osc gmax tr args pot s opp ks m); auto. apply opp_iso.
Qed.
(** only M a^2 matters *)
Lemma units_exc fuel P z V a M a' M' E0 loss osc osc' gmax tr args pot s s' ks m :
  exc_init fuel P z V a M E0 loss osc gmax tr = Some (Ok s) -> exc_init fuel P z V a' M' E0 loss osc' gmax tr = Some (Ok s') ->
  tr = "tbt"%string \/ tr = "abs"%string -> lattice_init args = Ok (pc_lattice P) -> independent (lt_a1 (pc_lattice P)) (lt_a2 (pc_lattice P)) -> 0 <= gmax ->
  conj_symmetric pot -> transform_of (lt_ec_area (pc_lattice P)) (ex_layer s) V (rc_g (ex_rc s)) pot -> ks <> [] ->
  0 < a -> 0 < a' -> 0 < M -> 0 < M' -> M' * a' ^ 2 = M * a ^ 2 -> ex_layer s' = ex_layer s -> twice s ks s' ks m.
Proof.
  intros HI HI' Htr HL Hi Hg Hc Ht Ne A1 A2 A3 A4 U EL.
  assert (HR : ex_rc s' = ex_rc s) by (eapply init_waves; eauto).
  apply (exc_same argsort eigh Hs He fuel P P z z V V a M a' M' E0 loss osc osc' gmax tr args pot pot s s' ks ks m (fun i => i) (fun _ => RtoC 1) (fun z => z)); auto.
  - rewrite EL. exact Ht.
  - apply perm_id.
  - intros i _. rewrite Cconj_R. ring.
  - apply id_auto.
  - intros. rewrite Cconj_R. ring.
  - clear Ne. induction ks as [|k ks IH]; constructor; auto. intros i _. unfold free_energy. set (l := len _). assert (0 < qe) by (unfold qe; lra).
    transitivity (hbar ^ 2 * l ^ 2 / (2 * qe) / (M' * a' ^ 2)); [field; repeat split; lra|]. rewrite U. field. repeat split; lra.
Qed.
End Two.
