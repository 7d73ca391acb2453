(** Statements used in ExcProps. *)
From Coq Require Import Permutation List.
From Verif Require Import Py CBase LatticeModel LatticeSpec LatticeProofs PhcModel PhcSpec ShapesModel RecipModel RecipProofs3 RecipProofs4 RecipProofs5 RecipSpec RecipProofs RecipProofs2 MatElModel FieldsModel RunModel RunSpec PweSpec PweModel PweProofs2 ExcSpec ExcModel ExcProofs ExcProofs2 ExcProofs3.
Open Scope R_scope.
Open Scope list_scope.

(** shapes with conjugate-symmetric transforms give Hermitian matrices *)
Lemma exc_hermitian fuel P z V a M E0 loss osc gmax tr s args : exc_init fuel P z V a M E0 loss osc gmax tr = Some (Ok s) ->
  tr = "tbt"%string \/ tr = "abs"%string -> lattice_init args = Ok (pc_lattice P) -> independent (lt_a1 (pc_lattice P)) (lt_a2 (pc_lattice P)) -> 0 <= gmax ->
  separated (rc_g (ex_rc s)) -> (forall sh, In sh (ly_shapes (ex_layer s)) -> conj_symmetric (sh_ft sh)) ->
  let n := List.length (rc_g (ex_rc s)) in herm_on n (pot_matrix s) /\ (forall k, herm_on n (exc_mat s k (pot_matrix s))) /\
  exists pot, conj_symmetric pot /\ transform_of (lt_ec_area (pc_lattice P)) (ex_layer s) V (rc_g (ex_rc s)) pot.
Proof.
  intros HI Htr HL Hind Hg Hsep Hs. cbv zeta.
  destruct (has_transform (lt_ec_area (pc_lattice P)) (ex_layer s) V _ Hsep Hs) as (pot & Ht & Hc).
  destruct (exc_matrix _ _ _ _ _ _ _ _ _ _ _ _ _ _ HI Htr HL Hind Hg Hc Ht) as (_ & _ & HH & _). cbv zeta in HH.
  split; [exact HH|]. split; [|eauto]. intros k. apply mat_herm. exact HH.
Qed.
Lemma herm_any s k pot : let n := List.length (rc_g (ex_rc s)) in herm_on n pot -> herm_on n (exc_mat s k pot).
Proof. intros n H. apply mat_herm. exact H. Qed.

Definition history := list (list (R * R) * nat).
Definition after argsort eigh (s : exc) (h : history) : exc := fold_left (fun s r => fst (exc_run argsort eigh s (fst r) (snd r))) h s.
Lemma after_static argsort eigh h : forall s, same_static (after argsort eigh s h) s.
Proof.
  induction h as [|r h IH]; intros s; [unfold same_static; cbn; tauto|]. unfold after in *. cbn [fold_left].
  pose proof (IH (fst (exc_run argsort eigh s (fst r) (snd r)))) as A. pose proof (run_static argsort eigh s (fst r) (snd r)) as B.
  unfold same_static in *. intuition congruence.
Qed.
Lemma history_free argsort eigh s h ks m : let s1 := after argsort eigh s h in
  snd (exc_run argsort eigh s1 ks m) = snd (exc_run argsort eigh s ks m) /\
  (snd (exc_run argsort eigh s ks m) = Ok tt -> fst (exc_run argsort eigh s1 ks m) = fst (exc_run argsort eigh s ks m)).
Proof. apply static_run. apply after_static. Qed.
Lemma exc_no_k argsort eigh s m : let r := exc_run argsort eigh s [] m in snd r = Raise UnboundLocalError /\ ex_eners (fst r) = Some [] /\ ex_vecs (fst r) = Some [].
Proof. cbn. auto. Qed.
Lemma exc_cladding fuel P z V a M E0 loss osc gmax tr : z_to_lind P z = 0%nat \/ z_to_lind P z = S (List.length (pc_layers P)) ->
  exc_init fuel P z V a M E0 loss osc gmax tr = Some (Raise ValueError).
Proof.
  intros H. unfold exc_init. cbv zeta.
  assert (B : (Nat.eqb (z_to_lind P z) 0 || Nat.eqb (z_to_lind P z) (List.length (pc_layers P) + 1))%bool = true).
  { apply Bool.orb_true_iff. destruct H as [->| ->]; [left|right]; apply Nat.eqb_eq; lia. }
  rewrite B. reflexivity.
Qed.

Lemma potential_tbt fuel P z V a M E0 loss osc gmax s args pot i j : exc_init fuel P z V a M E0 loss osc gmax "tbt" = Some (Ok s) ->
  lattice_init args = Ok (pc_lattice P) -> independent (lt_a1 (pc_lattice P)) (lt_a2 (pc_lattice P)) -> 0 <= gmax ->
  conj_symmetric pot -> transform_of (lt_ec_area (pc_lattice P)) (ex_layer s) V (rc_g (ex_rc s)) pot ->
  let gs := rc_g (ex_rc s) in (i < List.length gs)%nat -> (j < List.length gs)%nat -> pot_matrix s i j = pot (diff (gat gs i) (gat gs j)).
Proof.
  intros HI HL Hind Hg Hc Ht gs Hi Hj. destruct (init_tbt _ _ _ _ _ _ _ _ _ _ _ _ _ HI HL Hind Hg Hc Ht) as (_ & _ & MM). apply MM; auto.
Qed.
Lemma potential_abs fuel P z V a M E0 loss osc gmax s args pot i j : exc_init fuel P z V a M E0 loss osc gmax "abs" = Some (Ok s) ->
  lattice_init args = Ok (pc_lattice P) -> independent (lt_a1 (pc_lattice P)) (lt_a2 (pc_lattice P)) -> 0 <= gmax ->
  conj_symmetric pot -> transform_of (lt_ec_area (pc_lattice P)) (ex_layer s) V (rc_g (ex_rc s)) pot ->
  let gs := rc_g (ex_rc s) in (i < List.length gs)%nat -> (j < List.length gs)%nat ->
  pot_matrix s i j = pot (diff (gat gs j) (gat gs i)) /\ ((forall g, pot (opp g) = pot g) -> pot_matrix s i j = pot (diff (gat gs i) (gat gs j))).
Proof.
  intros HI HL Hind Hg Hc Ht gs Hi Hj. destruct (init_abs _ _ _ _ _ _ _ _ _ _ _ _ _ HI HL Hind Hg Ht) as (_ & _ & MM & _).
  rewrite MM by auto. split; [reflexivity|]. intros Ev. rewrite <- (opp_diff (gat gs i)). apply Ev.
Qed.

Lemma disc_tbt V a M E0 loss gmax L : lattice_init (LatName "square") = Ok L -> 0 <= gmax ->
  exists s pot, exc_init 0 (disc_phc L) (1/2) V a M E0 loss OscNone gmax "tbt" = Some (Ok s) /\ ly_shapes (ex_layer s) <> [] /\ separated (rc_g (ex_rc s)) /\
    pc_lattice (disc_phc L) = L /\ independent (lt_a1 L) (lt_a2 L) /\
    conj_symmetric pot /\ transform_of (lt_ec_area L) (ex_layer s) V (rc_g (ex_rc s)) pot.
Proof.
  intros HL Hg. destruct (disc_init L 0 V a M E0 loss OscNone None gmax "tbt" HL Hg eq_refl (or_introl eq_refl)) as (s & HI & Hly & Sp).
  destruct (has_transform (lt_ec_area L) (ex_layer s) V _ Sp) as (pot & Ht & Hc).
  { rewrite Hly. intros sh [<-|[]] g. apply ShapesProofs2.circle_conj. }
  exists s, pot. split; [exact HI|]. split; [rewrite Hly; discriminate|]. split; [exact Sp|]. split; [apply disc_form|]. split; [apply (named_independent _ _ HL)|]. auto.
Qed.
Lemma get_pot_refuted : exists L s, lattice_init (LatName "square") = Ok L /\
  exc_init 0 (disc_phc L) (1/2) 1 1 1 0 0 OscNone 1 "tbt" = Some (Ok s) /\ forall Nx Ny, get_pot_xy s Nx Ny = Raise IndexError.
Proof.
  destruct (lattice_init (LatName "square")) as [L|] eqn:HL; [|discriminate].
  destruct (disc_tbt 1 1 1 0 0 1 L HL ltac:(lra)) as (s & pot & HI & _ & _ & EL & Ind & _). exists L, s. split; auto. split; auto.
  intros Nx Ny. eapply (pot_tbt_fails _ _ _ _ _ _ _ _ _ _ _ (LatName "square")); [exact HI|rewrite EL; auto..|lra].
Qed.
(** an example for the shift: nothing against a shape that fills the cell (its
    transform vanishes at all other reciprocal vectors) *)
Definition filling (area : R) : shape := mkShape 1 area (fun _ _ => true) (fun g => if (Reqb (fst g) 0 && Reqb (snd g) 0)%bool then RtoC area else RtoC 0).
Lemma one_layer_ok L ops ly V a M E0 loss gmax : lattice_init (LatName "square") = Ok L -> 0 <= gmax ->
  run_ops (phc_init L 1 1) ops = mkPhc L (shapes_layer (- 10 ^ 10) 0 1) (set_zmin (shapes_layer 0 (10 ^ 10) 1) (0 + 1)) [ly] [] -> ly_zmax ly = 0 + 1 ->
  (forall sh, In sh (ly_shapes ly) -> conj_symmetric (sh_ft sh)) ->
  exists s, exc_init 0 (run_ops (phc_init L 1 1) ops) (1/2) V a M E0 loss OscNone gmax "tbt" = Some (Ok s) /\ ex_layer s = ly /\ ex_rc s = recip_tbt L gmax /\ separated (rc_g (ex_rc s)).
Proof.
  intros HL Hg E T Hs. rewrite E. set (P := mkPhc _ _ _ _ _).
  assert (Z1 : z_to_lind P (1/2) = 1%nat).
  { unfold z_to_lind, P. cbn [pc_layers pc_clad_l].
    assert (T0 : ly_zmax (shapes_layer (- 10 ^ 10) 0 1) = 0) by reflexivity.
    rewrite T0. cbn [z_loop]. rewrite (proj2 (Rltb_true 0 (1/2))) by lra. rewrite T.
    rewrite (proj2 (Rltb_false (0 + 1) (1/2))) by lra. cbn [fst snd]. try rewrite (proj2 (Rltb_false (0 + 1) (1/2))) by lra. reflexivity. }
  destruct (init_ok 0 P (1/2) V a M E0 loss OscNone None gmax "tbt" ly (LatName "square")) as (s & HI & Hly & Sp).
  - rewrite Z1. reflexivity.
  - rewrite Z1. discriminate.
  - rewrite Z1. discriminate.
  - reflexivity.
  - exact HL.
  - apply (named_independent _ _ HL).
  - exact Hg.
  - intros gs. apply square_separated. exact HL.
  - exact Hs.
  - left. reflexivity.
  - exists s. split; [exact HI|]. split; [exact Hly|]. split; [apply (proj2 (init_fields _ _ _ _ _ _ _ _ _ _ _ HI))|exact Sp].
Qed.
Lemma shift_example L V a M E0 loss gmax : lattice_init (LatName "square") = Ok L -> 0 <= gmax -> 0 < V ->
  let P := run_ops (phc_init L 1 1) [OpLayer 1 12 "shapes"] in
  let P' := run_ops (phc_init L 1 1) [OpLayer 1 12 "shapes"; OpShape (ShOne (filling (lt_ec_area L))) 0 CladNone] in
  exists s s' pot pot', exc_init 0 P (1/2) V a M E0 loss OscNone gmax "tbt" = Some (Ok s) /\ exc_init 0 P' (1/2) V a M E0 loss OscNone gmax "tbt" = Some (Ok s') /\
    pc_lattice P = L /\ pc_lattice P' = pc_lattice P /\ independent (lt_a1 L) (lt_a2 L) /\
    conj_symmetric pot /\ transform_of (lt_ec_area L) (ex_layer s) V (rc_g (ex_rc s)) pot /\
    conj_symmetric pot' /\ transform_of (lt_ec_area L) (ex_layer s') V (rc_g (ex_rc s)) pot' /\
    pot' (0, 0) = Cplus (pot (0, 0)) (RtoC V) /\ (forall g, g <> (0, 0) -> pot' g = pot g).
Proof.
  intros HL Hg HV P P'. destruct (square_area L HL) as (EA & Ha & _).
  assert (Hf : conj_symmetric (sh_ft (filling (lt_ec_area L)))).
  { intros g. unfold filling. cbn [sh_ft]. unfold opp. cbn [fst snd].
    assert (Q : forall x, Reqb (- x) 0 = Reqb x 0).
    { intros x. destruct (Reqb x 0) eqn:Q1; [apply Reqb_true in Q1; apply Reqb_true; lra|]. apply Reqb_false in Q1. apply Reqb_false. lra. }
    rewrite !Q. destruct (_ && _)%bool; symmetry; apply Cconj_R. }
  destruct (one_layer_ok L [OpLayer 1 12 "shapes"] (shapes_layer 0 (0 + 1) 12) V a M E0 loss gmax HL Hg eq_refl eq_refl) as (s & HI & Hly & HR & Sp); [intros sh []|].
  destruct (one_layer_ok L [OpLayer 1 12 "shapes"; OpShape (ShOne (filling (lt_ec_area L))) 0 CladNone] (append_shape (lt_ec_area L) (shapes_layer 0 (0 + 1) 12) (filling (lt_ec_area L)))
    V a M E0 loss gmax HL Hg eq_refl eq_refl) as (s' & HI' & Hly' & HR' & Sp'); [intros sh [<-|[]]; exact Hf|].
  exists s, s', (fun _ => RtoC 0), (fun g => Cdiv (Cmult (RtoC V) (sh_ft (filling (lt_ec_area L)) g)) (RtoC (lt_ec_area L))).
  split; [exact HI|]. split; [exact HI'|]. split; [reflexivity|]. split; [reflexivity|]. split; [exact Ha|].
  split; [intros g; symmetry; apply Cconj_R|]. split; [apply zero_transform; rewrite Hly; reflexivity|].
  split; [|split; [|split]].
  - intros g. rewrite Cconj_div, Cconj_mult, !Cconj_R, Hf. reflexivity.
  - rewrite HR, <- HR'.
    assert (F0 : sh_ft (filling (lt_ec_area L)) (0, 0) = RtoC (lt_ec_area L)).
    { unfold filling. cbn [sh_ft fst snd]. rewrite (proj2 (Reqb_true 0 0) eq_refl). reflexivity. }
    apply one_transform; auto; [rewrite Hly'; reflexivity|rewrite EA; lra|rewrite F0, EA; simpl; lra|rewrite F0; reflexivity].
  - unfold filling. cbn [sh_ft fst snd]. rewrite (proj2 (Reqb_true 0 0) eq_refl). cbn [andb]. rewrite EA. apply Ceq; simpl; field.
  - intros [x y] Hn. unfold filling. cbn [sh_ft fst snd].
    assert (B : (Reqb x 0 && Reqb y 0)%bool = false).
    { apply Bool.andb_false_iff. destruct (Req_dec x 0) as [->|]; [right|left]; apply Reqb_false; auto. intros ->. apply Hn. reflexivity. }
    rewrite B, EA. apply Ceq; simpl; field.
Qed.
