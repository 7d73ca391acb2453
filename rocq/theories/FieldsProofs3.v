(** Assembly of the field theorems and example data. *)
From Coq Require Import Ascii.
From Verif Require Import Py CBase LatticeModel LatticeSpec LatticeProofs PhcModel RecipModel RecipSpec SlabSpec SlabModel MatElModel MatElSpec MatElProofs3 FieldsSpec FieldsModel FieldsProofs FieldsProofs2.
Open Scope R_scope.

Lemma basis_curl P eps d m i lind :
  let g := md_g (snd m) i in
  let c := md_chi (snd m) lind i in let om := md_om (snd m) i in let e := nth lind eps 0 in
  gk_len d g = sqrt (gk_x d g * gk_x d g + gk_y d g * gk_y d g) ->
  gk_x d g * gk_x d g + gk_y d g * gk_y d g <> 0 ->
  Cmult c c = RtoC (e * (om * om) - gk_len d g * gk_len d g) ->
  exists A B zc,
    (lind <> 0%nat -> lind <> (List.length eps - 1)%nat -> A = md_A (snd m) lind i /\ B = md_B (snd m) lind i /\ zc = z_cent P lind) /\
    (lind = 0%nat -> A = RtoC 0 /\ B = md_B (snd m) lind i /\ zc = ly_zmax (pc_clad_l P)) /\
    (lind <> 0%nat -> lind = (List.length eps - 1)%nat -> A = md_A (snd m) lind i /\ B = RtoC 0 /\ zc = ly_zmin (pc_clad_u P)) /\
    forall z, is_curl (gk_x d g) (gk_y d g) (fun t => cx (basis_H P eps d m i lind t)) (fun t => cy (basis_H P eps d m i lind t))
      (fun t => cz (basis_H P eps d m i lind t)) z
      (curl_field (Nat.even (fst m)) (gk_x d g) (gk_y d g) om e c A B (z - zc)).
Proof.
  intros g c om e H1 H2 H3. exists (ampA m i lind), (ampB eps m i lind), (zref P eps lind).
  split; [|split; [|split]].
  - intros N1 N2. apply Nat.eqb_neq in N1, N2. unfold ampA, ampB, zref. rewrite N1, N2. auto.
  - intros ->. auto.
  - intros N1 N2. apply Nat.eqb_neq in N1. apply Nat.eqb_eq in N2. unfold ampA, ampB, zref. rewrite N1, N2. auto.
  - intros z. apply curl_basis; auto.
Qed.

Lemma fields_some field P eps d ng einv ms evec omega :
  lower field = "h"%string \/ lower field = "d"%string \/ lower field = "e"%string ->
  exists Fx Fy Fz : R -> nat -> C, forall z, ft_field_xy P eps d ng einv ms evec omega field z = Some (Fx z, Fy z, Fz z).
Proof.
  intros [E|[E|E]]; unfold ft_field_xy; rewrite E; cbn [String.eqb Ascii.eqb Bool.eqb orb]; do 3 eexists; intros z; reflexivity.
Qed.

Lemma comps_xy field P eps d ng einv ms evec omega z gvec mesh component :
  lower field = "h"%string \/ lower field = "d"%string \/ lower field = "e"%string ->
  exists Fx Fy Fz, ft_field_xy P eps d ng einv ms evec omega field z = Some (Fx, Fy, Fz) /\
  let res := get_field_xy (fun f => ft_field_xy P eps d ng einv ms evec omega f z) gvec mesh field component in
  ((forall c, letter c component -> c = "x"%char \/ c = "y"%char \/ c = "z"%char) ->
    exists fi, res = Ok fi /\ NoDup (map fst fi) /\ (forall c, In c (map fst fi) <-> letter c component) /\
      forall c a, In (c, a) fi -> exists F, ((c = "x"%char /\ F = Fx) \/ (c = "y"%char /\ F = Fy) \/ (c = "z"%char /\ F = Fz)) /\
        a = map (fun p => ftinv F gvec (fst p) (snd p)) mesh) /\
  ((exists c, letter c component /\ ~ (c = "x"%char \/ c = "y"%char \/ c = "z"%char)) -> res = Raise ValueError).
Proof.
  intros Hf. destruct (fields_some field P eps d ng einv ms evec omega Hf) as [Fx [Fy [Fz E]]].
  exists (Fx z), (Fy z), (Fz z). split; auto. unfold get_field_xy. rewrite E. cbn [unpack bind]. split.
  - intros H. destruct (loop_ok (nat -> C) (list C) (fun f => map (fun p => ftinv f gvec (fst p) (snd p)) mesh) (Fx z, Fy z, Fz z) component []) as [fi [E1 [E2 [E3 E4]]]]; auto.
    + constructor.
    + exists fi. split; auto. split; auto. split; [intros c; rewrite E3; simpl; tauto|].
      intros c a Hc. rewrite Forall_forall in E4. apply (E4 (c, a)) in Hc. exact Hc.
  - intros [c [H1 H2]]. eapply loop_bad; eauto.
Qed.

Lemma mapM_map {A B} (f : A -> B) l : mapM (fun z => Ok (f z)) l = Ok (map f l).
Proof. induction l as [|a l IH]; simpl; auto. rewrite IH. reflexivity. Qed.
Lemma mapM_ext {A B} (f g : A -> result B) l : (forall x, f x = g x) -> mapM f l = mapM g l.
Proof. intros H. induction l as [|a l IH]; simpl; auto. rewrite H, IH. reflexivity. Qed.

Lemma comps_z field P eps d ng einv ms evec omega zgrid gvec line component :
  lower field = "h"%string \/ lower field = "d"%string \/ lower field = "e"%string ->
  let F := fun f z => ft_field_xy P eps d ng einv ms evec omega f z in
  exists Fx Fy Fz, (forall z, F field z = Some (Fx z, Fy z, Fz z)) /\
  let res := get_field_z F gvec line zgrid field component in
  ((forall c, letter c component -> c = "x"%char \/ c = "y"%char \/ c = "z"%char) ->
    exists fi, res = Ok fi /\ NoDup (map fst fi) /\ (forall c, In c (map fst fi) <-> letter c component) /\
      forall c a, In (c, a) fi -> exists F, ((c = "x"%char /\ F = Fx) \/ (c = "y"%char /\ F = Fy) \/ (c = "z"%char /\ F = Fz)) /\
        a = map (fun z => map (fun p => ftinv (F z) gvec (fst p) (snd p)) line) zgrid) /\
  ((exists c, letter c component /\ ~ (c = "x"%char \/ c = "y"%char \/ c = "z"%char)) -> res = Raise ValueError).
Proof.
  intros Hf F. destruct (fields_some field P eps d ng einv ms evec omega Hf) as [Fx [Fy [Fz E]]].
  exists Fx, Fy, Fz. split; auto. unfold get_field_z.
  rewrite (mapM_ext _ (fun z => Ok (Fx z, Fy z, Fz z))) by (intros z; unfold F; rewrite E; reflexivity).
  rewrite mapM_map. cbn [bind]. rewrite !map_map. cbn [fst snd]. split.
  - intros H. edestruct (loop_ok (list (nat -> C)) (list (list C)) (map (fun f => map (fun p => ftinv f gvec (fst p) (snd p)) line)) (map Fx zgrid, map Fy zgrid, map Fz zgrid) component []) as [fi [E1 [E2 [E3 E4]]]]; auto.
    + constructor.
    + exists fi. split; auto. split; auto. split; [intros c; rewrite E3; simpl; tauto|].
      intros c a Hc. rewrite Forall_forall in E4. apply (E4 (c, a)) in Hc. destruct Hc as [f [Hc Ha]]. simpl in Ha, Hc. subst a.
      destruct Hc as [[-> ->]|[[-> ->]|[-> ->]]]; [exists Fx|exists Fy|exists Fz]; (split; [auto|]); cbn [fst snd]; rewrite map_map; reflexivity.
  - intros [c [H1 H2]]. eapply loop_bad; eauto.
Qed.

Lemma fields_ex : exists P g, z_to_lind P (1/4) = 1%nat /\
  get_guided 1 (gk_len (gk_data [(2, 0)] (0, 1) 0)) [1; 2] ex_te ex_tm [1; 12; 1] 0 = Ok g /\ md_ind g = [0%nat] /\
  1/4 <> ly_zmax (pc_clad_l P) /\ Forall (fun ly => 1/4 <> ly_zmax ly) (pc_layers P).
Proof.
  destruct (lattice_init (LatName "square")) as [L|e] eqn:EL; [|discriminate].
  exists (fst (add_layer (phc_init L 1 1) (1/2) 12 "shapes")).
  cbn [add_layer lower lower_ascii String.eqb]. cbn. eexists. split; [|split; [reflexivity|split; [|split]]].
  - unfold z_to_lind. cbn [pc_layers pc_clad_l z_loop ly_zmax]. simpl.
    replace (Rltb 0 (1/4)) with true by (symmetry; apply Rltb_true; lra).
    replace (Rltb (stack_top [] + 1/2) (1/4)) with false by (symmetry; apply Rltb_false; cbn; lra). cbn.
    replace (Rltb (0 + 1/2) (1/4)) with false by (symmetry; apply Rltb_false; lra). reflexivity.
  - cbn [md_ind]. unfold argwhere_gt. cbn [seq filter gk_len gk_data nth fst snd].
    replace (Rltb _ _) with true; auto. symmetry. apply Rltb_true.
    replace ((2 + 0 + 0) * (2 + 0 + 0) + (0 + 1) * (0 + 1)) with 5 by ring.
    assert (2 < sqrt 5); [|match goal with |- _ < ?x => replace x with (sqrt 5) by (f_equal; ring) end; assert (0 < / 10 ^ 10) by (apply Rinv_0_lt_compat; lra); lra].
    replace 2 with (sqrt (2 * 2)) by (apply sqrt_square; lra). apply sqrt_lt_1; lra.
  - simpl. lra.
  - repeat constructor. cbn. lra.
Qed.
Lemma hex_ex : exists L, lattice_init (LatName "hexagonal") = Ok L /\ independent (lt_a1 L) (lt_a2 L) /\
  conj_symmetric (fun g => (1, fst g)).
Proof.
  destruct (lattice_init (LatName "hexagonal")) as [L|e] eqn:EL; [|discriminate].
  exists L. split; auto. split.
  - eapply named_independent; eauto.
  - intros g. unfold opp. simpl. cring.
Qed.
Lemma bad_field : exists field, forall P eps d ng einv ms evec omega z gvec mesh component,
  get_field_xy (fun f => ft_field_xy P eps d ng einv ms evec omega f z) gvec mesh field component = Raise TypeError.
Proof. exists "B"%string. reflexivity. Qed.
