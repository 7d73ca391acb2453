(** Plotting the potential, solver independence, examples (C54, C88, C89). *)
From Coq Require Import Permutation List.
From Verif Require Import Py CBase LatticeModel LatticeSpec LatticeProofs PhcModel PhcSpec PhcProofs3 ShapesModel ShapesSpec ShapesProofs2 ShapesProofs3 RecipModel RecipSpec RecipProofs RecipProofs2 RecipProofs3 RecipProofs4 RecipProofs5 MatElModel FieldsSpec FieldsModel FieldsProofs2 RunModel RunSpec RunProofs PweSpec PweModel PweProofs PweProofs2 PweProofs7 ExcSpec ExcModel ExcProofs ExcProofs2.
Open Scope R_scope.
Open Scope list_scope.

(** ** get_pot_xy *)
Lemma grid_ok L Nx Ny : exists xg yg, xy_grid L Nx Ny PerNone = Ok (xg, yg).
Proof. unfold xy_grid. destruct (lt_type L); cbn [bind]; eauto. Qed.
Lemma init_fields fuel P z V a M E0 loss osc gmax s : exc_init fuel P z V a M E0 loss osc gmax "tbt" = Some (Ok s) -> ex_abs s = false /\ ex_rc s = recip_tbt (pc_lattice P) gmax.
Proof.
  unfold exc_init. cbv zeta. destruct (_ || _)%bool; [discriminate|].
  destruct (nth_error _ _) as [ly|]; [|discriminate]. destruct (check_osc osc) as [os|]; [|discriminate]. cbn [String.eqb Ascii.eqb Bool.eqb].
  destruct (pot_tbt _ _ _ _) as [[t1 t2]|]; [|discriminate]. cbn [bind]. intros H. injection H as <-. auto.
Qed.
Lemma pot_tbt_fails fuel P z V a M E0 loss osc gmax s args Nx Ny : exc_init fuel P z V a M E0 loss osc gmax "tbt" = Some (Ok s) ->
  lattice_init args = Ok (pc_lattice P) -> independent (lt_a1 (pc_lattice P)) (lt_a2 (pc_lattice P)) -> 0 <= gmax ->
  get_pot_xy s Nx Ny = Raise IndexError.
Proof.
  intros HI HL Hind Hg. destruct (init_fields _ _ _ _ _ _ _ _ _ _ _ HI) as [EA ER]. unfold get_pot_xy.
  destruct (grid_ok (ex_lat s) Nx Ny) as (xg & yg & ->). cbn [bind]. rewrite EA, ER. cbv zeta.
  destruct (recip_tbt_form (pc_lattice P) gmax Hg (indep_recip _ _ HL Hind)) as (n1 & n2 & _ & _ & G & _).
  pose proof (g_len _ _ _ _ _ G) as GL. destruct (rc_g (recip_tbt (pc_lattice P) gmax)) as [|g gs]; [simpl in GL; nia|]. reflexivity.
Qed.
Lemma pot_abs_series fuel P z V a M E0 loss osc gmax s args pot Nx Ny : exc_init fuel P z V a M E0 loss osc gmax "abs" = Some (Ok s) ->
  lattice_init args = Ok (pc_lattice P) -> independent (lt_a1 (pc_lattice P)) (lt_a2 (pc_lattice P)) -> 0 <= gmax ->
  conj_symmetric pot -> transform_of (lt_ec_area (pc_lattice P)) (ex_layer s) V (rc_g (ex_rc s)) pot ->
  exists rows xg yg ds, get_pot_xy s Nx Ny = Ok (rows, xg, yg) /\ xy_grid (pc_lattice P) Nx Ny PerNone = Ok (xg, yg) /\
    NoDup ds /\ (forall D, In D ds <-> difference (rc_g (ex_rc s)) D) /\
    rows = map (fun y => map (fun x => series (map (fun D => (pot D, D)) ds) x y) xg) yg /\
    forall x y, snd (series (map (fun D => (pot D, D)) ds) x y) = 0.
Proof.
  intros HI HL Hind Hg Hc Ht. destruct (init_abs _ _ _ _ _ _ _ _ _ _ _ _ _ HI HL Hind Hg Ht) as (_ & EA & _ & ND & GI & ET).
  destruct (transform_exists _ _ _ _ _ _ _ _ _ _ _ _ HI) as (_ & EL & _).
  unfold get_pot_xy. destruct (grid_ok (ex_lat s) Nx Ny) as (xg & yg & EG). rewrite EG, EA. cbn [bind ftinv_mesh].
  assert (NI : forall D, In D (ex_G1u s) -> In (neg_g D) (ex_G1u s)).
  { intros D. rewrite !GI. intros (g & g' & H1 & H2 & ->). exists g', g. split; auto. split; auto. unfold neg_g, diff. simpl. f_equal; ring. }
  assert (SER : forall x y, ftinv (fun i => nth i (ex_T1u s) (RtoC 0)) (ex_G1u s) x y = series (map (fun D => (pot D, D)) (ex_G1u s)) x y).
  { intros x y. destruct (ftinv_series (fun i => nth i (ex_T1u s) (RtoC 0)) (ex_G1u s) x y) as [terms [E1 [E2 [E3 E4]]]]. rewrite E1.
    apply series_perm.
    assert (Tm : terms = map (fun D => (pot D, D)) (map snd terms)).
    { rewrite map_map. rewrite <- (map_id terms) at 1. apply map_ext_in. intros t Hin. rewrite Forall_forall in E4. destruct (E4 t Hin) as [i [Hi ->]].
      cbn [fst snd]. f_equal. rewrite ET. apply nth_map_lt. auto. }
    rewrite Tm. apply Permutation_map. apply NoDup_Permutation; auto. }
  eexists. exists xg, yg, (ex_G1u s). split; [reflexivity|]. split; [rewrite <- EL; exact EG|]. split; [exact ND|]. split; [exact GI|]. split.
  - apply map_ext. intros y. apply map_ext. intros x. apply SER.
  - intros x y. pose proof (series_real pot (map (fun D => (RtoC 0, D)) (ex_G1u s)) x y Hc) as X. unfold exact_terms in X. rewrite !map_map in X. cbn [snd] in X. rewrite map_id in X. auto.
Qed.

(** ** dependence on the solver; repeated runs *)
Lemma exc_solver_free argsort eigh argsort' eigh' : sorts argsort -> diagonalises eigh -> sorts argsort' -> diagonalises eigh' ->
  forall fuel P z V a M E0 loss osc gmax tr s args pot ks m, exc_init fuel P z V a M E0 loss osc gmax tr = Some (Ok s) ->
  tr = "tbt"%string \/ tr = "abs"%string -> lattice_init args = Ok (pc_lattice P) -> independent (lt_a1 (pc_lattice P)) (lt_a2 (pc_lattice P)) -> 0 <= gmax ->
  conj_symmetric pot -> transform_of (lt_ec_area (pc_lattice P)) (ex_layer s) V (rc_g (ex_rc s)) pot ->
  ex_eners (fst (exc_run argsort eigh s ks m)) = ex_eners (fst (exc_run argsort' eigh' s ks m)).
Proof.
  intros Hs He Hs' He' fuel P z V a M E0 loss osc gmax tr s args pot ks m HI Htr HL Hind Hg Hc Ht.
  destruct ks as [|k0 ks]; [reflexivity|]. assert (Hk : k0 :: ks <> []) by discriminate.
  destruct (exc_whole argsort eigh Hs He _ _ _ _ _ _ _ _ _ _ _ _ _ _ HI Htr HL Hind Hg Hc Ht _ m Hk) as (s1 & es & vs & E & F1 & _ & _ & L1 & _ & N).
  destruct (exc_whole argsort' eigh' Hs' He' _ _ _ _ _ _ _ _ _ _ _ _ _ _ HI Htr HL Hind Hg Hc Ht _ m Hk) as (s2 & es' & vs' & E' & F1' & _ & _ & L1' & _ & N').
  rewrite E, E'. cbn [fst]. rewrite F1, F1'. do 2 f_equal. apply (nth_ext _ _ [] []); [lia|]. intros i Hi.
  assert (Ki : exists k, nth_error (k0 :: ks) i = Some k) by (destruct (nth_error (k0 :: ks) i) eqn:Q; [eauto|apply nth_error_None in Q; lia]). destruct Ki as [k Hik].
  eapply levels_unique; [apply (N i k Hik)|apply (N' i k Hik)].
Qed.
Definition same_static (s1 s : exc) : Prop := ex_lat s1 = ex_lat s /\ ex_layer s1 = ex_layer s /\ ex_z s1 = ex_z s /\ ex_V s1 = ex_V s /\ ex_a s1 = ex_a s /\ ex_M s1 = ex_M s /\ ex_E0 s1 = ex_E0 s /\ ex_loss s1 = ex_loss s /\ ex_osc s1 = ex_osc s /\
    ex_abs s1 = ex_abs s /\ ex_rc s1 = ex_rc s /\ ex_T1 s1 = ex_T1 s /\ ex_T2 s1 = ex_T2 s /\ ex_T1u s1 = ex_T1u s /\ ex_G1u s1 = ex_G1u s.
Lemma run_static argsort eigh s ks m : same_static (fst (exc_run argsort eigh s ks m)) s.
Proof.
  unfold exc_run. cbv zeta. destruct (exc_loop argsort eigh s m (pot_matrix s) ks [] []) as [vs [fs|e]]; cbn; unfold same_static; cbn; tauto.
Qed.
Lemma static_run argsort eigh s1 s ks m : same_static s1 s ->
  snd (exc_run argsort eigh s1 ks m) = snd (exc_run argsort eigh s ks m) /\
  (snd (exc_run argsort eigh s ks m) = Ok tt -> fst (exc_run argsort eigh s1 ks m) = fst (exc_run argsort eigh s ks m)).
Proof.
  intros (A1 & A2 & A3 & A4 & A5 & A6 & A7 & A8 & A9 & A10 & A11 & A12 & A13 & A14 & A15).
  assert (PM : pot_matrix s1 = pot_matrix s) by (unfold pot_matrix; rewrite A10, A11, A12, A13; reflexivity).
  assert (LE : forall ks fs vs, exc_loop argsort eigh s1 m (pot_matrix s) ks fs vs = exc_loop argsort eigh s m (pot_matrix s) ks fs vs).
  { assert (O : forall k, exc_one argsort eigh s1 m (pot_matrix s) k = exc_one argsort eigh s m (pot_matrix s) k).
    { intros k. unfold exc_one, exc_mat, kinetic. rewrite A11, A5, A6. reflexivity. }
    induction ks0 as [|k t IH]; intros fs vs0; cbn [exc_loop]; [reflexivity|]. rewrite O. destruct (exc_one argsort eigh s m (pot_matrix s) k) as [[]|]; auto. }
  unfold exc_run. rewrite PM. cbv zeta. rewrite LE.
  destruct (exc_loop argsort eigh s m (pot_matrix s) ks [] []) as [vs' [fs|e]]; cbn [fst snd]; (split; [reflexivity|]).
  - intros _. rewrite A1, A2, A3, A4, A5, A6, A7, A8, A9, A10, A11, A12, A13, A14, A15. reflexivity.
  - discriminate.
Qed.
Lemma exc_rerun argsort eigh s ks m ks' m' : 
  let s1 := fst (exc_run argsort eigh s ks m) in
  snd (exc_run argsort eigh s1 ks' m') = snd (exc_run argsort eigh s ks' m') /\
  (snd (exc_run argsort eigh s ks' m') = Ok tt -> fst (exc_run argsort eigh s1 ks' m') = fst (exc_run argsort eigh s ks' m')).
Proof. apply static_run. apply run_static. Qed.

(** ** initialisation *)
Lemma init_ok fuel P z V a M E0 loss osc os gmax tr ly args : nth_error (pc_layers P) (z_to_lind P z - 1) = Some ly ->
  z_to_lind P z <> 0%nat -> z_to_lind P z <> (List.length (pc_layers P) + 1)%nat -> check_osc osc = Ok os ->
  lattice_init args = Ok (pc_lattice P) -> independent (lt_a1 (pc_lattice P)) (lt_a2 (pc_lattice P)) -> 0 <= gmax ->
  (forall gs, (forall g, In g gs -> in_lattice (lt_b1 (pc_lattice P)) (lt_b2 (pc_lattice P)) g) -> separated gs) ->
  (forall s, In s (ly_shapes ly) -> conj_symmetric (sh_ft s)) ->
  tr = "tbt"%string \/ (tr = "abs"%string /\ exists r, recip_abs fuel (pc_lattice P) gmax = Some r) ->
  exists s, exc_init fuel P z V a M E0 loss osc gmax tr = Some (Ok s) /\ ex_layer s = ly /\ separated (rc_g (ex_rc s)).
Proof.
  intros Hl Z1 Z2 Ho HL Hind Hg Hsep Hs Htr. unfold exc_init. cbv zeta.
  destruct (Nat.eqb_spec (z_to_lind P z) 0) as [|_]; [congruence|]. destruct (Nat.eqb_spec (z_to_lind P z) (List.length (pc_layers P) + 1)) as [|_]; [congruence|].
  cbn [orb]. rewrite Hl, Ho. set (L := pc_lattice P) in *.
  destruct Htr as [->|[-> [r HR]]]; cbn [String.eqb Ascii.eqb Bool.eqb].
  - destruct (tbt_set args L gmax HL Hind Hg) as (m1 & m2 & _ & _ & _ & _ & _ & _ & _ & Inn & _).
    assert (Sp : separated (rc_g (recip_tbt L gmax))).
    { apply Hsep. intros g Hgi. apply Inn in Hgi. destruct Hgi as (i & j & _ & _ & ->). exists i, j. auto. }
    destruct (has_transform (lt_ec_area L) ly V _ Sp Hs) as (pot & Ht & _).
    destruct (recip_tbt_form L gmax Hg (indep_recip _ _ HL Hind)) as (n1 & n2 & _ & _ & G & E1 & E2 & _).
    pose proof (g_len _ _ _ _ _ G) as GL. set (rc := recip_tbt L gmax) in *.
    assert (Pos : (0 < List.length (rc_g rc))%nat) by (rewrite GL; nia).
    unfold pot_tbt. rewrite (Ht (G1_of (rc_g rc))), (Ht (G2_of (rc_g rc) (Z.to_nat (rc_n1 rc)) (Z.to_nat (rc_n2 rc)))); cbn [bind].
    + eexists. split; [reflexivity|]. cbn [ex_layer ex_rc]. auto.
    + rewrite E1, E2, !Nat2Z.id. unfold G2_of. apply in_flat_map. exists 0%nat. split; [apply in_seq; lia|]. apply in_map_iff. exists 0%nat. split; [apply diff_same|apply in_seq; lia].
    + rewrite E1, E2, !Nat2Z.id. intros D HD. unfold G2_of in HD. apply in_flat_map in HD. destruct HD as (x & Hx & HD). apply in_map_iff in HD. destruct HD as (p & <- & Hp).
      apply in_seq in Hx, Hp. exists (nthg (rc_g rc) p), (nthg (rc_g rc) (x * (2 * n2 + 1))).
      split; [apply nth_In; rewrite GL; nia|]. split; [apply nth_In; rewrite GL; nia|]. reflexivity.
    + apply in_map_iff. exists (nthg (rc_g rc) 0). split; [apply diff_same|]. apply nth_In. auto.
    + intros D HD. apply in_map_iff in HD. destruct HD as (g & <- & HD). exists (nthg (rc_g rc) 0), g. split; [apply nth_In; auto|]. split; auto.
  - rewrite HR. destruct (abs_set args L gmax fuel _ HL Hind Hg HR) as (rc & k' & -> & _ & ND & In0 & Ing & _).
    assert (Sp : separated (rc_g rc)) by (apply Hsep; intros g Hgi; apply Ing; auto).
    destruct (has_transform (lt_ec_area L) ly V _ Sp Hs) as (pot & Ht & _).
    destruct (recip_abs_form L gmax Hg (indep_recip _ _ HL Hind)) as (n1 & n2 & k & _ & _ & _ & _ & _ & F & _).
    destruct (F _ _ HR) as (rc' & E & G & I & _). injection E as E. subst rc'.
    pose proof (gu_in L rc _ G I) as GI.
    cbn [bind]. unfold pot_abs. cbv zeta. rewrite Ht.
    + cbn [bind]. eexists. split; [reflexivity|]. cbn [ex_layer ex_rc]. auto.
    + apply GI. exists (0, 0), (0, 0). split; auto. split; auto. symmetry. apply diff_same.
    + intros D HD. apply GI. auto.
Qed.

(** ** an off-centre disc in a slab on the square lattice *)
Definition disc_phc (L : lattice) : phc :=
  run_ops (phc_init L 1 1) [OpLayer 1 12 "shapes"; OpShape (ShOne (circle_shape bessel_J1 1 (1/4) 0 (1/20))) 0 CladNone].
Definition disc_layer (L : lattice) : layer := append_shape (lt_ec_area L) (shapes_layer 0 (0 + 1) 12) (circle_shape bessel_J1 1 (1/4) 0 (1/20)).
Lemma disc_form L : pc_lattice (disc_phc L) = L /\ pc_layers (disc_phc L) = [disc_layer L] /\ z_to_lind (disc_phc L) (1/2) = 1%nat.
Proof.
  assert (E : disc_phc L = mkPhc L (shapes_layer (- 10 ^ 10) 0 1) (set_zmin (shapes_layer 0 (10 ^ 10) 1) (0 + 1)) [disc_layer L] []) by reflexivity.
  rewrite E. cbn [pc_lattice pc_layers]. split; auto. split; auto. unfold z_to_lind. cbn [pc_layers pc_clad_l].
  assert (T : ly_zmax (disc_layer L) = 0 + 1) by reflexivity. assert (T0 : ly_zmax (shapes_layer (- 10 ^ 10) 0 1) = 0) by reflexivity.
  rewrite T0. cbn [z_loop]. rewrite (proj2 (Rltb_true 0 (1/2))) by lra. rewrite T.
  rewrite (proj2 (Rltb_false (0 + 1) (1/2))) by lra. cbn [fst snd]. try rewrite (proj2 (Rltb_false (0 + 1) (1/2))) by lra. reflexivity.
Qed.
Lemma square_separated L gs : lattice_init (LatName "square") = Ok L -> (forall g, In g gs -> in_lattice (lt_b1 L) (lt_b2 L) g) -> separated gs.
Proof.
  intros HL Hin g g' H H' Zr. destruct (square_b L HL) as [B1 B2].
  destruct (Hin g H) as (i & j & ->), (Hin g' H') as (i' & j' & ->).
  unfold is_g0, diff, comb in Zr. rewrite B1, B2 in Zr. cbn [fst snd] in Zr. unfold comb. rewrite B1, B2. cbn [fst snd].
  assert (P : / 10 ^ 10 < 2 * PI).
  { pose proof PI2_1. assert (/ 10 ^ 10 < / 1) by (apply Rinv_lt_contravar; simpl; lra). lra. }
  assert (K : forall a b : Z, Rabs (IZR (a - b) * (2 * PI)) < / 10 ^ 10 -> a = b).
  { intros a b X. destruct (Z.eq_dec a b); auto. exfalso. rewrite Rabs_mult, (Rabs_pos_eq (2 * PI)) in X by (pose proof PI_RGT_0; lra).
    assert (1 <= Rabs (IZR (a - b))) by (rewrite <- abs_IZR; apply IZR_le; lia). pose proof PI_RGT_0. nra. }
  assert (i = i').
  { apply K. eapply Rle_lt_trans; [|exact Zr]. rewrite minus_IZR.
    replace (IZR i * (2 * PI) + IZR j * 0 - (IZR i' * (2 * PI) + IZR j' * 0)) with ((IZR i - IZR i') * (2 * PI)) by ring.
    match goal with |- ?a <= ?a + ?b => assert (0 <= b) by apply Rabs_pos; lra end. }
  assert (j = j').
  { apply K. eapply Rle_lt_trans; [|exact Zr]. rewrite minus_IZR.
    replace (IZR i * 0 + IZR j * (2 * PI) - (IZR i' * 0 + IZR j' * (2 * PI))) with ((IZR j - IZR j') * (2 * PI)) by ring.
    match goal with |- ?a <= ?b + ?a => assert (0 <= b) by apply Rabs_pos; lra end. }
  subst. reflexivity.
Qed.
Lemma disc_init L fuel V a M E0 loss osc os gmax tr : lattice_init (LatName "square") = Ok L -> 0 <= gmax -> check_osc osc = Ok os ->
  tr = "tbt"%string \/ (tr = "abs"%string /\ exists r, recip_abs fuel L gmax = Some r) ->
  exists s, exc_init fuel (disc_phc L) (1/2) V a M E0 loss osc gmax tr = Some (Ok s) /\ ex_layer s = disc_layer L /\ separated (rc_g (ex_rc s)).
Proof.
  intros HL Hg Ho Htr. destruct (disc_form L) as (F1 & F2 & F3). apply init_ok with (os := os) (args := LatName "square"); rewrite ?F1, ?F2, ?F3; auto; try discriminate.
  - apply (named_independent _ _ HL).
  - intros gs. apply square_separated. auto.
  - intros s [<-|[]]. intros g. apply circle_conj.
Qed.
(** the matrix of the disc is that of its mirror image when truncate_g = 'abs' *)
Lemma abs_mirrored : exists L fuel s pot i j, lattice_init (LatName "square") = Ok L /\
  exc_init fuel (disc_phc L) (1/2) 1 1 1 0 0 OscNone (3/2) "abs" = Some (Ok s) /\
  conj_symmetric pot /\ transform_of (lt_ec_area L) (ex_layer s) 1 (rc_g (ex_rc s)) pot /\
  let gs := rc_g (ex_rc s) in (i < List.length gs)%nat /\ (j < List.length gs)%nat /\
  pot_matrix s i j <> pot (diff (gat gs i) (gat gs j)).
Proof.
  destruct (lattice_init (LatName "square")) as [L|] eqn:HL; [|discriminate]. exists L.
  destruct (square_area L HL) as (EA & Ha & B1 & B2 & L1 & L2). pose proof PI_RGT_0 as HP. pose proof (indep_recip _ _ HL Ha) as Hb.
  destruct (recip_abs_form L (3/2)) as (n1 & n2 & k & I1 & I2 & Hk & _ & _ & F & T & _); auto; [lra|].
  rewrite L1 in I1. rewrite L2 in I2.
  apply (int_part_unique _ _ 3) in I1; [|replace (4 * PI * (3 / 2) / (2 * PI)) with 3 by (field; lra); simpl; lra].
  apply (int_part_unique _ _ 3) in I2; [|replace (4 * PI * (3 / 2) / (2 * PI)) with 3 by (field; lra); simpl; lra].
  subst n1 n2. destruct (T (S k)) as (r & HR); [lia|]. exists (S k).
  destruct (disc_init L (S k) 1 1 1 0 0 OscNone None (3/2) "abs") as (s & HI & Hly & Sp); [auto|lra|reflexivity|right; eauto|].
  exists s. destruct (disc_form L) as (F1 & F2 & F3).
  set (c := circle_shape bessel_J1 1 (1/4) 0 (1/20)).
  assert (Z0 : exists c0, 0 < c0 /\ sh_ft c (0, 0) = RtoC c0).
  { destruct (circle_small (0, 0)) as (c0 & Hc0 & E); [rewrite (len_val _ _ 0); lra|]. exists c0. split; auto. unfold c, circle_shape. cbn [sh_ft]. rewrite E. cbn [fst snd].
    replace (- 0 * (1 / 4) - 0 * 0) with 0 by ring. rewrite expi_0. ring. }
  destruct Z0 as (c0 & Hc0 & Z0).
  pose proof (one_transform (lt_ec_area L) (ex_layer s) c 1 (rc_g (ex_rc s))) as OT.
  set (pot := fun g => Cdiv (Cmult (RtoC 1) (sh_ft c g)) (RtoC (lt_ec_area L))) in *.
  assert (Ht : transform_of (lt_ec_area L) (ex_layer s) 1 (rc_g (ex_rc s)) pot).
  { apply OT; auto; [rewrite Hly; reflexivity|lra|rewrite EA; lra|rewrite Z0; simpl; lra|rewrite Z0; simpl; lra]. }
  assert (Hc : conj_symmetric pot).
  { intros g. unfold pot. rewrite Cconj_div, Cconj_mult, !Cconj_R. do 2 f_equal. apply circle_conj. }
  exists pot.
  assert (HL' : lattice_init (LatName "square") = Ok (pc_lattice (disc_phc L))) by (rewrite F1; auto).
  assert (Ha' : independent (lt_a1 (pc_lattice (disc_phc L))) (lt_a2 (pc_lattice (disc_phc L)))) by (rewrite F1; auto).
  assert (Ht' : transform_of (lt_ec_area (pc_lattice (disc_phc L))) (ex_layer s) 1 (rc_g (ex_rc s)) pot) by (rewrite F1; auto).
  destruct (init_abs _ _ _ _ _ _ _ _ _ _ _ _ _ HI HL' Ha' ltac:(lra) Ht') as (HR' & _ & MM & _). rewrite F1 in HR'.
  destruct (F _ _ HR') as (rc & E & G & I & _). injection E as E. subst rc.
  assert (GM : 3 / 2 <= 3 / 2 + INR k * dl) by (pose proof (pos_INR k); pose proof dl_pos; nra).
  assert (M : forall g i j, g = cmb (lt_b1 L) (lt_b2 L) (i, j) -> (Z.abs i <= 1)%Z -> (Z.abs j <= 1)%Z -> len g <= 2 * PI -> In g (rc_g (ex_rc s))).
  { intros g i j -> Hi Hj Hl. rewrite G. apply in_map. apply filter_In. split; [apply block_in; lia|]. unfold selq. apply Rleb_true. nra. }
  assert (X0 : In (0, 0) (rc_g (ex_rc s))) by (apply (M _ 0%Z 0%Z); auto; [rewrite cmb_0; auto|lia|lia|rewrite (len_val _ _ 0); lra]).
  assert (X1 : In (2 * PI, 0) (rc_g (ex_rc s))) by (apply (M _ 1%Z 0%Z); auto; [rewrite B1, B2; unfold cmb, comb; cbn [fst snd]; f_equal; ring|lia|lia|rewrite (len_val _ _ (2 * PI)); lra]).
  destruct (In_nth _ _ (0, 0) X0) as (i & Hi & Ei). destruct (In_nth _ _ (0, 0) X1) as (j & Hj & Ej).
  exists i, j. split; auto. split; auto. split; auto. split; auto. cbv zeta. split; auto. split; auto.
  rewrite MM by auto. unfold gat. rewrite Ei, Ej.
  assert (D1 : diff (2 * PI, 0) (0, 0) = (2 * PI, 0)) by (unfold diff; cbn [fst snd]; f_equal; ring).
  rewrite <- (opp_diff (2 * PI, 0) (0, 0)), D1, Hc.
  destruct (circle_small (2 * PI, 0)) as (c1 & Hc1 & E). { pose proof PI_4. rewrite (len_val _ _ (2 * PI)); lra. }
  assert (V : pot (2 * PI, 0) = (0, - c1)).
  { unfold pot, c, circle_shape. cbn [sh_ft]. rewrite E, EA. cbn [fst snd].
    replace (- (2 * PI) * (1 / 4) - 0 * 0) with (- (PI / 2)) by field.
    unfold expi. rewrite cos_neg, sin_neg, cos_PI2, sin_PI2. apply Ceq; cbn [fst snd Cmult Cdiv Cplus Cinv RtoC]; field. }
  rewrite V. unfold Cconj. cbn [fst snd]. intros Q. apply (f_equal snd) in Q. cbn [snd] in Q. lra.
Qed.
