(** The permittivity matrix, whole runs, the unused effective permittivity
    (C49, C50, C85). *)
From Coq Require Import Permutation List.
From Verif Require Import Py CBase LatticeModel LatticeSpec PhcModel PhcSpec PhcProofs3 RecipModel RecipSpec RecipProofs RecipProofs3 MatElModel FieldsSpec FieldsModel FieldsProofs2 RunModel RunSpec RunProofs PweSpec PweModel PweProofs PweProofs2.
Open Scope R_scope.
Open Scope list_scope.

(** ** the matrix *)
Section TBT.
Context (b1 b2 : R * R) (n1 n2 : nat) (ft : R * R -> C) (rc : recip).
Notation m1 := (2 * n1 + 1)%nat.
Notation m2 := (2 * n2 + 1)%nat.
Hypothesis Hg : rc_g rc = map (cmb b1 b2) (block n1 n2).
Hypothesis H1 : rc_n1 rc = Z.of_nat m1.
Hypothesis H2 : rc_n2 rc = Z.of_nat m2.
Notation T1 := (map ft (G1_of (rc_g rc))).
Notation T2 := (map ft (G2_of (rc_g rc) m1 m2)).
Lemma raw_entry a p b q : (a <= b)%nat -> (b < m1)%nat -> (p < m2)%nat -> (q < m2)%nat ->
  tmat m1 T1 T2 (a * m2 + p)%nat (b * m2 + q)%nat = ft (diff (nthg (rc_g rc) (a * m2 + p)) (nthg (rc_g rc) (b * m2 + q))).
Proof.
  intros Hab Hb Hp Hq. rewrite (g_diff b1 b2 n1 n2 rc Hg) by lia. unfold tmat. rewrite map_length.
  rewrite (G1_len b1 b2 n1 n2 rc Hg).
  replace (m1 * m2 / m1)%nat with m2 by (rewrite (Nat.mul_comm m1 m2), Nat.div_mul by lia; auto).
  rewrite !Nat.div_add_l, !(Nat.div_small _ m2), !Nat.add_0_r by lia.
  rewrite (Nat.add_comm (a * m2)), (Nat.add_comm (b * m2)), !Nat.mod_add, !(Nat.mod_small _ m2) by lia.
  rewrite (proj2 (Nat.leb_le a b) Hab), (proj2 (Nat.ltb_lt b m1) Hb). cbn [andb].
  unfold toeplitz.
  assert (SZ : forall c, ((c + 1) * m2 - c * m2 = m2)%nat) by (intros; rewrite Nat.mul_add_distr_r; lia).
  assert (LT : forall a p, (a < m1)%nat -> (p < m2)%nat -> (a * m2 + p < m1 * m2)%nat) by (intros; apply lt_prod; auto).
  destruct (Nat.leb_spec q p) as [L|L].
  - rewrite nth_slice by (rewrite SZ; lia).
    rewrite (nth_map_lt _ _ _ (0, 0)) by (unfold G2_of; rewrite len_flat_map_seq; apply LT; lia).
    rewrite (G2_nth b1 b2 n1 n2 rc Hg) by lia. do 2 f_equal. f_equal; lia.
  - rewrite nth_slice by (rewrite SZ; lia).
    rewrite (nth_map_lt _ _ _ (0, 0)) by (rewrite (G1_len b1 b2 n1 n2 rc Hg); apply LT; lia).
    rewrite (G1_nth b1 b2 n1 n2 rc Hg) by lia. do 2 f_equal. f_equal; lia.
Qed.
Lemma raw_upper i j : (i <= j)%nat -> (j < m1 * m2)%nat -> tmat m1 T1 T2 i j = ft (diff (nthg (rc_g rc) i) (nthg (rc_g rc) j)).
Proof.
  intros Hij Hj. destruct (split_index n1 n2 i) as (a & p & -> & Ha & Hp); [lia|]. destruct (split_index n1 n2 j Hj) as (b & q & -> & Hb & Hq).
  apply raw_entry; auto.
  destruct (Nat.le_gt_cases a b); auto. exfalso. assert ((b + 1) * m2 <= a * m2)%nat by (apply Nat.mul_le_mono_r; lia). lia.
Qed.
Hypothesis Hc : conj_symmetric ft.
Lemma raw_matrix i j : (i < m1 * m2)%nat -> (j < m1 * m2)%nat ->
  toeplitz_block m1 T1 T2 i j = ft (diff (nthg (rc_g rc) i) (nthg (rc_g rc) j)).
Proof.
  intros Hi Hj. unfold toeplitz_block. cbv zeta.
  assert (Z0 : Cconj (RtoC 0) = RtoC 0) by apply Cconj_R.
  destruct (Nat.lt_trichotomy i j) as [L|[L|L]].
  - rewrite (proj2 (Nat.leb_le i j)), (proj2 (Nat.ltb_ge j i)) by lia. rewrite raw_upper by lia.
    rewrite Z0. apply Cplus_0_r.
  - subst j. rewrite Nat.leb_refl, Nat.ltb_irrefl. rewrite raw_upper by lia. rewrite Z0. apply Cplus_0_r.
  - rewrite (proj2 (Nat.leb_gt i j)), (proj2 (Nat.ltb_lt j i)) by lia. rewrite raw_upper by lia.
    rewrite <- Hc, opp_diff. apply Cplus_0_l.
Qed.
End TBT.

Definition lft (L : lattice) (ly : layer) : R * R -> C := layer_ft_at (lt_ec_area L) ly.

Lemma pwe_matrix args L ly gmax e : lattice_init args = Ok L -> independent (lt_a1 L) (lt_a2 L) -> 0 <= gmax -> conj_symmetric (lft L ly) ->
  let s := pwe_init L ly gmax e in let gs := rc_g (pw_rc s) in let n := List.length gs in
  (forall i j, (i < n)%nat -> (j < n)%nat -> pwe_eps_mat s i j = lft L ly (diff (gat gs i) (gat gs j))) /\
  herm_on n (pwe_eps_mat s).
Proof.
  intros HL Ha Hg Hc. cbv zeta. pose proof (indep_recip _ _ HL Ha) as Hb.
  destruct (recip_tbt_form L gmax Hg Hb) as (n1 & n2 & _ & _ & G & E1 & E2 & _).
  unfold pwe_init, pwe_eps_mat. cbn [pw_rc pw_T1 pw_T2]. unfold pwe_T1, pwe_T2. fold (lft L ly).
  pose proof (g_len _ _ _ _ _ G) as GL. rewrite GL.
  assert (E : forall i j, (i < (2 * n1 + 1) * (2 * n2 + 1))%nat -> (j < (2 * n1 + 1) * (2 * n2 + 1))%nat ->
    toeplitz_block (Z.to_nat (rc_n1 (recip_tbt L gmax))) (map (lft L ly) (G1_of (rc_g (recip_tbt L gmax))))
      (map (lft L ly) (G2_of (rc_g (recip_tbt L gmax)) (Z.to_nat (rc_n1 (recip_tbt L gmax))) (Z.to_nat (rc_n2 (recip_tbt L gmax))))) i j =
    lft L ly (diff (gat (rc_g (recip_tbt L gmax)) i) (gat (rc_g (recip_tbt L gmax)) j))).
  { intros i j Hi Hj. rewrite E1, E2, !Nat2Z.id. apply (raw_matrix _ _ n1 n2 (lft L ly) _ G E1 E2 Hc); auto. }
  split; [exact E|]. intros i j Hi Hj. rewrite !E by auto. rewrite <- Hc, opp_diff. auto.
Qed.

(** ** runs *)
Section Run.
Variable argsort : list R -> list nat.
Variable eigh : nat -> cmat -> list R * cmat.
Variable inv : nat -> cmat -> cmat.

Lemma loop_ok s pol m B (Q : R * R -> list R -> list (nat * cvec) -> Prop) ks :
  (forall k, exists f v, pwe_one argsort eigh s pol m B k = Ok (f, v) /\ Q k f v) ->
  forall fs vs, exists fs' vs', pwe_loop argsort eigh s pol m B ks fs vs = (vs ++ vs', Ok (fs ++ fs')) /\
    List.length fs' = List.length ks /\ List.length vs' = List.length ks /\
    forall i k, nth_error ks i = Some k -> Q k (nth i fs' []) (nth i vs' []).
Proof.
  intros H. induction ks as [|k ks IH]; intros fs vs; cbn [pwe_loop].
  - exists [], []. rewrite !app_nil_r. split; auto. split; auto. split; auto. intros [|i] k; discriminate.
  - destruct (H k) as (f & v & -> & HQ). destruct (IH (fs ++ [f]) (vs ++ [v])) as (fs' & vs' & -> & L1 & L2 & N).
    exists (f :: fs'), (v :: vs'). rewrite <- !app_assoc. split; [reflexivity|]. split; [simpl; auto|]. split; [simpl; auto|].
    intros [|i] k0 E; [injection E as <-; exact HQ|]. apply N. exact E.
Qed.

Hypothesis Hs : sorts argsort.
Hypothesis He : diagonalises eigh.

Lemma te_is s k B : mat_te s k B = te_form (rc_g (pw_rc s)) k B.
Proof. reflexivity. Qed.
Lemma tm_is s k B : mat_tm s k B = tm_form (rc_g (pw_rc s)) k B.
Proof. reflexivity. Qed.

Lemma one_lowest s pol m B k : herm_on (List.length (rc_g (pw_rc s))) B -> psd (List.length (rc_g (pw_rc s))) B -> pol = "te"%string \/ pol = "tm"%string ->
  exists f v, pwe_one argsort eigh s pol m B k = Ok (f, v) /\ lowest (List.length (rc_g (pw_rc s))) m (form_of pol (rc_g (pw_rc s)) k B) f v.
Proof.
  intros Hh Hp [->| ->]; unfold pwe_one, form_of; cbn [String.eqb Ascii.eqb Bool.eqb].
  - rewrite <- te_is. apply solve_lowest; auto; [apply te_herm|apply te_psd]; auto.
  - rewrite <- tm_is. apply solve_lowest; auto; [apply tm_herm|apply tm_psd]; auto.
Qed.

(** what a run leaves behind when the inverse is Hermitian and positive *)
Lemma run_ok s ks pol m : ks <> [] -> lower pol = "te"%string \/ lower pol = "tm"%string ->
  let s0 := Pwe (pw_lat s) (pw_layer s) (pw_epseff s) (pw_rc s) (pwe_T1 (pw_lat s) (pw_layer s) (pw_rc s)) (pwe_T2 (pw_lat s) (pw_layer s) (pw_rc s)) None None None None None None in
  let gs := rc_g (pw_rc s) in let n := List.length gs in
  let B := inv n (pwe_eps_mat s0) in
  herm_on n B -> psd n B ->
  exists s' fs vs, pwe_run argsort eigh inv s ks pol m = (s', Ok tt) /\
    pw_freqs s' = Some fs /\ pw_vecs s' = Some vs /\ pw_einv s' = Some B /\ pw_rc s' = pw_rc s /\ pw_pol s' = Some (lower pol) /\ pw_k s' = Some ks /\
    List.length fs = List.length ks /\ List.length vs = List.length ks /\
    forall i k, nth_error ks i = Some k -> lowest n m (form_of (lower pol) gs k B) (nth i fs []) (nth i vs []).
Proof.
  intros Hk Hpol s0 gs n B Hh Hp. unfold pwe_run. cbv zeta.
  set (s1 := Pwe _ _ _ _ _ _ _ _ _ _ _ _).
  change (inv (List.length (rc_g (pw_rc s1))) (pwe_eps_mat s1)) with B.
  destruct (loop_ok s1 (lower pol) m B (fun k f v => lowest n m (form_of (lower pol) gs k B) f v) ks) with (fs := @nil (list R)) (vs := @nil (list (nat * cvec)))
    as (fs & vs & E & L1 & L2 & N).
  - intros k. apply (one_lowest s1 (lower pol) m B k Hh Hp Hpol).
  - rewrite E. cbn [app]. destruct ks as [|k0 ks]; [congruence|]. eexists. exists fs, vs. split; [reflexivity|]. cbn [pw_freqs pw_vecs pw_einv pw_rc pw_pol pw_k]. tauto.
Qed.
End Run.

(** the whole computation, from the layer to the bands *)
Lemma bands argsort eigh inv : sorts argsort -> diagonalises eigh -> inverts inv ->
  forall args L ly gmax e ks pol m, lattice_init args = Ok L -> independent (lt_a1 L) (lt_a2 L) -> 0 <= gmax -> conj_symmetric (lft L ly) ->
  ks <> [] -> lower pol = "te"%string \/ lower pol = "tm"%string ->
  let gs := rc_g (recip_tbt L gmax) in let n := List.length gs in
  (exists B, is_inverse n (ft_matrix (lft L ly) gs) B) -> psd n (ft_matrix (lft L ly) gs) ->
  exists s' fs vs B, pwe_run argsort eigh inv (pwe_init L ly gmax e) ks pol m = (s', Ok tt) /\
    is_inverse n (ft_matrix (lft L ly) gs) B /\
    pw_freqs s' = Some fs /\ pw_vecs s' = Some vs /\ List.length fs = List.length ks /\ List.length vs = List.length ks /\
    (forall i k, nth_error ks i = Some k -> lowest n m (form_of (lower pol) gs k B) (nth i fs []) (nth i vs [])) /\
    pw_rc s' = recip_tbt L gmax /\ pw_einv s' = Some B /\ pw_pol s' = Some (lower pol) /\ pw_k s' = Some ks.
Proof.
  intros Hs He Hi args L ly gmax e ks pol m HL Hind Hg Hc Hk Hpol gs n [B0 HB0] HP.
  destruct (pwe_matrix args L ly gmax e HL Hind Hg Hc) as [M1 M2]. cbv zeta in M1, M2. cbn [pw_rc pwe_init] in M1, M2. fold gs in M1, M2. fold n in M1, M2.
  set (s := pwe_init L ly gmax e) in *.
  assert (Tr : forall X, is_inverse n (ft_matrix (lft L ly) gs) X <-> is_inverse n (pwe_eps_mat s) X).
  { intros X. unfold is_inverse, meq. split; intros [A1 A2]; split; intros i j Hi' Hj.
    - transitivity (mmul n (ft_matrix (lft L ly) gs) X i j); [apply mmul_ext; auto; intros; apply M1; auto|apply A1; auto].
    - transitivity (mmul n X (ft_matrix (lft L ly) gs) i j); [apply mmul_ext; auto; intros; apply M1; auto|apply A2; auto].
    - transitivity (mmul n (pwe_eps_mat s) X i j); [apply mmul_ext; auto; intros; symmetry; apply M1; auto|apply A1; auto].
    - transitivity (mmul n X (pwe_eps_mat s) i j); [apply mmul_ext; auto; intros; symmetry; apply M1; auto|apply A2; auto]. }
  pose proof (Hi n (pwe_eps_mat s) (ex_intro _ B0 (proj1 (Tr B0) HB0))) as HB.
  assert (HP' : psd n (pwe_eps_mat s)).
  { intros v. specialize (HP v).
    replace (cdot n v (mvec n (pwe_eps_mat s) v)) with (cdot n v (mvec n (ft_matrix (lft L ly) gs) v)); [exact HP|].
    unfold cdot. apply csum_ext. intros i Hi'. f_equal. unfold mvec. apply csum_ext. intros j Hj. rewrite M1 by auto. reflexivity. }
  destruct (run_ok argsort eigh inv Hs He s ks pol m Hk Hpol) as (s' & fs & vs & E & F1 & F2 & F3 & F4 & F5 & F6 & L1 & L2 & N).
  - apply (inverse_herm n _ _ HB M2).
  - apply (inverse_psd n _ _ HB M2 HP').
  - exists s', fs, vs. eexists. split; [exact E|]. split; [apply Tr, HB|]. split; [exact F1|]. split; [exact F2|]. split; [exact L1|]. split; [exact L2|]. split; [exact N|]. split; [exact F4|]. split; [exact F3|]. split; [exact F5|exact F6].
Qed.

(** ** uniform layers *)
Lemma uniform_conj L eps z1 z2 : conj_symmetric (lft L (shapes_layer z1 z2 eps)).
Proof.
  intros g. unfold lft, layer_ft_at, opp, near_zero. cbn [fst snd shapes_layer ly_shapes ly_epsavg fold_left]. rewrite !Rabs_Ropp.
  rewrite Cconj_plus, Cconj_R. f_equal. unfold Cdiv. rewrite !Cmult_0_l. symmetry. apply Cconj_R.
Qed.
Lemma uniform_matrix L eps z1 z2 gs : NoDup gs -> (forall g g', In g gs -> In g' gs -> is_g0 (diff g g') -> g = g') ->
  forall i j, (i < List.length gs)%nat -> (j < List.length gs)%nat ->
  ft_matrix (lft L (shapes_layer z1 z2 eps)) gs i j = if Nat.eqb i j then RtoC eps else RtoC 0.
Proof.
  intros ND H i j Hi Hj. unfold ft_matrix, lft, gat. destruct (Nat.eqb_spec i j) as [->|Hne].
  - rewrite layer_ft_zero; [reflexivity|]. unfold is_g0, diff. cbn [fst snd]. rewrite !Rminus_diag_eq, !Rabs_R0 by auto. 
    rewrite Rplus_0_r. apply Rinv_0_lt_compat. apply pow_lt. lra.
  - rewrite layer_ft_nonzero.
    + simpl. unfold Cdiv. ring.
    + intros Z. apply Hne. apply (proj1 (NoDup_nth gs (0, 0)) ND); auto. apply H; auto; apply nth_In; auto.
Qed.
Lemma delta_inverse n c A : c <> 0 -> (forall i j, (i < n)%nat -> (j < n)%nat -> A i j = if Nat.eqb i j then RtoC c else RtoC 0) ->
  is_inverse n A (fun i j => if Nat.eqb i j then RtoC (/ c) else RtoC 0).
Proof.
  intros Hc HA. assert (E : (RtoC c * RtoC (/ c))%C = RtoC 1) by (rewrite <- RtoC_mult; f_equal; field; auto).
  split; intros i j Hi Hj; unfold mmul, mid.
  - rewrite (csum_single n j); auto.
    + rewrite Nat.eqb_refl, HA by auto. destruct (Nat.eqb i j); [exact E|ring].
    + intros k Hk Hne. destruct (Nat.eqb_spec k j); [congruence|ring].
  - rewrite (csum_single n i); auto.
    + rewrite Nat.eqb_refl, HA by auto. destruct (Nat.eqb i j); [rewrite Cmult_comm; exact E|ring].
    + intros k Hk Hne. destruct (Nat.eqb_spec i k); [congruence|ring].
Qed.
Lemma inverse_unique n A B B' : is_inverse n A B -> is_inverse n A B' -> forall i j, (i < n)%nat -> (j < n)%nat -> B i j = B' i j.
Proof.
  intros [_ H2] [H1' _] i j Hi Hj. rewrite <- (mmul_id_r n B) by auto.
  rewrite (mmul_ext n B B mid (mmul n A B')) by (auto; intros; symmetry; apply H1'; auto).
  rewrite <- mmul_assoc. rewrite (mmul_ext n (mmul n B A) mid B' B') by auto. apply mmul_id_l. auto.
Qed.

Lemma uniform_bands argsort eigh inv : sorts argsort -> diagonalises eigh -> inverts inv ->
  forall args L eps z1 z2 gmax e ks pol m, lattice_init args = Ok L -> independent (lt_a1 L) (lt_a2 L) -> 0 <= gmax -> 0 < eps ->
  ks <> [] -> lower pol = "te"%string \/ lower pol = "tm"%string ->
  let gs := rc_g (recip_tbt L gmax) in
  (forall g g', In g gs -> In g' gs -> is_g0 (diff g g') -> g = g') ->
  exists s' fs vs, pwe_run argsort eigh inv (pwe_init L (shapes_layer z1 z2 eps) gmax e) ks pol m = (s', Ok tt) /\
    pw_freqs s' = Some fs /\ pw_vecs s' = Some vs /\ List.length fs = List.length ks /\ List.length vs = List.length ks /\
    forall i k, nth_error ks i = Some k -> smallest m (map (fun g => len (shifted k g) / (2 * PI * sqrt eps)) gs) (nth i fs []).
Proof.
  intros Hs He Hi args L eps z1 z2 gmax e ks pol m HL Hind Hg Heps Hk Hpol gs Hsep.
  assert (ND : NoDup gs).
  { destruct (tbt_set args L gmax HL Hind Hg) as (n1 & n2 & _ & _ & _ & _ & _ & ND & _). exact ND. }
  set (n := List.length gs).
  pose proof (uniform_matrix L eps z1 z2 gs ND Hsep) as UM. fold n in UM.
  pose proof (delta_inverse n eps _ ltac:(lra) UM) as DI.
  destruct (bands argsort eigh inv Hs He Hi args L (shapes_layer z1 z2 eps) gmax e ks pol m HL Hind Hg (uniform_conj L eps z1 z2) Hk Hpol) as (s' & fs & vs & B & E & HB & F1 & F2 & L1 & L2 & N & _).
  - eexists. exact DI.
  - fold gs n. intros v.
    assert (Q : cdot n v (mvec n (ft_matrix (lft L (shapes_layer z1 z2 eps)) gs) v) = Cmult (RtoC eps) (cdot n v v)).
    { unfold cdot. rewrite <- csum_scal_l. apply csum_ext. intros i Hi'. unfold mvec. rewrite (csum_single n i); auto.
      - rewrite UM, Nat.eqb_refl by auto. ring.
      - intros j Hj Hne. rewrite UM by auto. destruct (Nat.eqb_spec i j); [congruence|ring]. }
    rewrite Q. assert (0 <= fst (cdot n v v)).
    { unfold cdot. apply fst_csum_nonneg. intros i _. rewrite Cmult_comm, Cconj_mod. simpl. nra. }
    rewrite (surjective_pairing (cdot n v v)). simpl. nra.
  - fold gs n in HB, N. exists s', fs, vs. split; [exact E|]. split; [exact F1|]. split; [exact F2|]. split; [exact L1|]. split; [exact L2|].
    intros i k Hik. specialize (N i k Hik).
    pose proof (inverse_unique n _ _ _ HB DI) as HBD.
    set (ds := map (fun g => inner (shifted k g) (shifted k g) / eps) gs).
    assert (Ld : List.length ds = n) by apply map_length.
    assert (Nn : forall g, 0 <= inner (shifted k g) (shifted k g)) by (intros; unfold inner; nra).
    assert (D : forall a b, (a < List.length ds)%nat -> (b < List.length ds)%nat -> form_of (lower pol) gs k B a b = if Nat.eqb a b then RtoC (nth a ds 0) else RtoC 0).
    { intros a b Ha Hb. rewrite Ld in Ha, Hb. 
      assert (Dn : nth a ds 0 = inner (shifted k (gat gs a)) (shifted k (gat gs a)) / eps).
      { unfold ds. rewrite (nth_map_lt _ _ _ (0, 0)) by auto. reflexivity. }
      pose proof (HBD a b Ha Hb) as X. cbv beta in X. rewrite Dn.
      unfold form_of. destruct (String.eqb (lower pol) "te"); unfold te_form, tm_form; rewrite X; destruct (Nat.eqb_spec a b) as [<-|]; try ring.
      - rewrite <- RtoC_mult. reflexivity.
      - rewrite <- RtoC_mult. unfold len. rewrite sqrt_sqrt by apply Nn. reflexivity. }
    rewrite <- Ld in N. pose proof (lowest_diag m ds _ _ _ D N) as Sm. unfold ds in Sm. rewrite map_map in Sm.
    assert (X : map (fun g => len (shifted k g) / (2 * PI * sqrt eps)) gs = map (fun x => sqrt (inner (shifted k x) (shifted k x) / eps) / (2 * PI)) gs).
    { apply map_ext. intros g. unfold len. rewrite sqrt_div by auto. field. split; [|apply PI_neq0].
      apply Rgt_not_eq, sqrt_lt_R0. auto. }
    rewrite X. exact Sm.
Qed.

(** ** eps_eff is stored and never read *)
Lemma eps_eff_unused argsort eigh inv L ly gmax e e' ks pol m :
  let r := pwe_run argsort eigh inv (pwe_init L ly gmax e) ks pol m in
  let r' := pwe_run argsort eigh inv (pwe_init L ly gmax e') ks pol m in
  snd r = snd r' /\ pw_freqs (fst r) = pw_freqs (fst r') /\ pw_vecs (fst r) = pw_vecs (fst r') /\ pw_einv (fst r) = pw_einv (fst r') /\
  (forall x y, pwe_get_eps (fst r) x y = pwe_get_eps (fst r') x y) /\
  (forall dl field kind mind, pwe_ft_field dl (fst r) field kind mind = pwe_ft_field dl (fst r') field kind mind).
Proof.
  cbv zeta. unfold pwe_run, pwe_init. cbn [pw_lat pw_layer pw_rc pw_einv pw_freqs pw_vecs pw_epseff]. cbv zeta.
  set (ea := match e with None => _ | Some x => _ end). set (eb := match e' with None => _ | Some x => _ end).
  set (rc := recip_tbt L gmax). set (T1 := pwe_T1 L ly rc). set (T2 := pwe_T2 L ly rc).
  set (sa := Pwe L ly ea rc T1 T2 None (Some (lower pol)) (Some m) (Some ks) None None).
  set (sb := Pwe L ly eb rc T1 T2 None (Some (lower pol)) (Some m) (Some ks) None None).
  change (pwe_eps_mat sb) with (pwe_eps_mat sa).
  set (B := inv _ _).
  assert (LE : forall ks fs vs, pwe_loop argsort eigh sb (lower pol) m B ks fs vs = pwe_loop argsort eigh sa (lower pol) m B ks fs vs).
  { induction ks0 as [|k t IH]; intros fs vs; cbn [pwe_loop]; [reflexivity|].
    change (pwe_one argsort eigh sb (lower pol) m B k) with (pwe_one argsort eigh sa (lower pol) m B k).
    destruct (pwe_one argsort eigh sa (lower pol) m B k) as [[f v]|]; auto. }
  change (List.length (rc_g (pw_rc sb))) with (List.length (rc_g (pw_rc sa))). fold B.
  rewrite LE. destruct (pwe_loop argsort eigh sa (lower pol) m B ks [] []) as [vs [fs|ex]]; cbn [fst snd pw_freqs pw_vecs pw_einv];
    (split; [reflexivity|]; split; [reflexivity|]; split; [reflexivity|]; split; [reflexivity|]; split; intros; reflexivity).
Qed.
