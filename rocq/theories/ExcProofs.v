(** Exciton matrix and levels (C53). *)
From Coq Require Import Permutation List.
From Verif Require Import Py CBase LatticeModel LatticeSpec PhcModel PhcSpec PhcProofs3 PhcProofs4 RecipModel RecipSpec RecipProofs RecipProofs2 RecipProofs3 RecipProofs4 MatElModel RunModel RunSpec RunProofs PweSpec PweModel PweProofs PweProofs2 PweProofs3 ExcSpec ExcModel.
Open Scope R_scope.
Open Scope list_scope.

(** ** the transform of the potential, vector by vector *)
Fixpoint potf (area V : R) (ss : list shape) (h : R * R -> C) : R * R -> C :=
  match ss with
  | [] => h
  | s :: t =>
    let h1 g := Cdiv (Cplus (h g) (Cmult (RtoC V) (sh_ft s g))) (RtoC area) in
    potf area V t (fun g => if (near_zero g && c_lt0 (h1 (0, 0)))%bool then Cplus (h1 g) (RtoC (Rabs V)) else h1 g)
  end.
Lemma first_zero_at (h : R * R -> C) gs : In (0, 0) gs -> (forall g, In g gs -> near_zero g = true -> g = (0, 0)) ->
  first_zero gs (map h gs) = Some (h (0, 0)).
Proof.
  intros H0 Hz. destruct (first_zero_map h gs) as (g & Hi & Hg & E).
  - exists (0, 0). split; auto. unfold is_g0. simpl. rewrite Rabs_R0. pose proof (Rinv_0_lt_compat (10 ^ 10) ltac:(apply pow_lt; lra)). lra.
  - rewrite E. rewrite (Hz g Hi); auto. apply near_zero_iff; auto.
Qed.
Lemma exc_loop_potf area V gs : In (0, 0) gs -> (forall g, In g gs -> near_zero g = true -> g = (0, 0)) ->
  forall ss h, exc_ft_loop area V gs ss (map h gs) = Ok (map (potf area V ss h) gs).
Proof.
  intros H0 Hz. induction ss as [|s ss IH]; intros h; [reflexivity|].
  cbn [exc_ft_loop potf]. rewrite zip_with_map. cbv zeta.
  set (h1 := fun g => Cdiv (Cplus (h g) (Cmult (RtoC V) (sh_ft s g))) (RtoC area)).
  rewrite (first_zero_at h1 gs H0 Hz).
  change (c_lt0 (Cdiv (Cplus (h (0, 0)) (Cmult (RtoC V) (sh_ft s (0, 0)))) (RtoC area))) with (c_lt0 (h1 (0, 0))).
  rewrite <- IH. f_equal.
  destruct (c_lt0 (h1 (0, 0))).
  - rewrite zip_with_map. apply map_ext. intros g. rewrite andb_true_r. reflexivity.
  - apply map_ext. intros g. rewrite andb_false_r. reflexivity.
Qed.
Lemma near_zero_opp g : near_zero (opp g) = near_zero g.
Proof. unfold near_zero, opp. simpl. rewrite !Rabs_Ropp. auto. Qed.
Lemma potf_conj area V ss : (forall s, In s ss -> conj_symmetric (sh_ft s)) -> forall h, conj_symmetric h -> conj_symmetric (potf area V ss h).
Proof.
  induction ss as [|s ss IH]; intros Hs h Hh; [exact Hh|]. cbn [potf]. cbv zeta.
  apply IH; [intros; apply Hs; right; auto|]. intros g. rewrite near_zero_opp.
  assert (E : Cdiv (Cplus (h (opp g)) (Cmult (RtoC V) (sh_ft s (opp g)))) (RtoC area) = Cconj (Cdiv (Cplus (h g) (Cmult (RtoC V) (sh_ft s g))) (RtoC area))).
  { rewrite Hh, (Hs s (or_introl eq_refl)). rewrite Cconj_div, Cconj_plus, Cconj_mult, !Cconj_R. reflexivity. }
  rewrite E. destruct (near_zero g && _)%bool; auto. rewrite Cconj_plus, Cconj_R. reflexivity.
Qed.

Lemma diff_zero g g' : diff g g' = (0, 0) -> g = g'.
Proof. destruct g, g'. unfold diff; simpl. injection 1 as H1 H2. f_equal; lra. Qed.
Lemma diff_same g : diff g g = (0, 0).
Proof. unfold diff. f_equal; ring. Qed.
Lemma has_transform area ly V gs : separated gs -> (forall s, In s (ly_shapes ly) -> conj_symmetric (sh_ft s)) ->
  exists pot, transform_of area ly V gs pot /\ conj_symmetric pot.
Proof.
  intros Hsep Hs. exists (potf area V (ly_shapes ly) (fun _ => RtoC 0)). split.
  - intros ds H0 Hd. unfold layer_exc_ft. apply (exc_loop_potf area V ds H0). intros g Hg Hz.
    destruct (Hd g Hg) as (a & b & Ha & Hb & ->). apply near_zero_iff in Hz. rewrite (Hsep a b Ha Hb Hz). apply diff_same.
  - apply potf_conj; auto. intros g. symmetry. apply Cconj_R.
Qed.
Lemma zero_transform area ly V gs : ly_shapes ly = [] -> transform_of area ly V gs (fun _ => RtoC 0).
Proof. intros E ds _ _. unfold layer_exc_ft. rewrite E. reflexivity. Qed.
Lemma one_transform area ly s V gs : ly_shapes ly = [s] -> 0 < V -> 0 < area -> separated gs -> 0 <= fst (sh_ft s (0, 0)) -> snd (sh_ft s (0, 0)) = 0 ->
  transform_of area ly V gs (fun g => Cdiv (Cmult (RtoC V) (sh_ft s g)) (RtoC area)).
Proof.
  intros E HV Ha Hsep N1 N2 ds H0 Hd. apply exc_ft_one_shape; auto.
  - exists (0, 0). split; auto. unfold is_g0. simpl. rewrite Rabs_R0. pose proof (Rinv_0_lt_compat (10 ^ 10) ltac:(apply pow_lt; lra)). lra.
  - intros g Hg Hz. destruct (Hd g Hg) as (a & b & Ha' & Hb & ->). rewrite (Hsep a b Ha' Hb Hz), diff_same. auto.
Qed.

(** ** the matrix of the potential *)

Lemma init_tbt fuel P z V a M E0 loss osc gmax s args pot : exc_init fuel P z V a M E0 loss osc gmax "tbt" = Some (Ok s) ->
  lattice_init args = Ok (pc_lattice P) -> independent (lt_a1 (pc_lattice P)) (lt_a2 (pc_lattice P)) -> 0 <= gmax ->
  conj_symmetric pot -> transform_of (lt_ec_area (pc_lattice P)) (ex_layer s) V (rc_g (ex_rc s)) pot ->
  ex_rc s = recip_tbt (pc_lattice P) gmax /\ ex_abs s = false /\
  forall i j, (i < List.length (rc_g (ex_rc s)))%nat -> (j < List.length (rc_g (ex_rc s)))%nat ->
    pot_matrix s i j = pot (diff (gat (rc_g (ex_rc s)) i) (gat (rc_g (ex_rc s)) j)).
Proof.
  intros HI HL Hind Hg Hc Ht. set (L := pc_lattice P) in *.
  unfold exc_init in HI. cbv zeta in HI. destruct (_ || _)%bool; [discriminate|].
  destruct (nth_error _ _) as [ly|]; [|discriminate]. destruct (check_osc osc) as [os|]; [|discriminate]. cbn [String.eqb Ascii.eqb Bool.eqb] in HI.
  fold L in HI. unfold pot_tbt in HI. 
  destruct (layer_exc_ft (lt_ec_area L) ly V (G1_of (rc_g (recip_tbt L gmax)))) as [t1|] eqn:T1; [|discriminate].
  destruct (layer_exc_ft (lt_ec_area L) ly V (G2_of _ _ _)) as [t2|] eqn:T2; [|discriminate].
  cbn [bind] in HI. injection HI as <-. cbn [ex_rc ex_abs ex_layer] in *. split; auto. split; auto.
  unfold pot_matrix. cbn [ex_abs ex_rc ex_T1 ex_T2].
  pose proof (indep_recip _ _ HL Hind) as Hb.
  destruct (recip_tbt_form L gmax Hg Hb) as (n1 & n2 & _ & _ & G & E1 & E2 & _).
  set (rc := recip_tbt L gmax) in *.
  pose proof (g_len _ _ _ _ _ G) as GL.
  assert (Z0 : nthg (rc_g rc) 0 = gat (rc_g rc) 0) by reflexivity.
  assert (Pos : (0 < List.length (rc_g rc))%nat) by (rewrite GL; nia).
  assert (D1 : t1 = map pot (G1_of (rc_g rc))).
  { enough (Ok t1 = Ok (map pot (G1_of (rc_g rc)))) by congruence. rewrite <- T1. apply Ht.
    - apply in_map_iff. exists (nthg (rc_g rc) 0). split; [apply diff_same|]. apply nth_In. auto.
    - intros D HD. apply in_map_iff in HD. destruct HD as (g & <- & HD). exists (nthg (rc_g rc) 0), g. split; [apply nth_In; auto|]. split; auto. }
  assert (D2 : t2 = map pot (G2_of (rc_g rc) (Z.to_nat (rc_n1 rc)) (Z.to_nat (rc_n2 rc)))).
  { enough (Ok t2 = Ok (map pot (G2_of (rc_g rc) (Z.to_nat (rc_n1 rc)) (Z.to_nat (rc_n2 rc))))) by congruence. rewrite <- T2.
    rewrite E1, E2, !Nat2Z.id in *. apply Ht.
    - unfold G2_of. apply in_flat_map. exists 0%nat. split; [apply in_seq; lia|]. apply in_map_iff. exists 0%nat. split; [apply diff_same|apply in_seq; lia].
    - intros D HD. unfold G2_of in HD. apply in_flat_map in HD. destruct HD as (x & Hx & HD). apply in_map_iff in HD. destruct HD as (p & <- & Hp).
      apply in_seq in Hx, Hp. exists (nthg (rc_g rc) p), (nthg (rc_g rc) (x * (2 * n2 + 1))).
      split; [apply nth_In; rewrite GL; nia|]. split; [apply nth_In; rewrite GL; nia|]. reflexivity. }
  subst t1 t2. intros i j Hi Hj. rewrite E1, E2, !Nat2Z.id in *. rewrite GL in Hi, Hj.
  apply (raw_matrix _ _ n1 n2 pot rc G E1 E2 Hc); auto.
Qed.

Section ABS.
Context (L : lattice) (pot : R * R -> C) (rc : recip) (sel : list (Z * Z)).
Hypothesis Hg : rc_g rc = map (cmb (lt_b1 L) (lt_b2 L)) sel.
Hypothesis Hi : combine (rc_i1 rc) (rc_i2 rc) = sel.
Notation gu := (gvec_of (lt_b1 L) (lt_b2 L) (map fst (np_unique (grid_diff zz_sub (combine (rc_i1 rc) (rc_i2 rc))))) (map snd (np_unique (grid_diff zz_sub (combine (rc_i1 rc) (rc_i2 rc)))))).
Lemma grid_in w : In w (grid_diff zz_sub sel) <-> exists u v, In u sel /\ In v sel /\ w = zz_sub v u.
Proof.
  unfold grid_diff. rewrite in_flat_map. split.
  - intros (y & Hy & Hw). apply in_map_iff in Hw. destruct Hw as (z & <- & Hz). eauto.
  - intros (u & v & Hu & Hv & ->). exists u. split; auto. apply in_map_iff. eauto.
Qed.
Lemma gu_in D : In D gu <-> difference (rc_g rc) D.
Proof.
  rewrite gvec_cmb, combine_split, in_map_iff, Hi. unfold difference. rewrite Hg. split.
  - intros (w & <- & Hw). apply unique_in, grid_in in Hw. destruct Hw as (u & v & Hu & Hv & ->).
    exists (cmb (lt_b1 L) (lt_b2 L) v), (cmb (lt_b1 L) (lt_b2 L) u). split; [apply in_map; auto|]. split; [apply in_map; auto|]. symmetry. apply cmb_diff.
  - intros (g & g' & H1 & H2 & ->). apply in_map_iff in H1, H2. destruct H1 as (v & <- & Hv). destruct H2 as (u & <- & Hu).
    exists (zz_sub v u). split; [symmetry; apply cmb_diff|]. apply unique_in, grid_in. eauto.
Qed.
Lemma gu_nodup : independent (lt_b1 L) (lt_b2 L) -> NoDup gu.
Proof.
  intros Hb. rewrite gvec_cmb, combine_split. apply FinFun.Injective_map_NoDup; [intros u v; apply cmb_inj; auto|]. apply srt_nodup, unique_srt.
Qed.
Lemma pot_entry i j : (i < List.length sel)%nat -> (j < List.length sel)%nat ->
  nth (i * List.length sel + j) (map (fun k => nth k (map pot gu) (RtoC 0)) (map (fun x => pos_of x (np_unique (grid_diff zz_sub (combine (rc_i1 rc) (rc_i2 rc))))) (grid_diff zz_sub (combine (rc_i1 rc) (rc_i2 rc))))) (RtoC 0)
  = pot (diff (gat (rc_g rc) j) (gat (rc_g rc) i)).
Proof.
  intros H1 H2. rewrite Hi. set (n := List.length sel) in *. set (grid := grid_diff zz_sub sel). set (u := np_unique grid).
  assert (GL : List.length grid = (n * n)%nat) by apply grid_len.
  assert (LT : (i * n + j < n * n)%nat).
  { assert ((i + 1) * n <= n * n)%nat by (apply Nat.mul_le_mono_r; lia). lia. }
  assert (GN : nth (i * n + j) grid (0, 0)%Z = zz_sub (nth j sel (0, 0)%Z) (nth i sel (0, 0)%Z)).
  { unfold grid, grid_diff, n. apply nth_grid; auto. }
  rewrite (nth_map_lt _ _ _ 0%nat) by (rewrite map_length; lia). rewrite (nth_map_lt _ _ _ (0, 0)%Z) by lia. rewrite GN.
  set (x := zz_sub (nth j sel (0, 0)%Z) (nth i sel (0, 0)%Z)) in *.
  assert (Hx : In x u) by (apply unique_in; rewrite <- GN; apply nth_In; lia).
  destruct (pos_of_nth x u (0, 0)%Z Hx) as [P1 P2].
  rewrite gvec_cmb, combine_split, map_map. rewrite (nth_map_lt _ _ _ (0, 0)%Z) by auto. rewrite P2.
  f_equal. rewrite Hg. unfold gat. rewrite !(nth_map_lt _ _ _ (0, 0)%Z) by auto. unfold x. symmetry. apply cmb_diff.
Qed.
End ABS.

Lemma init_abs fuel P z V a M E0 loss osc gmax s args pot : exc_init fuel P z V a M E0 loss osc gmax "abs" = Some (Ok s) ->
  lattice_init args = Ok (pc_lattice P) -> independent (lt_a1 (pc_lattice P)) (lt_a2 (pc_lattice P)) -> 0 <= gmax ->
  transform_of (lt_ec_area (pc_lattice P)) (ex_layer s) V (rc_g (ex_rc s)) pot ->
  recip_abs fuel (pc_lattice P) gmax = Some (Ok (ex_rc s)) /\ ex_abs s = true /\
  (forall i j, (i < List.length (rc_g (ex_rc s)))%nat -> (j < List.length (rc_g (ex_rc s)))%nat ->
    pot_matrix s i j = pot (diff (gat (rc_g (ex_rc s)) j) (gat (rc_g (ex_rc s)) i))) /\
  NoDup (ex_G1u s) /\ (forall D, In D (ex_G1u s) <-> difference (rc_g (ex_rc s)) D) /\ ex_T1u s = map pot (ex_G1u s).
Proof.
  intros HI HL Hind Hg Ht. set (L := pc_lattice P) in *.
  unfold exc_init in HI. cbv zeta in HI. destruct (_ || _)%bool; [discriminate|].
  destruct (nth_error _ _) as [ly|]; [|discriminate]. destruct (check_osc osc) as [os|]; [|discriminate]. cbn [String.eqb Ascii.eqb Bool.eqb] in HI.
  fold L in HI. destruct (recip_abs fuel L gmax) as [[rc|]|] eqn:HR; [|discriminate..]. cbn [bind] in HI.
  pose proof (indep_recip _ _ HL Hind) as Hb.
  destruct (recip_abs_form L gmax Hg Hb) as (n1 & n2 & k & _ & _ & _ & _ & _ & F & _).
  destruct (F _ _ HR) as (rc' & E & G & I & _). injection E as E. subst rc'.
  destruct (abs_set args L gmax fuel _ HL Hind Hg HR) as (rc' & k' & E & _ & ND & In0 & _). injection E as E. subst rc'.
  pose proof (gu_in L rc _ G I) as GI. pose proof (gu_nodup L rc Hb) as GN.
  unfold pot_abs in HI. cbv zeta in HI.
  set (gu := gvec_of _ _ (map fst _) (map snd _)) in *.
  destruct (layer_exc_ft (lt_ec_area L) ly V gu) as [tu|] eqn:T1; [|discriminate].
  cbn [bind] in HI. injection HI as <-. cbn [ex_rc ex_abs ex_layer ex_G1u ex_T1u fst snd] in *. split; auto. split; auto.
  assert (D1 : tu = map pot gu).
  { enough (Ok tu = Ok (map pot gu)) by congruence. rewrite <- T1. apply Ht.
    - apply GI. exists (0, 0), (0, 0). split; auto. split; auto. symmetry. apply diff_same.
    - intros D HD. apply GI. auto. }
  split; [|split; [exact GN|split; [exact GI|exact D1]]].
  intros i j Hi Hj. unfold pot_matrix. cbn [ex_abs ex_T1 ex_rc]. rewrite (abs_g_len _ _ _ G) in *. rewrite D1.
  apply (pot_entry L pot rc _ G I); auto.
Qed.
Lemma transform_exists fuel P z V a M E0 loss osc gmax tr s : exc_init fuel P z V a M E0 loss osc gmax tr = Some (Ok s) ->
  nth_error (pc_layers P) (z_to_lind P z - 1) = Some (ex_layer s) /\ ex_lat s = pc_lattice P /\ ex_a s = a /\ ex_M s = M /\ ex_E0 s = E0 /\ ex_loss s = loss /\ ex_V s = V /\ ex_z s = z /\
  ex_eners s = None /\ ex_vecs s = None.
Proof.
  unfold exc_init. cbv zeta. destruct (_ || _)%bool; [discriminate|].
  destruct (nth_error _ _) as [ly|]; [|discriminate]. destruct (check_osc osc) as [os|]; [|discriminate].
  destruct (String.eqb tr "tbt").
  - destruct (pot_tbt _ _ _ _) as [[t1 t2]|]; [|discriminate]. cbn [bind]. intros H. injection H as <-. cbn. tauto.
  - destruct (String.eqb tr "abs"); [|discriminate]. destruct (recip_abs _ _ _) as [[rc|]|]; [|discriminate..]. cbn [bind].
    destruct (pot_abs _ _ _ _) as [[t1 t2]|]; [|discriminate]. cbn [bind]. intros H. injection H as <-. cbn. tauto.
Qed.
