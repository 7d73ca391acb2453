(** The 'abs' truncation: the gmax loop and the selected set (C25, C26). *)
From Coq Require Import Nsatz FinFun.
From Verif Require Import Py LatticeModel LatticeSpec LatticeProofs CBase PhcModel RecipModel RecipSpec RecipProofs.
Open Scope R_scope.
Open Scope list_scope.

Definition dl : R := 1 / 10 ^ 10.
Lemma dl_pos : 0 < dl. Proof. unfold dl. apply Rdiv_lt_0_compat; [lra|apply pow_lt; lra]. Qed.
Lemma r_in_true x l : r_in x l = true <-> In x l.
Proof.
  unfold r_in. rewrite existsb_exists. split.
  - intros (y & Hy & E). apply Reqb_true in E. subst; auto.
  - intros H. exists x. split; auto. apply Reqb_true; auto.
Qed.
Lemma r_in_false x l : r_in x l = false <-> ~ In x l.
Proof. rewrite <- r_in_true. destruct (r_in x l); split; congruence. Qed.

Definition hit (gnorm : list R) (gmax : R) (k : nat) : Prop := In ((gmax + INR k * dl) * 2 * PI) gnorm.
Lemma least_miss gnorm gmax : exists k, (k <= List.length gnorm)%nat /\ ~ hit gnorm gmax k /\ forall i, (i < k)%nat -> hit gnorm gmax i.
Proof.
  assert (D : forall k, hit gnorm gmax k \/ ~ hit gnorm gmax k) by (intros; unfold hit; destruct (in_dec Req_EM_T ((gmax + INR k * dl) * 2 * PI) gnorm); auto).
  assert (SS : forall n, (exists k, (k <= n)%nat /\ ~ hit gnorm gmax k /\ forall i, (i < k)%nat -> hit gnorm gmax i) \/
                        (forall k, (k <= n)%nat -> hit gnorm gmax k)).
  { induction n as [|n IH].
    - destruct (D 0%nat) as [H|H]; [right|left; exists 0%nat; repeat split; auto; lia].
      intros k Hk. replace k with 0%nat by lia. auto.
    - destruct IH as [(k & A & B & E)|IH]; [left; exists k; repeat split; auto|].
      destruct (D (S n)) as [H|H].
      + right. intros k Hk. destruct (Nat.eq_dec k (S n)) as [->|]; auto. apply IH. lia.
      + left. exists (S n). repeat split; auto. intros i Hi. apply IH. lia. }
  destruct (SS (List.length gnorm)) as [H|H]; auto. exfalso.
  set (l := map (fun k => (gmax + INR k * dl) * 2 * PI) (seq 0 (S (List.length gnorm)))).
  assert (N : NoDup l).
  { apply Injective_map_NoDup; [|apply seq_NoDup]. intros x y E. pose proof PI_RGT_0. pose proof dl_pos.
    apply INR_eq. apply Rmult_eq_reg_r with dl; [|lra]. apply Rmult_eq_reg_r with (2 * PI); [|lra]. lra. }
  assert (I : incl l gnorm).
  { intros x Hx. apply in_map_iff in Hx. destruct Hx as (k & <- & Hk). apply in_seq in Hk. apply H. lia. }
  pose proof (NoDup_incl_length N I) as Le. unfold l in Le. rewrite map_length, seq_length in Le. lia.
Qed.
Lemma nudge_steps gnorm k : forall gmax, ~ hit gnorm gmax k -> (forall i, (i < k)%nat -> hit gnorm gmax i) ->
  (forall f, (k < f)%nat -> nudge f gnorm gmax = Some (gmax + INR k * dl)) /\ (forall f, (f <= k)%nat -> nudge f gnorm gmax = None).
Proof.
  induction k as [|k IH]; intros gmax Hn Hh.
  - split.
    + intros f Hf. destruct f; [lia|]. cbn [nudge]. unfold hit in Hn. simpl INR in *.
      rewrite Rmult_0_l, Rplus_0_r in *. rewrite (proj2 (r_in_false _ _) Hn). auto.
    + intros f Hf. replace f with 0%nat by lia. auto.
  - assert (E : forall i, gmax + 1 / 10 ^ 10 + INR i * dl = gmax + INR (S i) * dl) by (intros; rewrite S_INR; unfold dl; ring).
    destruct (IH (gmax + 1 / 10 ^ 10)) as [A B].
    + unfold hit in *. rewrite E. auto.
    + intros i Hi. unfold hit. rewrite E. apply Hh. lia.
    + assert (H0 := Hh 0%nat ltac:(lia)). unfold hit in H0. simpl INR in H0. rewrite Rmult_0_l, Rplus_0_r in H0.
      split; intros f Hf; (destruct f; [try lia; auto|]); cbn [nudge]; rewrite (proj2 (r_in_true _ _) H0).
      * rewrite A by lia. rewrite E. auto.
      * apply B. lia.
Qed.

Lemma select_filter {A} (p : A -> bool) l : select (map p l) l = filter p l.
Proof. induction l; simpl; auto. destruct (p a); rewrite IHl; auto. Qed.
Lemma select_map {A B} (p : A -> bool) (f : A -> B) l : select (map p l) (map f l) = map f (filter p l).
Proof. induction l; simpl; auto. destruct (p a); simpl; rewrite IHl; auto. Qed.
Lemma zmax_ok l : l <> [] -> exists m, zmax_list l = Ok m.
Proof. destruct l; [congruence|]. simpl. eauto. Qed.
Lemma combine_fst {A B} (l : list A) (m : list B) : List.length l = List.length m -> map fst (combine l m) = l.
Proof. revert m. induction l; destruct m; simpl; intros; try lia; auto. f_equal. auto. Qed.
Lemma combine_snd {A B} (l : list A) (m : list B) : List.length l = List.length m -> map snd (combine l m) = m.
Proof. revert m. induction l; destruct m; simpl; intros; try lia; auto. f_equal. auto. Qed.
Lemma combine_split {A B} (l : list (A * B)) : combine (map fst l) (map snd l) = l.
Proof. induction l as [|[a b] l IH]; simpl; auto. f_equal; auto. Qed.

Definition cands (L : lattice) (n1 n2 : nat) := map (cmb (lt_b1 L) (lt_b2 L)) (block n1 n2).
Definition selq (L : lattice) (gm : R) (ij : Z * Z) : bool := Rleb (len (cmb (lt_b1 L) (lt_b2 L) ij)) (2 * PI * gm).
Lemma recip_abs_form L gmax : 0 <= gmax -> independent (lt_b1 L) (lt_b2 L) ->
  exists n1 n2 k : nat,
    integer_part (4 * PI * gmax / len (lt_b1 L)) n1 /\ integer_part (4 * PI * gmax / len (lt_b2 L)) n2 /\
    let gm := gmax + INR k * dl in
    (k <= (2 * n1 + 1) * (2 * n2 + 1))%nat /\
    (forall g, In g (cands L n1 n2) -> len g <> 2 * PI * gm) /\
    (forall i, (i < k)%nat -> exists g, In g (cands L n1 n2) /\ len g = 2 * PI * (gmax + INR i * dl)) /\
    let sel := filter (selq L gm) (block n1 n2) in
    (forall fuel r, recip_abs fuel L gmax = Some r -> exists rc, r = Ok rc /\
       rc_g rc = map (cmb (lt_b1 L) (lt_b2 L)) sel /\ combine (rc_i1 rc) (rc_i2 rc) = sel /\
       List.length (rc_i1 rc) = List.length (rc_i2 rc)) /\
    (forall fuel, (k < fuel)%nat -> exists r, recip_abs fuel L gmax = Some r) /\
    (forall fuel, (0 < k)%nat -> (fuel <= k)%nat -> recip_abs fuel L gmax = None).
Proof.
  intros Hg Hi. destruct (indep_len _ _ Hi) as [P1 P2].
  destruct (nmax_ok 4 gmax (lt_b1 L)) as (n1 & E1 & I1); auto; [lra|].
  destruct (nmax_ok 4 gmax (lt_b2 L)) as (n2 & E2 & I2); auto; [lra|].
  set (gn := map len (cands L n1 n2)).
  destruct (least_miss gn gmax) as (k & Hk & Hm & Hh).
  destruct (nudge_steps gn k gmax Hm Hh) as [NS NN].
  exists n1, n2, k. split; auto. split; auto. cbv zeta.
  assert (LN : List.length gn = ((2 * n1 + 1) * (2 * n2 + 1))%nat) by (unfold gn, cands; rewrite !map_length, block_len; auto).
  split; [lia|].
  split. { intros g HG E. apply Hm. unfold hit. replace ((gmax + INR k * dl) * 2 * PI) with (len g) by (rewrite E; ring). apply in_map; auto. }
  split. { intros i Hl. specialize (Hh i Hl). unfold hit in Hh. apply in_map_iff in Hh. destruct Hh as (g & A & B). exists g. split; auto. rewrite A. ring. }
  assert (GN : map (fun g : R * R => sqrt (fst g ^ 2 + snd g ^ 2)) (gvec_of (lt_b1 L) (lt_b2 L) (inds1_of (Z.of_nat n1) (Z.of_nat n2)) (inds2_of (Z.of_nat n1) (Z.of_nat n2))) = gn).
  { rewrite gvec_cmb, inds_block. unfold gn, cands. apply map_ext. intros g. apply norm2_len. }
  set (gm := gmax + INR k * dl). set (sel := filter (selq L gm) (block n1 n2)).
  assert (Z0 : In (0, 0)%Z sel).
  { unfold sel. apply filter_In. split; [apply block_in; lia|]. unfold selq. apply Rleb_true. rewrite cmb_0.
    unfold len, inner; simpl. replace (0 * 0 + 0 * 0) with 0 by ring. rewrite sqrt_0. pose proof PI_RGT_0. pose proof dl_pos.
    assert (0 <= INR k * dl) by (apply Rmult_le_pos; [apply pos_INR|lra]). apply Rmult_le_pos; [lra|unfold gm; lra]. }
  set (i1 := inds1_of (Z.of_nat n1) (Z.of_nat n2)) in *. set (i2 := inds2_of (Z.of_nat n1) (Z.of_nat n2)) in *.
  assert (IL : List.length i1 = List.length i2) by apply inds_len.
  assert (IB : combine i1 i2 = block n1 n2) by apply inds_block.
  assert (MASK : map (fun x => Rleb x (2 * PI * gm)) gn = map (selq L gm) (block n1 n2)).
  { unfold gn, cands. rewrite !map_map. auto. }
  assert (K1 : keep (map (fun x => Rleb x (2 * PI * gm)) gn) i1 = map fst sel).
  { unfold keep. rewrite MASK. rewrite <- (combine_fst i1 i2 IL) at 1. rewrite IB. apply select_map. }
  assert (K2 : keep (map (fun x => Rleb x (2 * PI * gm)) gn) i2 = map snd sel).
  { unfold keep. rewrite MASK. rewrite <- (combine_snd i1 i2 IL) at 1. rewrite IB. apply select_map. }
  assert (K3 : keep (map (fun x => Rleb x (2 * PI * gm)) gn) (gvec_of (lt_b1 L) (lt_b2 L) i1 i2) = map (cmb (lt_b1 L) (lt_b2 L)) sel).
  { unfold keep. rewrite MASK, gvec_cmb, IB. apply select_map. }
  destruct (zmax_ok (map fst sel)) as (m1 & M1). { destruct sel; [destruct Z0|discriminate]. }
  destruct (zmax_ok (map snd sel)) as (m2 & M2). { destruct sel; [destruct Z0|discriminate]. }
  set (rc := mkRecip (map (cmb (lt_b1 L) (lt_b2 L)) sel) m1 m2 (map fst sel) (map snd sel)).
  assert (RUN : forall fuel, recip_abs fuel L gmax = match nudge fuel gn gmax with
      | Some _ => Some (Ok rc) | None => if r_in (gmax * 2 * PI) gn then None else Some (Ok rc) end).
  { intros fuel. unfold recip_abs. rewrite E1, E2. fold i1 i2. rewrite GN.
    assert (FIN : (let* m0 := zmax_list (keep (map (fun x => Rleb x (2 * PI * gm)) gn) i1) in
       let* m3 := zmax_list (keep (map (fun x => Rleb x (2 * PI * gm)) gn) i2) in
       Ok (mkRecip (keep (map (fun x => Rleb x (2 * PI * gm)) gn) (gvec_of (lt_b1 L) (lt_b2 L) i1 i2)) m0 m3
            (keep (map (fun x => Rleb x (2 * PI * gm)) gn) i1) (keep (map (fun x => Rleb x (2 * PI * gm)) gn) i2))) = Ok rc).
    { rewrite K1, K2, K3. rewrite M1. cbn [bind]. rewrite M2. reflexivity. }
    destruct (r_in (gmax * 2 * PI) gn) eqn:RI.
    - destruct (le_lt_dec fuel k) as [Hf|Hf]; [rewrite NN by auto; auto|]. rewrite NS by auto. fold gm. rewrite FIN. auto.
    - assert (k = 0%nat).
      { destruct k; auto. exfalso. apply r_in_false in RI. apply RI. specialize (Hh 0%nat ltac:(lia)). unfold hit in Hh. simpl INR in Hh.
        rewrite Rmult_0_l, Rplus_0_r in Hh. auto. }
      assert (gm = gmax) as Eg by (unfold gm; rewrite H; simpl; ring). rewrite Eg in FIN. rewrite FIN.
      destruct (nudge fuel gn gmax); auto. }
  split; [|split].
  - intros fuel r H. exists rc. rewrite RUN in H.
    assert (r = Ok rc) by (destruct (nudge fuel gn gmax); [congruence|]; destruct (r_in _ _); congruence).
    subst r. split; auto. unfold rc; cbn [rc_g rc_i1 rc_i2]. split; auto. split; [apply combine_split|rewrite !map_length; auto].
  - intros fuel Hf. rewrite RUN, NS by auto. eauto.
  - intros fuel H0 Hf. rewrite RUN, NN by auto.
    assert (In (gmax * 2 * PI) gn).
    { specialize (Hh 0%nat H0). unfold hit in Hh. simpl INR in Hh. rewrite Rmult_0_l, Rplus_0_r in Hh. auto. }
    rewrite (proj2 (r_in_true _ _) H). auto.
Qed.

(** Cauchy-Schwarz *)
Lemma inner_len u v : Rabs (inner u v) <= len u * len v.
Proof.
  unfold len. rewrite <- sqrt_mult_alt by (unfold inner; nra).
  rewrite <- sqrt_Rsqr_abs. apply sqrt_le_1_alt. unfold Rsqr, inner.
  pose proof (Rle_0_sqr (fst u * snd v - snd u * fst v)) as H. unfold Rsqr in H. nra.
Qed.
Lemma inner_cmb b1 b2 ij a : inner (cmb b1 b2 ij) a = IZR (fst ij) * inner b1 a + IZR (snd ij) * inner b2 a.
Proof. unfold inner, cmb, comb; cbn [fst snd]. ring. Qed.

Lemma in_box_of_short args L gmax gm n1 n2 i j : lattice_init args = Ok L -> independent (lt_a1 L) (lt_a2 L) ->
  integer_part (4 * PI * gmax / len (lt_b1 L)) n1 -> integer_part (4 * PI * gmax / len (lt_b2 L)) n2 ->
  gm * (len (lt_a1 L) * len (lt_b1 L)) <= 4 * PI * gmax -> gm * (len (lt_a2 L) * len (lt_b2 L)) <= 4 * PI * gmax ->
  len (comb i j (lt_b1 L) (lt_b2 L)) <= 2 * PI * gm -> In (i, j) (block n1 n2).
Proof.
  intros HL Ha I1 I2 C1 C2 Hs. destruct (duality _ _ HL Ha) as (A & B & D & E).
  pose proof (indep_recip _ _ HL Ha) as Hb. destruct (indep_len _ _ Hb) as [P1 P2].
  pose proof PI_RGT_0 as HP. unfold integer_part in *.
  set (G := comb i j (lt_b1 L) (lt_b2 L)) in *.
  assert (X1 : inner G (lt_a1 L) = 2 * PI * IZR i).
  { change G with (cmb (lt_b1 L) (lt_b2 L) (i, j)). rewrite inner_cmb, A, E. cbn [fst snd]. ring. }
  assert (X2 : inner G (lt_a2 L) = 2 * PI * IZR j).
  { change G with (cmb (lt_b1 L) (lt_b2 L) (i, j)). rewrite inner_cmb, B, D. cbn [fst snd]. ring. }
  assert (BND : forall z a b n, inner G a = 2 * PI * IZR z -> 0 < len b -> gm * (len a * len b) <= 4 * PI * gmax ->
     INR n <= 4 * PI * gmax / len b < INR n + 1 -> (Z.abs z <= Z.of_nat n)%Z).
  { intros z a b n Hz Hlb Hc [_ Hn]. pose proof (inner_len G a) as Q. rewrite Hz, Rabs_mult, (Rabs_pos_eq (2 * PI)) in Q by lra.
    assert (Rabs (IZR z) <= gm * len a).
    { apply Rmult_le_reg_l with (2 * PI); [lra|]. pose proof (len_pos a). nra. }
    assert (gm * len a <= 4 * PI * gmax / len b).
    { apply Rmult_le_reg_r with (len b); auto. replace (4 * PI * gmax / len b * len b) with (4 * PI * gmax) by (field; lra). lra. }
    rewrite <- abs_IZR in H. assert (IZR (Z.abs z) < IZR (Z.of_nat n + 1)).
    { rewrite plus_IZR, <- INR_IZR_INZ. lra. }
    apply lt_IZR in H1. lia. }
  apply block_in.
  pose proof (BND i (lt_a1 L) (lt_b1 L) n1 X1 P1 C1 I1). pose proof (BND j (lt_a2 L) (lt_b2 L) n2 X2 P2 C2 I2). lia.
Qed.

Lemma abs_set args L gmax fuel r : lattice_init args = Ok L -> independent (lt_a1 L) (lt_a2 L) -> 0 <= gmax ->
  recip_abs fuel L gmax = Some r ->
  exists rc (k : nat), r = Ok rc /\
    let gm := gmax + INR k / 10 ^ 10 in
    ((k = 0%nat) \/ exists g, in_lattice (lt_b1 L) (lt_b2 L) g /\ len g = 2 * PI * gmax) /\
    NoDup (rc_g rc) /\ In (0, 0) (rc_g rc) /\
    (forall g, In g (rc_g rc) -> in_lattice (lt_b1 L) (lt_b2 L) g /\ len g <= 2 * PI * gm /\ In (opp g) (rc_g rc)) /\
    (gm * (len (lt_a1 L) * len (lt_b1 L)) <= 4 * PI * gmax ->
     gm * (len (lt_a2 L) * len (lt_b2 L)) <= 4 * PI * gmax ->
     (forall g, In g (rc_g rc) <-> in_lattice (lt_b1 L) (lt_b2 L) g /\ len g <= 2 * PI * gm) /\
     (forall g, in_lattice (lt_b1 L) (lt_b2 L) g -> len g <> 2 * PI * gm) /\
     (forall f, lattice_isometry (lt_b1 L) (lt_b2 L) f -> forall g, In g (rc_g rc) -> In (f g) (rc_g rc))).
Proof.
  intros HL Ha Hg HR. pose proof (indep_recip _ _ HL Ha) as Hb.
  destruct (recip_abs_form L gmax Hg Hb) as (n1 & n2 & k & I1 & I2 & Hk & HM & HH & F & _ & _).
  destruct (F fuel r HR) as (rc & -> & G & Ci & CL). exists rc, k. split; auto. cbv zeta.
  replace (gmax + INR k / 10 ^ 10) with (gmax + INR k * dl) by (unfold dl; field; apply pow_nonzero; lra).
  set (gm := gmax + INR k * dl) in *.
  assert (Hgm : 0 <= gm) by (unfold gm; pose proof (pos_INR k); pose proof dl_pos; nra).
  assert (IN : forall g, In g (rc_g rc) <-> exists i j, g = comb i j (lt_b1 L) (lt_b2 L) /\ In (i, j) (block n1 n2) /\ len g <= 2 * PI * gm).
  { intros g. rewrite G, in_map_iff. split.
    - intros ([i j] & <- & H). apply filter_In in H. destruct H as [H1 H2]. apply Rleb_true in H2. exists i, j. auto.
    - intros (i & j & -> & H1 & H2). exists (i, j). split; auto. apply filter_In. split; auto. apply Rleb_true; auto. }
  split.
  { destruct k; auto. right. destruct (HH 0%nat ltac:(lia)) as (g & H1 & H2). exists g. simpl INR in H2. rewrite Rmult_0_l, Rplus_0_r in H2.
    split; auto. apply in_map_iff in H1. destruct H1 as ([i j] & <- & _). exists i, j. auto. }
  split. { rewrite G. apply Injective_map_NoDup; [intros u v; apply cmb_inj; auto|]. apply NoDup_filter, block_nodup. }
  split. { apply IN. exists 0%Z, 0%Z. split; [symmetry; apply cmb_0|]. split; [apply block_in; lia|].
    unfold len, inner; simpl. replace (0 * 0 + 0 * 0) with 0 by ring. rewrite sqrt_0. pose proof PI_RGT_0. nra. }
  split.
  { intros g Hgi. apply IN in Hgi. destruct Hgi as (i & j & E & H1 & H2). split; [exists i, j; auto|]. split; auto.
    apply IN. exists (- i)%Z, (- j)%Z. rewrite len_opp. split; [|split; auto].
    - rewrite E. pose proof (cmb_opp (lt_b1 L) (lt_b2 L) (i, j)) as O. unfold cmb, zopp in O; cbn [fst snd] in O. auto.
    - apply block_in in H1. apply block_in. lia. }
  intros C1 C2.
  assert (FULL : forall g, In g (rc_g rc) <-> in_lattice (lt_b1 L) (lt_b2 L) g /\ len g <= 2 * PI * gm).
  { intros g. rewrite IN. split.
    - intros (i & j & -> & H1 & H2). split; auto. exists i, j; auto.
    - intros [(i & j & ->) H2]. exists i, j. split; auto. split; auto.
      eapply in_box_of_short; eauto. }
  split; [auto|split].
  - intros g (i & j & ->) E. apply (HM (comb i j (lt_b1 L) (lt_b2 L))); auto.
    unfold cands. apply in_map_iff. exists (i, j). split; auto. eapply in_box_of_short; eauto. lra.
  - intros f Hf g Hgi. apply FULL in Hgi. destruct Hgi as [H1 H2]. apply FULL. destruct (Hf g H1) as [H3 H4]. split; auto. rewrite H4; auto.
Qed.

(** named lattices satisfy the completeness condition with room to spare *)
Lemma len_val x y v : 0 <= v -> x * x + y * y = v * v -> len (x, y) = v.
Proof. intros H E. unfold len, inner; simpl. rewrite E. apply sqrt_square; auto. Qed.
Lemma named_lengths s L : lattice_init (LatName s) = Ok L ->
  len (lt_a1 L) = 1 /\ len (lt_a2 L) = 1 /\ len (lt_b1 L) <= 4 * PI / sqrt 3 /\ len (lt_b2 L) <= 4 * PI / sqrt 3.
Proof.
  pose proof PI_RGT_0 as HP. pose proof sqrt3_sq as S3. pose proof sqrt3_pos as S0.
  assert (S1 : sqrt 3 < 2) by nra.
  assert (Q : 2 * PI <= 4 * PI / sqrt 3).
  { apply Rmult_le_reg_r with (sqrt 3); auto. replace (4 * PI / sqrt 3 * sqrt 3) with (4 * PI) by (field; lra). nra. }
  intros HL. destruct (init_named s L HL) as [(Es & _ & A1 & A2)|(Es & _ & A1 & A2)].
  - subst s. destruct (square_b L HL) as [B1 B2]. rewrite A1, A2, B1, B2.
    split; [apply len_val; lra|]. split; [apply len_val; lra|].
    split; (rewrite (len_val _ _ (2 * PI)); [lra|lra|ring]).
  - subst s. destruct (hex_b L HL) as [B1 B2]. rewrite A1, A2, B1, B2.
    split; [apply len_val; nra|]. split; [apply len_val; nra|].
    pose proof inv_sqrt3 as I3. assert (V : 0 <= 4 * PI / sqrt 3) by lra.
    split; right; apply len_val; auto; unfold Rdiv in *.
    + replace (4 * PI * / sqrt 3 * (4 * PI * / sqrt 3)) with (16 * PI * PI * (/ sqrt 3 * / sqrt 3)) by ring.
      replace (2 * PI * / sqrt 3 * (2 * PI * / sqrt 3)) with (4 * PI * PI * (/ sqrt 3 * / sqrt 3)) by ring.
      rewrite I3. field.
    + replace (4 * PI * / sqrt 3 * (4 * PI * / sqrt 3)) with (16 * PI * PI * (/ sqrt 3 * / sqrt 3)) by ring.
      replace (- (2 * PI * / sqrt 3) * - (2 * PI * / sqrt 3)) with (4 * PI * PI * (/ sqrt 3 * / sqrt 3)) by ring.
      rewrite I3. field.
Qed.

(** ... so the completeness condition holds as soon as the corrected cut-off is
    at most sqrt 3 times the requested one *)
Lemma named_condition s L gmax gm : lattice_init (LatName s) = Ok L -> 0 <= gm -> gm <= sqrt 3 * gmax ->
  gm * (len (lt_a1 L) * len (lt_b1 L)) <= 4 * PI * gmax /\ gm * (len (lt_a2 L) * len (lt_b2 L)) <= 4 * PI * gmax.
Proof.
  intros HL H0 Hle. destruct (named_lengths s L HL) as (A1 & A2 & B1 & B2). rewrite A1, A2, !Rmult_1_l.
  pose proof PI_RGT_0 as HP. pose proof sqrt3_pos as S0.
  assert (K : gm * (4 * PI / sqrt 3) <= 4 * PI * gmax).
  { apply Rmult_le_reg_r with (sqrt 3); auto. replace (gm * (4 * PI / sqrt 3) * sqrt 3) with (4 * PI * gm) by (field; lra).
    replace (4 * PI * gmax * sqrt 3) with (4 * PI * (sqrt 3 * gmax)) by ring. apply Rmult_le_compat_l; lra. }
  split; (eapply Rle_trans; [apply Rmult_le_compat_l; [lra|eassumption]|auto]).
Qed.

(** ** Refutation: oblique basis *)
Lemma abs_oblique : exists L gmax g, lattice_init (LatVecs (1, 0) (10, 1)) = Ok L /\ independent (lt_a1 L) (lt_a2 L) /\
  0 <= gmax /\ in_lattice (lt_b1 L) (lt_b2 L) g /\ len g < 2 * PI * gmax /\
  (exists fuel rc, recip_abs fuel L gmax = Some (Ok rc)) /\
  forall fuel rc, recip_abs fuel L gmax = Some (Ok rc) -> ~ In g (rc_g rc).
Proof.
  destruct (init_vecs (1, 0) (10, 1)) as (L & HL & A1 & A2 & _).
  assert (Ha : independent (lt_a1 L) (lt_a2 L)) by (rewrite A1, A2; unfold independent, det; simpl; lra).
  pose proof (indep_recip _ _ HL Ha) as Hb.
  destruct (init_shape _ _ HL) as (B1 & B2 & _). rewrite A1, A2 in B1, B2. unfold det in B1, B2; simpl in B1, B2.
  destruct (recip_abs_form L (3/2)) as (n1 & n2 & k & I1 & I2 & Hk & HM & HH & F & T & _); auto; [lra|].
  pose proof PI_RGT_0 as HP.
  assert (L1 : 20 * PI <= len (lt_b1 L)).
  { pose proof (inner_len (lt_b1 L) (0, 1)) as Q. rewrite (len_val 0 1 1) in Q by lra. rewrite B1 in Q at 1. unfold inner in Q; cbn [fst snd] in Q.
    replace (2 * PI * 1 / (1 * 1 - 0 * 10) * 0 + - (2 * PI * 10) / (1 * 1 - 0 * 10) * 1) with (- (20 * PI)) in Q by field.
    rewrite Rabs_Ropp, Rabs_pos_eq in Q by lra. lra. }
  assert (n1 = 0%nat).
  { destruct I1 as [I1 _]. destruct n1; auto. exfalso. rewrite S_INR in I1. pose proof (pos_INR n1).
    assert (4 * PI * (3 / 2) / len (lt_b1 L) < 1); [|lra].
    apply Rmult_lt_reg_r with (len (lt_b1 L)); [lra|]. replace (4 * PI * (3 / 2) / len (lt_b1 L) * len (lt_b1 L)) with (6 * PI) by (field; lra). lra. }
  subst n1.
  exists L, (3/2), (comb 1 10 (lt_b1 L) (lt_b2 L)). split; auto. split; auto. split; [lra|]. split; [exists 1%Z, 10%Z; auto|]. split.
  { rewrite B1, B2. unfold comb; cbn [fst snd]. rewrite (len_val _ _ (2 * PI)); [lra|lra|]. field. }
  split.
  - destruct (T (S k)) as (r & Hr); [lia|]. destruct (F _ _ Hr) as (rc & -> & _). eauto.
  - intros fuel rc Hr Hin. destruct (F _ _ Hr) as (rc' & E & G & _). injection E as E. subst rc'. rewrite G in Hin.
    apply in_map_iff in Hin. destruct Hin as ([i j] & E & Hf). apply filter_In in Hf. destruct Hf as [Hf _]. apply block_in in Hf.
    apply (cmb_inj (lt_b1 L) (lt_b2 L) (i, j) (1, 10)%Z Hb) in E. injection E as -> ->. lia.
Qed.

(** ** C26 *)
Lemma abs_terminates args L gmax : lattice_init args = Ok L -> independent (lt_a1 L) (lt_a2 L) -> 0 <= gmax ->
  exists n1 n2 k : nat,
    integer_part (4 * PI * gmax / len (lt_b1 L)) n1 /\ integer_part (4 * PI * gmax / len (lt_b2 L)) n2 /\
    (k <= (2 * n1 + 1) * (2 * n2 + 1))%nat /\
    (forall fuel, (k < fuel)%nat -> exists rc, recip_abs fuel L gmax = Some (Ok rc)) /\
    (forall fuel, (0 < k)%nat -> (fuel <= k)%nat -> recip_abs fuel L gmax = None) /\
    (forall i j, (Z.abs i <= Z.of_nat n1)%Z -> (Z.abs j <= Z.of_nat n2)%Z ->
       len (comb i j (lt_b1 L) (lt_b2 L)) <> 2 * PI * (gmax + INR k / 10 ^ 10)) /\
    (forall m, (m < k)%nat -> exists i j, (Z.abs i <= Z.of_nat n1)%Z /\ (Z.abs j <= Z.of_nat n2)%Z /\
       len (comb i j (lt_b1 L) (lt_b2 L)) = 2 * PI * (gmax + INR m / 10 ^ 10)).
Proof.
  intros HL Ha Hg. pose proof (indep_recip _ _ HL Ha) as Hb.
  destruct (recip_abs_form L gmax Hg Hb) as (n1 & n2 & k & I1 & I2 & Hk & HM & HH & F & T & N).
  assert (D : forall m, INR m / 10 ^ 10 = INR m * dl) by (intros; unfold dl; field; apply pow_nonzero; lra).
  exists n1, n2, k. split; auto. split; auto. split; auto. split; [|split; [auto|split]].
  - intros fuel Hf. destruct (T fuel Hf) as (r & Hr). destruct (F _ _ Hr) as (rc & -> & _). eauto.
  - intros i j Hi Hj. rewrite D. apply HM. unfold cands. apply in_map_iff. exists (i, j). split; auto. apply block_in. lia.
  - intros m Hm. destruct (HH m Hm) as (g & H1 & H2). unfold cands in H1. apply in_map_iff in H1.
    destruct H1 as ([i j] & <- & Hin). apply block_in in Hin. exists i, j. rewrite D. split; [lia|]. split; [lia|]. auto.
Qed.
