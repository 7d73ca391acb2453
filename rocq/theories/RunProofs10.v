(** kz_symmetry in a whole run (C43, C82). *)
From Coq Require Import Permutation List.
From Verif Require Import Py CBase LatticeModel PhcModel SymModel SymSpec SymProofs2 SymProofs3 SymProofs4 SymProofs5 SymProofs7 SymProofs8 RecipModel SlabModel MatElModel MatElSpec MatElProofs3
  RadModel RunModel RunSpec RunProofs RunProofs2 RunProofs3 RunProofs4 RunProofs5 RunProofs8.
Open Scope R_scope.
Open Scope list_scope.

(** on an object that has not run yet, the sizes recorded are those of the lists *)
Definition pres {A} (I : gst -> Prop) (m : act A) : Prop := forall s, I s -> I (fst (m s)).
Lemma pres_then {A B} I (m : act A) (g : A -> act B) : pres I m -> (forall a, pres I (g a)) -> pres I (andthen m g).
Proof.
  intros Hm Hg s Hs. unfold andthen. pose proof (Hm s Hs) as E. destruct (m s) as [s1 [a|e]]; cbn in E |- *; auto. apply Hg. auto.
Qed.
Lemma pres_foreach {A B} I (m : A -> act B) l : (forall a, pres I (m a)) -> pres I (foreach m l).
Proof.
  intros H. induction l as [|a l IH]; [intros s Hs; exact Hs|]. cbn [foreach]. apply pres_then; auto. intros b.
  apply pres_then; auto. intros bs s Hs. exact Hs.
Qed.
Definition counted (s : gst) : Prop := g_numg s = map (map (@List.length nat)) (g_ind s).
Lemma one_k_counted argsort eigh eigsh root dl d o eps ds einv refl an x :
  pres counted (one_k argsort eigh eigsh root dl d o eps ds einv refl an x).
Proof.
  destruct x as [ik k]. unfold one_k. apply pres_then.
  - unfold construct. apply pres_then.
    + destruct (exact_modes o); [|intros s Hs; exact Hs]. apply pres_then; [intros s Hs; exact Hs|]. intros t s Hs. exact Hs.
    + intros _. apply pres_then; [intros s Hs; exact Hs|]. intros [[garr te] tm]. apply pres_then; [intros s Hs; exact Hs|]. intros mat.
      apply pres_then; [intros s Hs; exact Hs|]. intros ms. apply pres_then; [|intros _ s Hs; exact Hs].
      intros s Hs. unfold counted in *. cbn. rewrite Hs, map_app. cbn. rewrite map_map. reflexivity.
  - intros mat. destruct (Nat.ltb _ _); [intros s Hs; exact Hs|]. destruct (String.eqb (o_solver o) "eigh").
    + destruct (o_symm o); repeat (apply pres_then; [intros s' Hs; exact Hs|intros ?]); try (intros s' Hs; exact Hs).
      match goal with |- pres _ (let (_, _) := ?b in _) => destruct b end. destruct (is_low o "both"); [|destruct (is_low o "odd")];
      repeat (apply pres_then; [intros s' Hs; exact Hs|intros ?]); try (intros s' Hs; exact Hs).
      match goal with |- pres _ (let (_, _) := ?b in _) => destruct b as [[? ?] ?] end.
      repeat (apply pres_then; [intros s' Hs; exact Hs|intros ?]); try (intros s' Hs; exact Hs).
    + destruct (String.eqb (o_solver o) "eigsh"); [|intros s Hs; exact Hs]. destruct (o_symm o); [intros z Hs; exact Hs|].
      repeat (apply pres_then; [intros s' Hs; exact Hs|intros ?]); try (intros s' Hs; exact Hs).
Qed.
Lemma run_counted argsort eigh eigsh inv root dl d o ks an s : g_ind s = [] ->
  counted (fst (run argsort eigh eigsh inv root dl d o ks an s)).
Proof.
  intros H0. unfold run. unfold andthen at 1. unfold modify at 1.
  match goal with |- counted (fst (?m ?s0)) => enough (P : pres counted m) by (apply P; unfold counted; cbn; rewrite H0; reflexivity) end.
  apply pres_then; [intros z Hz; exact Hz|]. intros refl. apply pres_then; [intros z Hz; exact Hz|]. intros eps.
  apply pres_then; [intros z Hz; exact Hz|]. intros _.
  apply pres_then.
  { destruct (interp_modes o); [|intros z Hz; exact Hz]. destruct ks; [intros z Hz; exact Hz|]. destruct (dv_gvec d); [intros z Hz; exact Hz|].
    apply pres_then; [intros z Hz; exact Hz|]. intros t z Hz. exact Hz. }
  intros _. apply pres_then.
  { intros z Hz. unfold compute_eps_inv. destruct (g_einv z); exact Hz. }
  intros einv. apply pres_then; [intros z Hz; exact Hz|]. intros _.
  apply pres_then; [apply pres_foreach; intros; apply one_k_counted|]. intros rows.
  apply pres_then; [intros z Hz; exact Hz|]. intros _. destruct (o_im o); [|intros z Hz; exact Hz].
  unfold run_im_m. apply pres_then; [intros z Hz; exact Hz|]. intros [[im ub] rad] z Hz. exact Hz.
Qed.

Section Top.
Variable argsort : list R -> list nat.
Variable eigh : nat -> cmat -> list R * cmat.
Variable eigsh : nat -> cmat -> nat -> R -> result (list R * cmat).
Variable inv : nat -> cmat -> cmat.
Variable root : (R -> R) -> R -> R -> R.
Variable dl : R.
Hypothesis Hs : sorts argsort.
Hypothesis He : diagonalises eigh.
Notation run' := (run argsort eigh eigsh inv root dl).

(** what a run with a parity stores at k-point ik for the angle th, in terms of
    the matrix [mat] of that point *)
Definition sorted_by_parity (d : dev) (o : opts) (th : R) (inds : list (list nat)) (mat : arr2) (want : string)
  (fs : list R) (vs : list (nat * (nat -> C))) (sy : list Z) : Prop :=
  forall mate mt sg, reflect_pairs th (dv_gvec d) (o_inds o) inds mate mt sg ->
    let T := refl_op mt sg in
    (forall v i, (i < nr mat)%nat -> mvec (nr mat) (ent mat) (T v) i = T (mvec (nr mat) (ent mat) v) i) ->
    exists ls W idx, reports (nr mat) (ent mat) ls W idx fs vs /\ List.length sy = o_numeig o /\
      (forall c, (c < o_numeig o)%nat -> has_parity (nr mat) T (snd (nth c vs (0%nat, fun _ => RtoC 0))) (nth c sy 0%Z)) /\
      let dist := fun j => Rabs (freq_of (nth j ls 0) - o_sigma o) in
      if String.eqb want "both" then nearest (nr mat) (o_numeig o) dist idx
      else if String.eqb want "odd" then sy = repeat (-1)%Z (o_numeig o) /\ nearest_of_parity (nr mat) (o_numeig o) T (-1) W dist idx
      else sy = repeat 1%Z (o_numeig o) /\ nearest_of_parity (nr mat) (o_numeig o) T 1 W dist idx.

Lemma reports_len n A ls V idx fs vs : reports n A ls V idx fs vs -> List.length fs = List.length idx.
Proof. intros (_ & -> & _). apply map_length. Qed.
Lemma repeat_nth {A} (a d : A) n c : (c < n)%nat -> nth c (repeat a n) d = a.
Proof. revert c. induction n; intros [|c] H; cbn; auto; try lia. apply IHn. lia. Qed.

Lemma one_parity n k T sg W dist idx (H : cmat) ls fs vs : nearest_of_parity n k T sg W dist idx -> reports n H ls W idx fs vs ->
  (forall u w i, (forall i, (i < n)%nat -> u i = w i) -> (i < n)%nat -> T u i = T w i) ->
  (forall c, (c < k)%nat -> has_parity n T (snd (nth c vs (0%nat, fun _ => RtoC 0))) (nth c (repeat sg k) 0%Z)).
Proof.
  intros (par & P1 & P2 & P3 & P4 & _) (_ & _ & _ & _ & R) HT c Hc. rewrite repeat_nth by auto.
  rewrite <- P2 in Hc. destruct (P4 _ (nth_In idx 0%nat Hc)) as [Hj Hp].
  destruct (R c Hc) as [_ Hv]. specialize (P1 _ Hj). rewrite Hp in P1.
  destruct P1 as [[X Y]|[X Y]]; [left|right]; (split; [exact X|]); intros i Hi; rewrite (Hv i Hi), <- (Y i Hi); apply HT; auto.
Qed.

Lemma split_inv d o th inds mate mt s n H b E O : reflect_pairs th (dv_gvec d) (o_inds o) inds mate mt s ->
  let sz := map (@List.length nat) inds in n = list_sum sz ->
  (forall v i, (i < n)%nat -> mvec n H (refl_op mt s v) i = refl_op mt s (mvec n H v) i) -> 0 <= o_thr o ->
  symm_basis d o (sym_mat th) sz inds = Ok b -> symm_split o (Arr n n H) b = Ok (E, O) ->
  (0 < sb_even b)%nat /\ (0 < sb_odd b)%nat.
Proof.
  intros HP sz -> HC Ht Hb Hsp. unfold symm_basis, symm_split in *. destruct (o_sparse o).
  - destruct (C42_sparse_lem th _ _ inds mate mt s H (o_thr o) HP HC Ht) as (b' & B1 & _ & _ & B2).
    fold sz in B1. rewrite Hb in B1. injection B1 as <-.
    destruct (sb_even b) eqn:E1; [fold sz in B2; rewrite B2 in Hsp by auto; discriminate|].
    destruct (sb_odd b) eqn:E2; [fold sz in B2; rewrite B2 in Hsp by auto; discriminate|]. lia.
  - destruct (C42_dense_lem th _ _ inds mate mt s H (o_thr o) HP HC Ht) as (b' & B1 & _ & _ & B2).
    fold sz in B1. rewrite Hb in B1. injection B1 as <-.
    destruct (sb_even b) eqn:E1; [fold sz in B2; rewrite B2 in Hsp by auto; discriminate|].
    destruct (sb_odd b) eqn:E2; [fold sz in B2; rewrite B2 in Hsp by auto; discriminate|]. lia.
Qed.

Lemma parity_run d o ks an s s' y : o_symm o = Some y -> 0 <= o_thr o -> g_ind s = [] ->
  run' d o ks an s = (s', Ok tt) -> exists sy, g_symms s' = Some sy /\ List.length sy = List.length ks /\
  forall ik k th, nth_error ks ik = Some k -> nth_error an ik = Some th -> exists eps einv te tm mat,
    matrix_at root dl d o ks eps einv k te tm mat /\ g_einv s' = Some einv /\
    sorted_by_parity d o th (nth ik (g_ind s') []) mat (lower y) (nth ik (g_freqs s') []) (nth ik (g_vecs s') []) (nth ik sy []).
Proof.
  intros Ey Ht Hi H. pose proof (run_counted argsort eigh eigsh inv root dl d o ks an s Hi) as Hcnt. rewrite H in Hcnt. cbn [fst] in Hcnt.
  destruct (run_ok argsort eigh eigsh inv root dl d o ks an s s' H)
    as (refl & eps & einv & H1 & H2 & H3 & H4 & H5 & H6 & H7 & HI & HN & HD & sy & H8 & H9 & H9' & Q).
  exists sy. split; [exact H8|]. split; [apply H9'; congruence|]. intros ik k th Hk Hth.
  destruct (Q ik k Hk) as (garr & te & tm & T1 & T2 & T3).
  unfold k_result in T3. destruct T3 as [_ (mat & ms & K1 & K2 & K3 & K4 & K5 & K6)].
  exists eps, einv, te, tm, mat. split; [split; [exact H2|exists garr; split; [exact T1|exact K1]]|]. split; [exact H4|].
  assert (Hnum : nth ik (g_numg s') [] = map (@List.length nat) (nth ik (g_ind s') [])).
  { rewrite Hcnt. apply (map_nth (map (@List.length nat)) (g_ind s') [] ik). }
  intros mate mt sg HP T HC.
  rewrite Ey in K6. set (fs := nth ik (g_freqs s') []) in *. set (vs := nth ik (g_vecs s') []) in *.
  set (inds := nth ik (g_ind s') []) in *. set (l := nth ik sy []) in *.
  destruct K6 as [(_ & Z & _)|[(_ & Z & _)|(_ & y' & a & m & b & E & O & Z & G1 & G2 & G3 & G4 & G5)]]; [congruence|congruence|].
  assert (y' = y) by congruence. subst y'.
  unfold SymModel.get in G1. rewrite Hth in G1. injection G1 as <-.
  assert (m = sym_mat th) as ->.
  { unfold check in H1. rewrite Ey in H1. destruct (_ || _ || _)%bool; [|discriminate]. destruct an as [|a0 an']; [discriminate|].
    cbn [bind] in H1. destruct (refl_mats (lt_type (cell d)) (a0 :: an')) as [rf|] eqn:Er; [|discriminate]. cbn [bind] in H1.
    destruct (_ && _)%bool; [discriminate|]. injection H1 as <-.
    destruct (proj2 (refl_mats_inv _ _ _ Er) th (nth_error_In _ _ Hth)) as [_ X]. congruence. }
  pose proof (construct_herm _ _ _ _ _ _ _ _ _ _ _ _ K1) as HM.
  assert (Hn : nr mat = list_sum (map (@List.length nat) inds)).
  { rewrite <- Hnum, K4. apply (construct_size _ _ _ _ _ _ _ _ _ _ _ _ _ K1). rewrite <- K2. exact K3. }
  destruct HM as [HM1 HM2]. destruct mat as [n n' M]. cbn [nr nc ent] in *. subst n'.
  rewrite Hnum in G3.
  destruct (split_inv d o th inds mate mt sg n M b E O HP Hn HC Ht G3 G4) as [Pe Po].
  set (sz := map (@List.length nat) inds) in *. subst n.
  destruct (split_ready d o th inds mate mt sg M HP HM2 HC Ht) as (b' & B1 & R1 & R2 & R3 & R4 & R5).
  assert (b' = b) by (fold sz in B1; congruence). subst b'.
  fold sz in R1, R2, R3, R4.
  destruct (R5 Pe Po) as (E' & O' & S1 & S2 & S3 & S4 & S5 & S6).
  assert (Heo : (E', O') = (E, O)) by (fold sz in S1; congruence). injection Heo as -> ->.
  pose proof (T_ext d o th inds mate mt sg HP) as HT. fold sz in HT. fold T in HT, R4, S4.
  destruct (String.eqb (lower y) "both") eqn:E1.
  { destruct (both_any argsort eigh Hs He _ (sb_even b) (sb_odd b) T M b E O o R1 R2 eq_refl eq_refl S2 S3 R4 S4 S5 S6 HT K5)
      as [[X _]|(ls & W & idx & fs' & vs' & sy' & A1 & A2 & A3 & A4 & A5)]; [congruence|].
    rewrite G5 in A1. injection A1 as <- <- <-. exists ls, W, idx. split; [exact A2|]. split; [exact A4|]. split; [|exact A3].
    intros c Hc. destruct (A5 c Hc) as [[X Y]|[X Y]]; [left|right]; split; auto. }
  destruct (one_lem d o th inds mate mt sg M HP HM2 HC Ht argsort eigh Hs He) as (b2 & C1 & _ & C2).
  assert (b2 = b) by (fold sz in C1; congruence). subst b2.
  destruct (C2 Pe Po) as (E2 & O2 & D1 & D2 & D3 & D4 & D5). clear C2.
  assert (Heo : (E2, O2) = (E, O)) by (fold sz in D1; congruence). injection Heo as -> ->.
  fold sz in D2, D3. fold T in D2, D3.
  destruct (String.eqb (lower y) "odd") eqn:E2.
  - destruct G5 as [G5 G6]. destruct (Nat.lt_ge_cases (sb_odd b) (o_numeig o)) as [L|L]; [rewrite D5 in G5 by auto; discriminate|].
    destruct (D3 L) as (ls & W & idx & fs' & vs' & A1 & A2 & A3). rewrite G5 in A1. injection A1 as <- <-.
    assert (Hl : l = repeat (-1)%Z (o_numeig o)).
    { rewrite G6. f_equal. rewrite (reports_len _ _ _ _ _ _ _ A2). destruct A3 as (par & _ & X & _). exact X. }
    exists ls, W, idx. split; [exact A2|]. rewrite Hl. split; [apply repeat_length|]. split; [|split; [reflexivity|exact A3]].
    eapply one_parity; eauto.
  - destruct G5 as [G5 G6]. destruct (Nat.lt_ge_cases (sb_even b) (o_numeig o)) as [L|L]; [rewrite D4 in G5 by auto; discriminate|].
    destruct (D2 L) as (ls & W & idx & fs' & vs' & A1 & A2 & A3). rewrite G5 in A1. injection A1 as <- <-.
    assert (Hl : l = repeat 1%Z (o_numeig o)).
    { rewrite G6. f_equal. rewrite (reports_len _ _ _ _ _ _ _ A2). destruct A3 as (par & _ & X & _). exact X. }
    exists ls, W, idx. split; [exact A2|]. rewrite Hl. split; [apply repeat_length|]. split; [|split; [reflexivity|exact A3]].
    eapply one_parity; eauto.
Qed.
Lemma odd_run d o ks an s s' y : o_symm o = Some y -> lower y = "odd"%string -> 0 <= o_thr o -> g_ind s = [] ->
  run' d o ks an s = (s', Ok tt) ->
  forall ik k th, nth_error ks ik = Some k -> nth_error an ik = Some th -> exists eps einv te tm mat,
    matrix_at root dl d o ks eps einv k te tm mat /\
    forall mate mt sg, reflect_pairs th (dv_gvec d) (o_inds o) (nth ik (g_ind s') []) mate mt sg ->
    let T := refl_op mt sg in
    (forall v i, (i < nr mat)%nat -> mvec (nr mat) (ent mat) (T v) i = T (mvec (nr mat) (ent mat) v) i) ->
    exists ls W idx, reports (nr mat) (ent mat) ls W idx (nth ik (g_freqs s') []) (nth ik (g_vecs s') []) /\
      nearest_of_parity (nr mat) (o_numeig o) T (-1) W (fun j => Rabs (freq_of (nth j ls 0) - o_sigma o)) idx.
Proof.
  intros Ey El Ht Hi H ik k th Hk Hth. destruct (parity_run d o ks an s s' y Ey Ht Hi H) as (sy & _ & _ & Q).
  destruct (Q ik k th Hk Hth) as (eps & einv & te & tm & mat & M1 & _ & M2). exists eps, einv, te, tm, mat. split; [exact M1|].
  intros mate mt sg HP T HC. destruct (M2 mate mt sg HP HC) as (ls & W & idx & R1 & _ & _ & R2). rewrite El in R2. cbn in R2.
  exists ls, W, idx. split; [exact R1|]. apply R2.
Qed.
End Top.

(** a concrete search *)
Lemma nearest_ex argsort : sorts argsort -> find_nearest argsort [5; 2; 9] 8 2 = [2%nat; 0%nat].
Proof.
  intros Hs. destruct (nearest_ok argsort Hs [5; 2; 9] 8 2 ltac:(cbn; lia)) as [(N1 & N2 & N3 & N4) A].
  set (l := find_nearest argsort [5; 2; 9] 8 2) in *. destruct l as [|i [|j [|]]]; try discriminate.
  assert (D : forall n, (n < 3)%nat -> Rabs (nth n [5; 2; 9] 0 - 8) = nth n [3; 6; 1] 0).
  { intros [|[|[|n]]] Hn; try lia; cbn [nth]; [rewrite Rabs_left|rewrite Rabs_left|rewrite Rabs_right]; lra. }
  assert (Hi : (i < 3)%nat) by (apply N3; left; auto). assert (Hj : (j < 3)%nat) by (apply N3; right; left; auto).
  assert (Hij : i <> j) by (inversion N2 as [|? ? X]; subst; intros ->; apply X; left; auto).
  specialize (A 0%nat 1%nat ltac:(cbn; lia)). cbn [map nth] in A.
  change (match i with 0%nat => 5 | 1%nat => 2 | _ => _ end) with (nth i [5; 2; 9] 0) in A.
  change (match j with 0%nat => 5 | 1%nat => 2 | _ => _ end) with (nth j [5; 2; 9] 0) in A.
  rewrite !D in A by auto.
  assert (F : i <> 1%nat /\ j <> 1%nat).
  { split; intros ->.
    - destruct j as [|[|[|j]]]; cbn in A; try lia; lra.
    - destruct i as [|[|[|i]]]; cbn in A; try lia.
      + specialize (N4 1%nat 2%nat ltac:(right; left; auto) ltac:(cbn; lia) ltac:(intros [E|[E|[]]]; discriminate)).
        rewrite !D in N4 by lia. cbn in N4. lra.
      + specialize (N4 1%nat 0%nat ltac:(right; left; auto) ltac:(cbn; lia) ltac:(intros [E|[E|[]]]; discriminate)).
        rewrite !D in N4 by lia. cbn in N4. lra. }
  destruct i as [|[|[|i]]], j as [|[|[|j]]]; try lia; auto; exfalso; cbn in A; lra.
Qed.
