(** Repeated runs, failing runs, the square lattice. *)
From Coq Require Import Permutation List.
From Verif Require Import Py CBase LatticeModel LatticeSpec LatticeProofs PhcModel PhcSpec PhcProofs3 RecipModel RecipSpec RecipProofs RecipProofs3 RecipProofs5 MatElModel FieldsSpec FieldsModel FieldsProofs2 RunModel RunSpec RunProofs PweSpec PweModel PweProofs PweProofs2 PweProofs3 PweProofs4 PweProofs5 PweProofs6.
Open Scope R_scope.
Open Scope list_scope.

(** distinct plane waves of the square lattice are far apart *)
Lemma square_sep L gmax : lattice_init (LatName "square") = Ok L -> 0 <= gmax ->
  forall g g', In g (rc_g (recip_tbt L gmax)) -> In g' (rc_g (recip_tbt L gmax)) -> is_g0 (diff g g') -> g = g'.
Proof.
  intros HL Hg g g' H H' Zr. pose proof (named_independent _ _ HL) as Hi. destruct (square_b L HL) as [B1 B2].
  destruct (tbt_set _ L gmax HL Hi Hg) as (n1 & n2 & _ & _ & _ & _ & _ & _ & _ & Inn & _).
  apply Inn in H, H'. destruct H as (i & j & _ & _ & ->), H' as (i' & j' & _ & _ & ->).
  unfold is_g0, diff, comb in Zr. rewrite B1, B2 in Zr. cbn [fst snd] in Zr. unfold comb. rewrite B1, B2. cbn [fst snd].
  assert (P : / 10 ^ 10 < 2 * PI).
  { pose proof PI2_1. assert (/ 10 ^ 10 < / 1) by (apply Rinv_lt_contravar; simpl; lra). lra. }
  assert (K : forall a b : Z, Rabs (IZR (a - b) * (2 * PI)) < / 10 ^ 10 -> a = b).
  { intros a b X. destruct (Z.eq_dec a b); auto. exfalso. rewrite Rabs_mult, (Rabs_pos_eq (2 * PI)) in X by (pose proof PI_RGT_0; lra).
    assert (1 <= Rabs (IZR (a - b))) by (rewrite <- abs_IZR; apply IZR_le; lia). pose proof PI_RGT_0. nra. }
  assert (i = i').
  { apply K. eapply Rle_lt_trans; [|exact Zr]. rewrite minus_IZR.
    replace (IZR i * (2 * PI) + IZR j * 0 - (IZR i' * (2 * PI) + IZR j' * 0)) with ((IZR i - IZR i') * (2 * PI)) by ring.
    match goal with |- ?a <= ?a + ?b => assert (0 <= b) by apply Rabs_pos; lra end. }
  assert (j = j').
  { apply K. eapply Rle_lt_trans; [|exact Zr]. rewrite minus_IZR.
    replace (IZR i * 0 + IZR j * (2 * PI) - (IZR i' * 0 + IZR j' * (2 * PI))) with ((IZR j - IZR j') * (2 * PI)) by ring.
    match goal with |- ?a <= ?b + ?a => assert (0 <= b) by apply Rabs_pos; lra end. }
  subst. reflexivity.
Qed.

(** the objects a user can hold: created once, then run any number of times *)
Inductive reachable argsort eigh inv L ly gmax e : pwe -> Prop :=
| R_init : reachable argsort eigh inv L ly gmax e (pwe_init L ly gmax e)
| R_run s ks pol m : reachable argsort eigh inv L ly gmax e s -> reachable argsort eigh inv L ly gmax e (fst (pwe_run argsort eigh inv s ks pol m)).

Lemma run_static argsort eigh inv s ks pol m : let s' := fst (pwe_run argsort eigh inv s ks pol m) in
  pw_lat s' = pw_lat s /\ pw_layer s' = pw_layer s /\ pw_epseff s' = pw_epseff s /\ pw_rc s' = pw_rc s.
Proof.
  cbv zeta. unfold pwe_run. cbv zeta. destruct (pwe_loop _ _ _ _ _ _ _ _ _) as [vs [fs|ex]]; cbn [fst pw_lat pw_layer pw_epseff pw_rc]; auto.
Qed.
Lemma same_run argsort eigh inv s s2 ks pol m : pw_lat s = pw_lat s2 -> pw_layer s = pw_layer s2 -> pw_epseff s = pw_epseff s2 -> pw_rc s = pw_rc s2 ->
  snd (pwe_run argsort eigh inv s ks pol m) = snd (pwe_run argsort eigh inv s2 ks pol m) /\
  (snd (pwe_run argsort eigh inv s ks pol m) = Ok tt -> fst (pwe_run argsort eigh inv s ks pol m) = fst (pwe_run argsort eigh inv s2 ks pol m)).
Proof.
  intros E1 E2 E3 E4. unfold pwe_run. cbv zeta. rewrite E1, E2, E3, E4. cbn [pw_rc pw_lat pw_layer pw_epseff pw_freqs].
  set (T1 := pwe_T1 _ _ _). set (T2 := pwe_T2 _ _ _).
  set (sa := Pwe _ _ _ _ _ _ _ (Some _) _ _ (pw_freqs s) (pw_vecs s)). set (sb := Pwe _ _ _ _ _ _ _ (Some _) _ _ (pw_freqs s2) (pw_vecs s2)).
  change (pwe_eps_mat sb) with (pwe_eps_mat sa). set (B := inv _ _).
  assert (LE : forall ks fs vs, pwe_loop argsort eigh sb (lower pol) m B ks fs vs = pwe_loop argsort eigh sa (lower pol) m B ks fs vs).
  { induction ks0 as [|k t IH]; intros fs vs; cbn [pwe_loop]; [reflexivity|].
    change (pwe_one argsort eigh sb (lower pol) m B k) with (pwe_one argsort eigh sa (lower pol) m B k).
    destruct (pwe_one argsort eigh sa (lower pol) m B k) as [[f v]|]; auto. }
  rewrite LE. destruct (pwe_loop argsort eigh sa (lower pol) m B ks [] []) as [vs [fs|ex]]; cbn [fst snd]; split; auto; intros; discriminate.
Qed.
Lemma rerun argsort eigh inv L ly gmax e s ks pol m : reachable argsort eigh inv L ly gmax e s ->
  snd (pwe_run argsort eigh inv s ks pol m) = snd (pwe_run argsort eigh inv (pwe_init L ly gmax e) ks pol m) /\
  (snd (pwe_run argsort eigh inv s ks pol m) = Ok tt ->
   fst (pwe_run argsort eigh inv s ks pol m) = fst (pwe_run argsort eigh inv (pwe_init L ly gmax e) ks pol m)).
Proof.
  intros H. assert (St : pw_lat s = L /\ pw_layer s = ly /\ pw_epseff s = pw_epseff (pwe_init L ly gmax e) /\ pw_rc s = recip_tbt L gmax).
  { induction H as [|s ks0 pol0 m0 H IH]; [auto|]. destruct (run_static argsort eigh inv s ks0 pol0 m0) as (A & B & C & D). destruct IH as (A' & B' & C' & D'). rewrite A, B, C, D. auto. }
  destruct St as (A & B & C & D). apply same_run; auto.
Qed.

(** errors: an unknown polarisation, no k-point *)
Lemma bad_pol argsort eigh inv s k ks pol m : lower pol <> "te"%string -> lower pol <> "tm"%string ->
  let r := pwe_run argsort eigh inv s (k :: ks) pol m in
  snd r = Raise ValueError /\ pw_freqs (fst r) = pw_freqs s /\ pw_vecs (fst r) = Some [] /\ pw_pol (fst r) = Some (lower pol).
Proof.
  intros H1 H2. cbv zeta. unfold pwe_run. cbv zeta. cbn [pwe_loop]. unfold pwe_one at 1 2 3 4.
  rewrite (proj2 (String.eqb_neq _ _) H1), (proj2 (String.eqb_neq _ _) H2). cbn [fst snd pw_freqs pw_vecs pw_pol]. auto.
Qed.
Lemma no_k argsort eigh inv s pol m : let r := pwe_run argsort eigh inv s [] pol m in
  snd r = Raise UnboundLocalError /\ pw_freqs (fst r) = Some [] /\ pw_vecs (fst r) = Some [].
Proof. cbv zeta. unfold pwe_run. cbv zeta. cbn [pwe_loop fst snd pw_freqs pw_vecs]. auto. Qed.

(** before a run there is nothing to read *)
Lemma field_before_run L ly gmax e dl field kind mind : pwe_ft_field dl (pwe_init L ly gmax e) field kind mind = Raise AttributeError.
Proof. reflexivity. Qed.

Lemma eps_eff_example : exists L ly e e', lattice_init (LatName "square") = Ok L /\ e <> e' /\
  pw_epseff (pwe_init L ly 3 (Some e)) <> pw_epseff (pwe_init L ly 3 (Some e')) /\
  forall argsort eigh inv ks pol m, pw_freqs (fst (pwe_run argsort eigh inv (pwe_init L ly 3 (Some e)) ks pol m)) = pw_freqs (fst (pwe_run argsort eigh inv (pwe_init L ly 3 (Some e')) ks pol m)).
Proof.
  destruct one_wave as (L & HL & _). exists L, (slab_of 12), 2, 5. split; [exact HL|]. split; [lra|]. split.
  - unfold pwe_init. cbn [pw_epseff]. rewrite !(proj2 (Reqb_false _ _)) by lra. lra.
  - intros. apply eps_eff_unused.
Qed.

(** the permittivity matrix of a uniform layer meets the hypotheses of [bands] *)
Lemma uniform_hyps : exists L, lattice_init (LatName "square") = Ok L /\ independent (lt_a1 L) (lt_a2 L) /\
  conj_symmetric (lft L (slab_of 12)) /\
  let gs := rc_g (recip_tbt L 3) in let n := List.length gs in
  (1 < n)%nat /\ (exists B, is_inverse n (ft_matrix (lft L (slab_of 12)) gs) B) /\ psd n (ft_matrix (lft L (slab_of 12)) gs).
Proof.
  destruct one_wave as (L & HL & Hi & _). exists L. split; [exact HL|]. split; [exact Hi|]. split; [apply uniform_conj|]. cbv zeta.
  set (gs := rc_g (recip_tbt L 3)).
  destruct (tbt_set _ L 3 HL Hi ltac:(lra)) as (n1 & n2 & I1 & I2 & _ & _ & Ln & ND & _). fold gs in Ln, ND.
  destruct (square_b L HL) as [B1 B2]. pose proof PI_RGT_0 as HP.
  assert (LB : len (lt_b1 L) = 2 * PI).
  { rewrite B1. unfold len, LatticeSpec.inner. cbn [fst snd]. replace (2 * PI * (2 * PI) + 0 * 0) with ((2 * PI) * (2 * PI)) by ring. apply sqrt_square. lra. }
  rewrite LB in I1. replace (2 * PI * 3 / (2 * PI)) with 3 in I1 by (field; apply PI_neq0).
  assert (n1 <> 0)%nat by (intros ->; destruct I1 as [_ I1]; simpl in I1; lra).
  pose proof (uniform_matrix L 12 0 1 gs ND (square_sep L 3 HL ltac:(lra))) as UM.
  split; [rewrite Ln; nia|]. split; [eexists; apply (delta_inverse _ 12); [lra|exact UM]|].
  intros v. unfold cdot. apply fst_csum_nonneg. intros i Hi'. unfold mvec. rewrite (csum_single _ i); auto.
  - unfold slab_of. rewrite UM, Nat.eqb_refl by auto.
    replace (Cconj (v i) * (RtoC 12 * v i))%C with (RtoC 12 * (v i * Cconj (v i)))%C by ring. rewrite Cconj_mod, <- RtoC_mult. simpl. nra.
  - intros j Hj Hne. unfold slab_of. rewrite UM by auto. destruct (Nat.eqb_spec i j); [congruence|ring].
Qed.
