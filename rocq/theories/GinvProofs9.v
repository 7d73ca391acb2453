(** Symmetries of the crystal and the guided-mode bands: the two truncations, and
    the slab with one hole. *)
From Coq Require Import Permutation List.
From Verif Require Import Py CBase LatticeModel LatticeProofs PhcModel PhcSpec PhcProofs2 RecipModel RecipSpec RecipProofs RecipProofs2 ShapesModel ShapesSpec MatElModel RunModel RunSpec RunProofs PweSpec PweProofs PweProofs7 InvSpec InvProofs InvProofs3 InvProofs4 InvProofs5 InvProofs6 InvProofs7 LatticeSpec.
From Verif Require Import GinvSpec GinvProofs3 GinvProofs4 GinvProofs6 GinvProofs8.
Open Scope R_scope.
Open Scope list_scope.

Lemma waves_distinct args L tbt gmax rc : lattice_init args = Ok L -> independent (lt_a1 L) (lt_a2 L) -> 0 <= gmax -> waves_of L tbt gmax rc -> NoDup (rc_g rc).
Proof.
  intros HL Ha Hg W. unfold waves_of in W. destruct tbt.
  - subst rc. destruct (tbt_set args L gmax HL Ha Hg) as (n1 & n2 & _ & _ & _ & _ & _ & ND & _). exact ND.
  - destruct W as (fuel & W). destruct (abs_set args L gmax fuel _ HL Ha Hg W) as (rc' & k & E & _ & ND & _). injection E as ->. exact ND.
Qed.
Lemma symmetry_run argsort eigh eigsh inv root : diagonalises eigh -> eigh_ascending eigh -> inverts inv ->
  forall args gmax d M o ks ks' an s, lattice_init args = Ok (cell d) -> independent (lt_a1 (cell d)) (lt_a2 (cell d)) -> 0 <= gmax ->
  waves_of (cell d) (dv_tbt d) gmax (dv_rc d) -> each_layer (layer_usable d) d ->
  linear_isometry M -> closed_under M (dv_gvec d) -> each_layer (fun ly => invariant_on (difference_of (dv_gvec d)) M (transform d ly)) d ->
  Forall2 (fun k k' => (fst k' + o_dgx o, snd k') = M (fst k + o_dgx o, snd k)) ks ks' ->
  (lower (o_compute o) = "interp"%string -> map len ks' = map len ks) -> o_solver o = "eigh"%string -> o_symm o = None -> g_einv s = None ->
  let r := run argsort eigh eigsh inv root 0 d o ks an s in let r' := run argsort eigh eigsh inv root 0 d o ks' an s in
  g_freqs (fst r') = g_freqs (fst r) /\ (o_im o = false -> snd r' = snd r).
Proof.
  intros He Hs Hi args gmax d M o ks ks' an s HL Ha Hg W U HM HC HV K KL So Sy Ne.
  destruct (closed_perm M (dv_gvec d) HM (waves_distinct _ _ _ _ _ HL Ha Hg W) HC) as (sg & P & E).
  apply (run_turn argsort eigh eigsh inv root He Hs d o M sg HM P E); auto.
  - apply (einv_herm inv (o_only o) args gmax d Hi HL Ha Hg W U).
  - apply (einv_sym inv (o_only o) args gmax d M sg Hi HL Ha Hg W U HM HV P E).
  - intros IM. unfold interp_modes in IM. apply String.eqb_eq in IM. specialize (KL IM). clear -KL. revert ks' KL. induction ks as [|k ks IH]; intros [|k' ks'] H; try discriminate; [reflexivity|].
    injection H as H1 H2. cbn [map]. rewrite (IH _ H2). f_equal. unfold len in H1. first [exact H1|simpl in *; rewrite !Rmult_1_r in H1; exact H1].
Qed.
Lemma symmetry_run0 argsort eigh eigsh inv root : diagonalises eigh -> eigh_ascending eigh -> inverts inv ->
  forall args gmax d M o ks an s, lattice_init args = Ok (cell d) -> independent (lt_a1 (cell d)) (lt_a2 (cell d)) -> 0 <= gmax ->
  waves_of (cell d) (dv_tbt d) gmax (dv_rc d) -> each_layer (layer_usable d) d ->
  linear_isometry M -> closed_under M (dv_gvec d) -> each_layer (fun ly => invariant_on (difference_of (dv_gvec d)) M (transform d ly)) d ->
  M (o_dgx o, 0) = (o_dgx o, 0) -> o_solver o = "eigh"%string -> o_symm o = None -> g_einv s = None ->
  let r := run argsort eigh eigsh inv root 0 d o ks an s in let r' := run argsort eigh eigsh inv root 0 d o (map M ks) an s in
  g_freqs (fst r') = g_freqs (fst r) /\ (o_im o = false -> snd r' = snd r).
Proof.
  intros He Hs Hi args gmax d M o ks an s HL Ha Hg W U HM HC HV K So Sy Ne.
  apply (symmetry_run argsort eigh eigsh inv root He Hs Hi args gmax d M o ks (map M ks) an s HL Ha Hg W U HM HC HV); auto.
  - induction ks as [|k ks IH]; constructor; auto. pose proof (proj1 HM k (o_dgx o, 0)) as A. rewrite K in A. cbn [fst snd] in A. rewrite !Rplus_0_r in A. symmetry. exact A.
  - intros _. rewrite map_map. apply map_ext. intros k. pose proof (proj2 HM k k) as I. unfold len. unfold inner in I. f_equal. first [exact I | simpl in *; lra].
Qed.
(** on a named lattice the plane waves of 'abs' are closed under every symmetry of
    the lattice, when no lattice vector lies on the circle *)
Lemma abs_closed name L gmax rc M : lattice_init (LatName name) = Ok L -> independent (lt_a1 L) (lt_a2 L) -> 0 <= gmax -> waves_of L false gmax rc ->
  (forall g, in_lattice (lt_b1 L) (lt_b2 L) g -> len g <> 2 * PI * gmax) ->
  linear_isometry M -> (forall g, in_lattice (lt_b1 L) (lt_b2 L) g -> in_lattice (lt_b1 L) (lt_b2 L) (M g)) -> closed_under M (rc_g rc).
Proof.
  intros HL Ha Hg (fuel & W) Gen HM HC. destruct (abs_set _ L gmax fuel _ HL Ha Hg W) as (rc' & k & E & Kz & _ & _ & _ & S). injection E as <-.
  destruct Kz as [->|(g & G1 & G2)]; [|exfalso; apply (Gen g); auto]. cbn [INR] in S. unfold Rdiv in S. rewrite Rmult_0_l, Rplus_0_r in S.
  assert (Q : gmax <= sqrt 3 * gmax). { assert (1 <= sqrt 3) by (rewrite <- sqrt_1 at 1; apply sqrt_le_1_alt; lra). nra. }
  destruct (named_condition name L gmax gmax HL Hg Q) as (C1 & C2). destruct (S C1 C2) as (_ & _ & SS).
  intros g Hg'. apply SS; auto. intros h Hh. split; [apply HC; auto|]. unfold len. pose proof (proj2 HM h h) as I. unfold inner in I. f_equal.
  first [exact I | simpl in *; lra | nra].
Qed.
Lemma holey_turn L : lattice_init (LatName "square") = Ok L -> let d := holey L (0, 0) in
  closed_under quarter (dv_gvec d) /\ each_layer (fun ly => invariant_on (difference_of (dv_gvec d)) quarter (transform d ly)) d.
Proof.
  intros HL d. pose proof (quarter_closed L HL) as QC. split; [exact QC|].
  assert (Sep : forall g g', In g (rc_g (recip_tbt L 1)) -> In g' (rc_g (recip_tbt L 1)) -> is_g0 (diff g g') -> g = g') by (intros g g' Hg Hg' Z; apply (square_sep L 1 HL ltac:(lra)); auto).
  assert (UN : forall z1 z2 z3, invariant_on (difference_of (rc_g (recip_tbt L 1))) quarter (layer_ft_at (lt_ec_area L) (set_zmin (shapes_layer z1 z2 1) z3)) /\
      invariant_on (difference_of (rc_g (recip_tbt L 1))) quarter (layer_ft_at (lt_ec_area L) (shapes_layer z1 z2 1))).
  { intros. split; exact (centred_inv L bessel_J1 z1 z2 1 [] quarter _ quarter_iso QC (Forall_nil _) Sep). }
  split; [apply (UN (- 10 ^ 10) 0 0)|]. split; [|apply (UN 0 (10 ^ 10) 1)].
  constructor; [|constructor]. refine (centred_inv L bessel_J1 0 1 12 [(1, (0, 0), 1 / 20)] quarter _ quarter_iso QC _ Sep). constructor; [reflexivity|constructor].
Qed.
