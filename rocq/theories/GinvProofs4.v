(** A slab with one hole, in the middle or at the corner of the cell. *)
From Coq Require Import Permutation List.
From Verif Require Import Py CBase LatticeModel LatticeSpec LatticeProofs PhcModel PhcSpec PhcProofs2 PhcProofs3 PhcProofs4 RecipModel RecipSpec RecipProofs RecipProofs3 RecipProofs5 ShapesSpec ShapesModel ShapesProofs2 ShapesProofs3 MatElModel RunModel RunSpec RunProofs PweSpec PweModel PweProofs PweProofs2 PweProofs3 PweProofs4 PweProofs6 PweProofs7 LinProofs LinProofs2.
From Verif Require Import InvSpec InvProofs InvProofs2 InvProofs3 InvProofs4 InvProofs5 InvProofs6 GinvSpec GinvProofs3.
Open Scope R_scope.
Open Scope list_scope.

Lemma translation_run argsort eigh eigsh inv root dl : diagonalises eigh -> eigh_ascending eigh -> inverts inv ->
  forall args gmax d d' t o ks an s, lattice_init args = Ok (cell d) -> independent (lt_a1 (cell d)) (lt_a2 (cell d)) -> 0 <= gmax ->
  waves_of (cell d) (dv_tbt d) gmax (dv_rc d) -> each_layer (layer_usable d) d -> each_layer (layer_usable d') d' -> crystal_moved t d d' ->
  o_solver o = "eigh"%string -> o_symm o = None -> g_einv s = None ->
  let r := run argsort eigh eigsh inv root dl d o ks an s in let r' := run argsort eigh eigsh inv root dl d' o ks an s in
  g_freqs (fst r') = g_freqs (fst r) /\ (o_im o = false -> snd r' = snd r).
Proof.
  intros He Hs Hi args gmax d d' t o ks an s HL Ha Hg W U U' CM So Sy Ne.
  destruct (einv_moved inv (o_only o) args gmax d d' t Hi HL Ha Hg W U U' CM) as (u & Hu & E).
  pose proof (related_layers _ _ _ CM) as RL. pose proof CM as (E1 & E2 & E3 & E4 & _ & FL & _).
  apply (run_moved argsort eigh eigsh inv root dl u d d' o ks an s); auto.
  - unfold dv_gvec. rewrite E3. reflexivity.
  - unfold eps_list. rewrite E4. assert (M : forall f, (forall x y, layers_related (moved_on (difference_of (dv_gvec d)) t) d d' x y -> f y = f x) -> map f (all_layers (dv_phc d')) = map f (all_layers (dv_phc d)) :> list R).
    { intros f Hf. induction RL as [|x y l l' Hx RL IH]; [reflexivity|]. cbn [map]. rewrite IH, (Hf _ _ Hx). reflexivity. }
    rewrite !M; [reflexivity|intros x y H; apply H..].
  - unfold d_list. induction FL as [|x y l l' Hx FL IH]; [reflexivity|]. cbn [map]. rewrite IH. f_equal. apply Hx.
Qed.

(** one hole of radius 1/20 in a slab of permittivity 12 and thickness 1 in air *)
Definition holey (L : lattice) (c : R * R) : dev :=
  Dev (mkPhc L (shapes_layer (- 10 ^ 10) 0 1) (set_zmin (shapes_layer 0 (10 ^ 10) 1) 1)
         [append_shape (lt_ec_area L) (shapes_layer 0 1 12) (circle_shape bessel_J1 1 (fst c) (snd c) (1 / 20))] []) true (recip_tbt L 1) None.
Lemma uniform_usable L ly tbt0 P : lattice_init (LatName "square") = Ok L -> pc_lattice P = L -> ly_shapes ly = [] -> ly_epsb ly = 1 -> ly_epsavg ly = 1 ->
  layer_usable (Dev P tbt0 (recip_tbt L 1) None) ly.
Proof.
  intros HL EP Es Eb Ea. unfold layer_usable, transform, dv_gvec. cbn [dv_phc dv_rc dv_tbt]. rewrite EP. set (gs := rc_g (recip_tbt L 1)).
  assert (F : forall g, layer_ft_at (lt_ec_area L) ly g = if near_zero g then RtoC 1 else RtoC 0).
  { intros g. destruct (near_zero g) eqn:N.
    - rewrite layer_ft_zero by (apply near_zero_iff; auto). rewrite Ea. reflexivity.
    - rewrite layer_ft_nonzero by (intros Z; apply near_zero_iff in Z; congruence). rewrite Es. cbn [map]. unfold clsum. cbn [fold_right]. unfold Cdiv. ring. }
  destruct (square_nine L HL) as (Ln & ND & _). fold gs in Ln, ND.
  split; [|split].
  - intros g. unfold opp. apply layer_ft_herm. rewrite Es. intros s [].
  - exists mid. assert (M : forall i j, (i < List.length gs)%nat -> (j < List.length gs)%nat -> layer_ft_at (lt_ec_area L) ly (diff (nth i gs (0, 0)) (nth j gs (0, 0))) = mid i j).
    { intros i j Hi Hj. rewrite F. unfold mid. destruct (near_zero _) eqn:N.
      - apply near_zero_iff in N. apply (square_sep L 1 HL ltac:(lra)) in N; [|apply nth_In; auto..]. apply (proj1 (NoDup_nth gs (0, 0)) ND) in N; auto. subst. rewrite Nat.eqb_refl. reflexivity.
      - destruct (Nat.eqb_spec i j) as [->|_]; [|reflexivity]. exfalso. assert (Z : near_zero (diff (nth j gs (0, 0)) (nth j gs (0, 0))) = true); [|congruence].
        apply near_zero_iff. unfold is_g0, diff. cbn [fst snd]. rewrite !Rminus_diag_eq, Rabs_R0 by auto. rewrite Rplus_0_l. apply Rinv_0_lt_compat. simpl. lra. }
    apply (inverse_ext (List.length gs) mid); [intros; symmetry; apply M; auto|]. split; intros i j Hi Hj; apply mmul_id_l; auto.
  - intros _ g h _ _. left. rewrite F. destruct (near_zero g); reflexivity.
Qed.
Lemma half_real L g : lattice_init (LatName "square") = Ok L -> difference_of (rc_g (recip_tbt L 1)) g -> forall c, c = (0, 0) \/ c = (1 / 2, 1 / 2) ->
  sin (fst g * fst c + snd g * snd c) = 0.
Proof.
  intros HL (u & v & Hu & Hv & ->) c Hc. destruct (square_nine L HL) as (_ & _ & Inn). apply Inn in Hu, Hv. destruct Hu as (i & j & _ & _ & ->), Hv as (i' & j' & _ & _ & ->).
  unfold diff. destruct Hc as [->| ->]; cbn [fst snd].
  - rewrite !Rmult_0_r, Rplus_0_r. apply sin_0.
  - replace (_ + _) with (IZR (i - i' + (j - j')) * PI) by (rewrite plus_IZR, !minus_IZR; field). apply sin_eq_0_1. eexists. reflexivity.
Qed.
Lemma holey_real L c g : lattice_init (LatName "square") = Ok L -> c = (0, 0) \/ c = (1 / 2, 1 / 2) -> difference_of (rc_g (recip_tbt L 1)) g ->
  snd (lft L (filled (lt_ec_area L) 0 1 12 (circles bessel_J1 (hole_at c))) g) = 0.
Proof.
  intros HL Hc Hg. unfold lft. destruct (filled_form (lt_ec_area L) 0 1 12 (circles bessel_J1 (hole_at c))) as (S1 & B1 & _). destruct (square_area L HL) as (Ar & _).
  destruct (near_zero g) eqn:N.
  - rewrite layer_ft_zero by (apply near_zero_iff; auto). reflexivity.
  - rewrite layer_ft_nonzero by (intros Z; apply near_zero_iff in Z; congruence). rewrite S1, B1, Ar. cbn [circles hole_at map]. unfold clsum, contrib. cbn [fold_right].
    unfold circle_shape. cbn [sh_eps sh_ft fst snd]. unfold circle_ft. cbv zeta. unfold expi. replace (- fst g * fst c - snd g * snd c) with (- (fst g * fst c + snd g * snd c)) by ring.
    rewrite sin_neg, (half_real L g HL Hg c Hc). unfold Cdiv. rewrite <- RtoC_inv by lra. unfold Cmult, Cplus, RtoC. cbn [fst snd]. ring.
Qed.
Lemma holey_case L c : lattice_init (LatName "square") = Ok L -> c = (0, 0) \/ c = (1 / 2, 1 / 2) -> each_layer (layer_usable (holey L c)) (holey L c).
Proof.
  intros HL Hc. split; [|split].
  - apply uniform_usable; auto.
  - constructor; [|constructor]. unfold layer_usable, transform, dv_gvec, holey. cbn [dv_phc dv_rc dv_tbt pc_lattice]. destruct (hole_hyps c L HL) as (_ & I & _). split; [|split].
    + exact (filled_conj L 0 1 12 (circles bessel_J1 (hole_at c)) (circles_conj bessel_J1 (hole_at c))).
    + exact I.
    + intros _ g h Hg _. left. exact (holey_real L c g HL Hc Hg).
  - apply uniform_usable; auto.
Qed.
Lemma holey_moved L : lattice_init (LatName "square") = Ok L -> crystal_moved (1 / 2, 1 / 2) (holey L (0, 0)) (holey L (1 / 2, 1 / 2)).
Proof.
  intros HL. assert (Sep : forall g, difference_of (rc_g (recip_tbt L 1)) g -> is_g0 g -> g = (0, 0)).
  { intros g (u & v & Hu & Hv & ->) Z. apply (square_sep L 1 HL ltac:(lra)) in Z; auto. subst. unfold diff. f_equal; ring. }
  unfold crystal_moved, devices_related, layers_related, transform. cbn [holey dv_phc dv_tbt dv_rc dv_custom pc_lattice pc_clad_l pc_clad_u pc_layers].
  assert (UN : forall ly : layer, ly_shapes ly = [] -> moved_on (difference_of (dv_gvec (holey L (0, 0)))) (1 / 2, 1 / 2) (layer_ft_at (lt_ec_area L) ly) (layer_ft_at (lt_ec_area L) ly)).
  { intros ly Es g Hg. apply (moved_layer (lt_ec_area L) (difference_of (rc_g (recip_tbt L 1)))); auto. rewrite Es. constructor. }
  do 4 (split; [reflexivity|]). split; [repeat split; auto|]. split; [|repeat split; auto].
  constructor; [|constructor].
  pose proof (circle_area_moved bessel_J1 1 0 0 (1 / 20) (1 / 2) (1 / 2)) as AM. replace (0 + 1 / 2) with (1 / 2) in AM by ring.
  split; [reflexivity|]. split; [reflexivity|]. split; [cbn [append_shape ly_epsavg shapes_layer fst snd]; rewrite AM; reflexivity|].
  intros g Hg. apply (moved_layer (lt_ec_area L) (difference_of (rc_g (recip_tbt L 1)))); auto; [cbn [append_shape ly_epsavg shapes_layer fst snd]; rewrite AM; reflexivity|].
  constructor; [|constructor]. split; [reflexivity|]. intros h _. unfold circle_shape. cbn [fst snd sh_ft].
  pose proof (circle_translate bessel_J1 0 0 (1 / 20) (1 / 2) (1 / 2) h) as CT. replace (0 + 1 / 2) with (1 / 2) in CT by ring. exact CT.
Qed.
