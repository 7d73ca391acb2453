(** Layers of circles; a pattern that meets the hypotheses. *)
From Coq Require Import Permutation List.
From Verif Require Import Py CBase LatticeModel LatticeSpec LatticeProofs PhcModel PhcSpec PhcProofs2 PhcProofs3 PhcProofs4 RecipModel RecipSpec RecipProofs RecipProofs3 RecipProofs5 ShapesSpec ShapesModel ShapesProofs2 ShapesProofs3 MatElModel RunModel RunSpec RunProofs PweSpec PweModel PweProofs PweProofs2 PweProofs3 PweProofs4 PweProofs6 PweProofs7 LinProofs LinProofs2.
From Verif Require Import InvSpec InvProofs InvProofs2 InvProofs3 InvProofs4 InvProofs5.
Open Scope R_scope.
Open Scope list_scope.

Lemma circle_shape_conj j1 e x y r : conj_symmetric (sh_ft (circle_shape j1 e x y r)).
Proof. intros g. exact (circle_conj j1 x y r g). Qed.
(** (permittivity, centre, radius) *)
Definition circles (j1 : R -> R) (cs : list (R * (R * R) * R)) : list shape :=
  map (fun c => circle_shape j1 (fst (fst c)) (fst (snd (fst c))) (snd (snd (fst c))) (snd c)) cs.
Lemma circles_conj j1 cs s : In s (circles j1 cs) -> conj_symmetric (sh_ft s).
Proof. intros H. apply in_map_iff in H. destruct H as (c & <- & _). apply circle_shape_conj. Qed.
Lemma circle_area_moved j1 e x y r tx ty : sh_area (circle_shape j1 e (x + tx) (y + ty) r) = sh_area (circle_shape j1 e x y r).
Proof.
  unfold circle_shape. cbn [sh_area]. rewrite circle_translate. cbn [fst snd]. replace (- (0 * tx + 0 * ty)) with 0 by ring.
  rewrite expi_0, Cmult_1_l. reflexivity.
Qed.
(** C131 for circles *)
Lemma moved_circles argsort eigh inv : sorts argsort -> diagonalises eigh -> inverts inv ->
  forall args L j1 z1 z2 eb cs t gmax e ks pol m, lattice_init args = Ok L -> independent (lt_a1 L) (lt_a2 L) -> 0 <= gmax ->
  lower pol = "te"%string \/ lower pol = "tm"%string ->
  let gs := rc_g (recip_tbt L gmax) in let n := List.length gs in
  let ly := filled (lt_ec_area L) z1 z2 eb (circles j1 cs) in
  let ly' := filled (lt_ec_area L) z1 z2 eb (circles j1 (map (moved_by t) cs)) in
  let eps := ft_matrix (lft L ly) gs in
  (forall g g', In g gs -> In g' gs -> is_g0 (diff g g') -> g = g') ->
  (exists B, is_inverse n eps B) -> psd n eps ->
  exists fs, pw_freqs (fst (pwe_run argsort eigh inv (pwe_init L ly gmax e) ks pol m)) = Some fs /\
    pw_freqs (fst (pwe_run argsort eigh inv (pwe_init L ly' gmax e) ks pol m)) = Some fs.
Proof.
  intros Hs He Hi args L j1 z1 z2 eb cs t gmax e ks pol m HL Hind Hg Hpol gs n ly ly' eps Sep HB HP.
  destruct (filled_form (lt_ec_area L) z1 z2 eb (circles j1 cs)) as (S1 & B1 & A1).
  destruct (filled_form (lt_ec_area L) z1 z2 eb (circles j1 (map (moved_by t) cs))) as (S2 & B2 & A2).
  apply (translation argsort eigh inv Hs He Hi args L ly ly' t gmax e ks pol m HL Hind Hg); auto.
  - apply filled_conj. intros s. apply circles_conj.
  - apply filled_conj. intros s. apply circles_conj.
  - unfold ly, ly'. rewrite B1, B2. reflexivity.
  - unfold ly, ly'. rewrite A1, A2. f_equal. f_equal. unfold circles. rewrite !map_map. apply map_ext. intros c.
    unfold moved_by. cbn [fst snd]. rewrite circle_area_moved. reflexivity.
  - unfold ly, ly'. rewrite S1, S2. unfold circles. clear. induction cs as [|c cs IH]; [constructor|]. cbn [map]. constructor; [|exact IH].
    split; [reflexivity|]. intros g _. unfold moved_by, circle_shape. cbn [fst snd sh_ft]. rewrite circle_translate. reflexivity.
Qed.

(** ** small circles *)
Lemma circle_mod x y r g : 0 < r -> (sqrt (Rabs (fst g ^ 2) + Rabs (snd g ^ 2)) + 1 / 10 ^ 10) * r <= 1 ->
  Cmod (circle_ft bessel_J1 x y r g) <= PI * (r * r) * (7 / 6).
Proof.
  intros Hr H. unfold circle_ft. set (q := sqrt (Rabs (fst g ^ 2) + Rabs (snd g ^ 2)) + 1 / 10 ^ 10) in *.
  assert (Q : 0 < q) by (unfold q; pose proof (sqrt_pos (Rabs (fst g ^ 2) + Rabs (snd g ^ 2))); assert (0 < 1 / 10 ^ 10) by (apply Rdiv_lt_0_compat; simpl; lra); lra).
  clearbody q. rewrite Cmod_mult. assert (E1 : forall a, Cmod (expi a) = 1).
  { intros a. unfold Cmod, expi. cbn [fst snd]. rewrite <- sqrt_1. f_equal. pose proof (sin2_cos2 a). unfold Rsqr in *. simpl. lra. }
  rewrite E1, Cmod_R, Rmult_1_l. pose proof PI_RGT_0 as HPi. assert (X : 0 < q * r <= 1) by (split; [apply Rmult_lt_0_compat; auto|auto]).
  pose proof (j1_bound (q * r) ltac:(lra)) as J. set (x0 := q * r) in *.
  assert (J' : Rabs (bessel_J1 x0) <= x0 * (7 / 12)).
  { pose proof (Rle_abs (bessel_J1 x0 - x0 / 2)). pose proof (Rle_abs (- (bessel_J1 x0 - x0 / 2))). rewrite Rabs_Ropp in *. apply Rabs_le. assert (x0 * (x0 * x0) <= x0 * 1) by (apply Rmult_le_compat_l; nra). replace (x0 ^ 3) with (x0 * (x0 * x0)) in * by ring. split; lra. }
  rewrite Rabs_mult, (Rabs_pos_eq (r * 2 * PI / q)) by (left; apply Rdiv_lt_0_compat; [nra|auto]).
  apply Rle_trans with (r * 2 * PI / q * (x0 * (7 / 12))).
  - apply Rmult_le_compat_l; [left; apply Rdiv_lt_0_compat; [nra|auto]|exact J'].
  - unfold x0. right. field. lra.
Qed.
(** one hole of radius 1/20 in permittivity 12, anywhere in the square cell *)
Definition hole_at (c : R * R) : list (R * (R * R) * R) := [(1, c, 1 / 20)].
Lemma square_nine L : lattice_init (LatName "square") = Ok L ->
  List.length (rc_g (recip_tbt L 1)) = 9%nat /\ NoDup (rc_g (recip_tbt L 1)) /\
  forall g, In g (rc_g (recip_tbt L 1)) <-> exists i j, (Z.abs i <= 1)%Z /\ (Z.abs j <= 1)%Z /\ g = (IZR i * (2 * PI), IZR j * (2 * PI)).
Proof.
  intros HL. destruct (square_area L HL) as (_ & Hi & B1 & B2 & L1 & L2).
  destruct (tbt_set _ L 1 HL Hi ltac:(lra)) as (n1 & n2 & I1 & I2 & _ & _ & Ln & ND & _ & Inn & _).
  pose proof PI_neq0 as P0. rewrite L1 in I1. rewrite L2 in I2. replace (2 * PI * 1 / (2 * PI)) with 1 in I1, I2 by (field; auto).
  assert (n1 = 1%nat) by (apply (int_part_unique 1); [auto|simpl; lra]). assert (n2 = 1%nat) by (apply (int_part_unique 1); [auto|simpl; lra]). subst.
  split; [exact Ln|]. split; [exact ND|]. intros g. rewrite Inn. unfold comb. rewrite B1, B2. cbn [fst snd].
  split; intros (i & j & H1 & H2 & ->); exists i, j; (split; [exact H1|]; split; [exact H2|]); f_equal; ring.
Qed.
Lemma hole_hyps c L : lattice_init (LatName "square") = Ok L ->
  let gs := rc_g (recip_tbt L 1) in let n := List.length gs in let ly := filled (lt_ec_area L) 0 1 12 (circles bessel_J1 (hole_at c)) in
  n = 9%nat /\ (exists B, is_inverse n (ft_matrix (lft L ly) gs) B) /\ psd n (ft_matrix (lft L ly) gs).
Proof.
  intros HL gs n ly. destruct (square_nine L HL) as (Ln & ND & Inn). fold gs in Ln, ND, Inn. destruct (square_area L HL) as (Ar & Hi & _).
  destruct (filled_form (lt_ec_area L) 0 1 12 (circles bessel_J1 (hole_at c))) as (S1 & B1 & A1). fold ly in S1, B1, A1.
  pose proof PI_4 as P4. pose proof PI2_1 as P21. pose proof PI_RGT_0 as HPi.
  assert (C1 : conj_symmetric (lft L ly)) by (apply filled_conj; intros s; apply circles_conj).
  assert (Ee : 1 / 10 ^ 10 <= 1 / 1000) by (apply Rmult_le_compat_l; [lra|]; apply Rinv_le_contravar; simpl; lra).
  assert (PD : pos_def n (ft_matrix (lft L ly) gs)).
  { apply (dominant n _ (ly_epsavg ly) (1 / 5)).
    - lra.
    - unfold n. rewrite Ln, A1. cbn [circles hole_at map]. unfold total. cbn [fold_right]. unfold circle_shape at 1 2. cbn [sh_eps sh_area fst snd]. rewrite Ar.
      assert (M : Cmod (circle_ft bessel_J1 (fst c) (snd c) (1 / 20) (0, 0)) <= PI * (1 / 20 * (1 / 20)) * (7 / 6)).
      { apply circle_mod; [lra|]. cbn [fst snd]. replace (Rabs (0 ^ 2) + Rabs (0 ^ 2)) with 0 by (rewrite pow_i, Rabs_R0 by lia; ring). rewrite sqrt_0. lra. }
      pose proof (Rle_trans _ _ _ (Rmax_l _ _) (Rmax_Cmod (circle_ft bessel_J1 (fst c) (snd c) (1 / 20) (0, 0)))) as Q.
      pose proof (Rle_abs (fst (circle_ft bessel_J1 (fst c) (snd c) (1 / 20) (0, 0)))) as Q2. set (a0 := fst (circle_ft _ _ _ _ _)) in *. clearbody a0. simpl INR. lra.
    - intros i Hi'. unfold ft_matrix, lft. apply layer_ft_zero. unfold is_g0, diff. cbn [fst snd]. rewrite !Rminus_diag_eq, Rabs_R0 by auto. rewrite Rplus_0_l. apply Rinv_0_lt_compat. simpl. lra.
    - intros i j Hi' Hj Ne. unfold ft_matrix, lft. rewrite layer_ft_nonzero.
      2:{ intros Z. apply (square_sep L 1 HL ltac:(lra)) in Z; [|apply nth_In; auto..]. apply (proj1 (NoDup_nth gs (0, 0)) ND) in Z; auto. }
      rewrite S1, B1, Ar. cbn [circles hole_at map]. unfold clsum, contrib. cbn [fold_right]. unfold circle_shape. cbn [sh_eps sh_ft fst snd].
      unfold Cdiv. replace (/ RtoC 1)%C with (RtoC 1) by (rewrite <- RtoC_inv by lra; f_equal; field).
      rewrite Cplus_0_r, Cmult_1_r, Cmod_mult, Cmod_R.
      apply Rle_trans with (11 * (PI * (1 / 20 * (1 / 20)) * (7 / 6))); [|lra].
      replace (Rabs (1 - 12)) with 11 by (rewrite Rabs_left; lra). apply Rmult_le_compat_l; [lra|]. apply circle_mod; [lra|].
      assert (Gi : In (gat gs i) gs) by (apply nth_In; auto). assert (Gj : In (gat gs j) gs) by (apply nth_In; auto).
      apply Inn in Gi, Gj. destruct Gi as (a & b & Ha & Hb & ->), Gj as (a' & b' & Ha' & Hb' & ->). unfold diff. cbn [fst snd].
      assert (K : forall u w, (Z.abs u <= 1)%Z -> (Z.abs w <= 1)%Z -> Rabs ((IZR u * (2 * PI) - IZR w * (2 * PI)) ^ 2) <= 16 * (PI * PI)).
      { intros u w Hu Hw. replace (IZR u * (2 * PI) - IZR w * (2 * PI)) with (IZR (u - w) * (2 * PI)) by (rewrite minus_IZR; ring).
        rewrite Rabs_pos_eq by apply pow2_ge_0. assert (B : ((u - w) * (u - w) <= 4)%Z) by nia. apply IZR_le in B. rewrite mult_IZR in B.
        replace ((IZR (u - w) * (2 * PI)) ^ 2) with ((IZR (u - w) * IZR (u - w)) * (4 * (PI * PI))) by ring. apply Rle_trans with (4 * (4 * (PI * PI))); [|lra].
        apply Rmult_le_compat_r; [nra|exact B]. }
      pose proof (K a a' Ha Ha'). pose proof (K b b' Hb Hb').
      assert (SQ : sqrt (Rabs ((IZR a * (2 * PI) - IZR a' * (2 * PI)) ^ 2) + Rabs ((IZR b * (2 * PI) - IZR b' * (2 * PI)) ^ 2)) <= 19); [|lra].
      rewrite <- (sqrt_square 19) by lra. apply sqrt_le_1_alt. assert (PI <= 335 / 100) by (destruct (PI_ineq 2) as [_ HU]; unfold tg_alt, PI_tg in HU; simpl in HU; lra). nra. }
  assert (HH : herm_on n (ft_matrix (lft L ly) gs)). { intros i j _ _. unfold ft_matrix. rewrite <- C1. f_equal. unfold opp, diff. cbn [fst snd]. f_equal; ring. }
  split; [exact Ln|]. split; [apply pd_inverse; auto|apply pd_psd; auto].
Qed.
