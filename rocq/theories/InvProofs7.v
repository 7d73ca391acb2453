(** Symmetry of circles about the origin; scaled crystals (C134); periodicity in k (C136). *)
From Coq Require Import Permutation List.
From Verif Require Import Py CBase LatticeModel LatticeSpec LatticeProofs PhcModel PhcSpec PhcProofs2 PhcProofs3 PhcProofs4 RecipModel RecipSpec RecipProofs RecipProofs3 RecipProofs5 ShapesSpec ShapesModel ShapesProofs2 ShapesProofs3 MatElModel RunModel RunSpec RunProofs PweSpec PweModel PweProofs PweProofs2 PweProofs3 PweProofs4 PweProofs6 PweProofs7 LinProofs LinProofs2.
From Verif Require Import InvSpec InvProofs InvProofs2 InvProofs3 InvProofs4 InvProofs5 InvProofs6.
Open Scope R_scope.
Open Scope list_scope.

(** ** C133: concentric circles *)
Lemma iso_zero M : linear_isometry M -> forall u, M u = (0, 0) -> u = (0, 0).
Proof.
  intros [_ I] u E. pose proof (I u u) as H. rewrite E in H. unfold inner in H. cbn [fst snd] in H. destruct u as [a b]. cbn [fst snd] in H.
  pose proof (Rle_0_sqr a). pose proof (Rle_0_sqr b). unfold Rsqr in *. f_equal; apply Rsqr_0_uniq; unfold Rsqr; lra.
Qed.
Lemma circle_iso j1 r M : linear_isometry M -> forall g, circle_ft j1 0 0 r (M g) = circle_ft j1 0 0 r g.
Proof.
  intros [_ I] g. unfold circle_ft. pose proof (I g g) as H. unfold inner in H.
  replace (Rabs (fst (M g) ^ 2) + Rabs (snd (M g) ^ 2)) with (Rabs (fst g ^ 2) + Rabs (snd g ^ 2)).
  2:{ rewrite !Rabs_pos_eq by apply pow2_ge_0. simpl. lra. }
  f_equal. f_equal. ring.
Qed.
Definition centred (c : R * (R * R) * R) : Prop := snd (fst c) = (0, 0).
Lemma centred_inv L j1 z1 z2 eb cs M gs : linear_isometry M -> closed_under M gs -> Forall centred cs ->
  (forall g g', In g gs -> In g' gs -> is_g0 (diff g g') -> g = g') ->
  invariant_on (difference_of gs) M (lft L (filled (lt_ec_area L) z1 z2 eb (circles j1 cs))).
Proof.
  intros HM HC Ct Sep g (u & v & Hu & Hv & ->). unfold lft, layer_ft_at. destruct (filled_form (lt_ec_area L) z1 z2 eb (circles j1 cs)) as (-> & -> & ->).
  assert (NZ : near_zero (M (diff u v)) = near_zero (diff u v)).
  { assert (Q : forall a b, In a gs -> In b gs -> near_zero (diff a b) = true <-> a = b).
    { intros a b Ha Hb. rewrite near_zero_iff. split; [apply Sep; auto|]. intros ->. unfold is_g0, diff. cbn [fst snd]. rewrite !Rminus_diag_eq, Rabs_R0 by auto.
      rewrite Rplus_0_l. apply Rinv_0_lt_compat. simpl. lra. }
    rewrite (iso_diff M HM). pose proof (Q u v Hu Hv) as Q1. pose proof (Q (M u) (M v) (HC u Hu) (HC v Hv)) as Q2.
    destruct (near_zero (diff (M u) (M v))), (near_zero (diff u v)); auto.
    - assert (E : M u = M v) by (apply Q2; auto). apply (iso_inj M HM) in E. symmetry. apply Q1. auto.
    - apply Q2. f_equal. apply Q1. auto. }
  rewrite NZ. clear NZ. set (g := diff u v).
  assert (FE : forall a, fold_left (fun acc s => Cplus acc (Cmult (RtoC (sh_eps s - eb)) (sh_ft s (M g)))) (circles j1 cs) a =
     fold_left (fun acc s => Cplus acc (Cmult (RtoC (sh_eps s - eb)) (sh_ft s g))) (circles j1 cs) a).
  { clear - Ct HM. induction cs as [|c cs IH]; intros a; [reflexivity|]. apply Forall_cons_iff in Ct. destruct Ct as [C0 Ct].
    cbn [circles map fold_left]. fold (circles j1 cs). rewrite IH by auto. f_equal. f_equal. f_equal.
    unfold circle_shape. cbn [sh_ft]. rewrite C0. cbn [fst snd]. apply circle_iso; auto. }
  rewrite FE. reflexivity.
Qed.
Lemma centred_circles argsort eigh inv : sorts argsort -> diagonalises eigh -> inverts inv ->
  forall args L j1 z1 z2 eb cs M gmax e ks pol m, lattice_init args = Ok L -> independent (lt_a1 L) (lt_a2 L) -> 0 <= gmax ->
  lower pol = "te"%string \/ lower pol = "tm"%string -> Forall centred cs ->
  let gs := rc_g (recip_tbt L gmax) in let n := List.length gs in
  let ly := filled (lt_ec_area L) z1 z2 eb (circles j1 cs) in let eps := ft_matrix (lft L ly) gs in
  (forall g g', In g gs -> In g' gs -> is_g0 (diff g g') -> g = g') ->
  linear_isometry M -> closed_under M gs ->
  (exists B, is_inverse n eps B) -> psd n eps ->
  exists fs, pw_freqs (fst (pwe_run argsort eigh inv (pwe_init L ly gmax e) ks pol m)) = Some fs /\
    pw_freqs (fst (pwe_run argsort eigh inv (pwe_init L ly gmax e) (map M ks) pol m)) = Some fs.
Proof.
  intros Hs He Hi args L j1 z1 z2 eb cs M gmax e ks pol m HL Hind Hg Hpol Ct gs n ly eps Sep HM HC HB HP.
  apply (symmetry_op argsort eigh inv Hs He Hi args L ly M gmax e ks pol m HL Hind Hg); auto.
  - apply filled_conj. intros s. apply circles_conj.
  - apply centred_inv; auto.
Qed.
(** a quarter turn of the square lattice *)
Definition quarter (u : R * R) : R * R := (- snd u, fst u).
Lemma quarter_iso : linear_isometry quarter.
Proof. split; intros u v; unfold quarter, inner; cbn [fst snd]; [f_equal; ring|ring]. Qed.
Lemma quarter_closed L : lattice_init (LatName "square") = Ok L -> closed_under quarter (rc_g (recip_tbt L 1)).
Proof.
  intros HL g H. destruct (square_nine L HL) as (_ & _ & Inn). apply Inn in H. destruct H as (i & j & Hi & Hj & ->). apply Inn.
  exists (- j)%Z, i. split; [lia|]. split; [lia|]. unfold quarter. cbn [fst snd]. rewrite opp_IZR. f_equal; ring.
Qed.

(** the hexagonal lattice: the set of plane waves has no sixfold symmetry *)
Lemma rotate_iso t : linear_isometry (rotate t).
Proof.
  split; intros u v; unfold rotate, inner; cbn [fst snd]; [f_equal; ring|]. pose proof (sin2_cos2 t) as H. unfold Rsqr in H.
  set (c := cos t) in *. set (s := sin t) in *. clearbody c s.
  transitivity ((s * s + c * c) * (fst u * fst v + snd u * snd v)); [ring|rewrite H; ring].
Qed.
Lemma hex_sep L gs : lattice_init (LatName "hexagonal") = Ok L -> (forall g, In g gs -> in_lattice (lt_b1 L) (lt_b2 L) g) ->
  forall g g', In g gs -> In g' gs -> is_g0 (diff g g') -> g = g'.
Proof.
  intros HL Hin g g' H H' Zr. destruct (hex_b L HL) as [B1 B2]. pose proof sqrt3_pos as P3. pose proof sqrt3_sq as Q3.
  destruct (Hin g H) as (i & j & ->), (Hin g' H') as (i' & j' & ->).
  set (w := 2 * PI / sqrt 3) in *. assert (W : 1 < w).
  { unfold w. apply Rmult_lt_reg_r with (sqrt 3); [lra|]. unfold Rdiv. rewrite Rmult_assoc, Rinv_l, Rmult_1_r by lra. pose proof PI2_1. nra. }
  assert (e10 : / 10 ^ 10 < 1) by (rewrite <- Rinv_1; apply Rinv_lt_contravar; simpl; lra).
  unfold is_g0, diff, comb in Zr. rewrite B1, B2 in Zr. cbn [fst snd] in Zr.
  replace (IZR i * (2 * PI) + IZR j * (2 * PI) - (IZR i' * (2 * PI) + IZR j' * (2 * PI))) with (IZR ((i - i') + (j - j')) * (2 * PI)) in Zr by (rewrite plus_IZR, !minus_IZR; ring).
  replace (IZR i * w + IZR j * - w - (IZR i' * w + IZR j' * - w)) with (IZR ((i - i') - (j - j')) * w) in Zr by (rewrite !minus_IZR; ring).
  rewrite (Rabs_mult _ (2 * PI)), (Rabs_mult _ w), (Rabs_pos_eq (2 * PI)), (Rabs_pos_eq w) in Zr by (pose proof PI_RGT_0; lra).
  assert (K : forall a : Z, a <> 0%Z -> 1 <= Rabs (IZR a)) by (intros a Ha; rewrite <- abs_IZR; apply IZR_le; lia).
  pose proof (Rabs_pos (IZR ((i - i') + (j - j')))). pose proof (Rabs_pos (IZR ((i - i') - (j - j')))). pose proof PI2_1.
  assert (A1 : ((i - i') + (j - j'))%Z = 0%Z). { destruct (Z.eq_dec ((i - i') + (j - j')) 0) as [|N]; auto. apply K in N. nra. }
  assert (A2 : ((i - i') - (j - j'))%Z = 0%Z). { destruct (Z.eq_dec ((i - i') - (j - j')) 0) as [|N]; auto. apply K in N. nra. }
  assert (i = i') by lia. assert (j = j') by lia. subst. reflexivity.
Qed.
Lemma hexagonal_broken : exists L, lattice_init (LatName "hexagonal") = Ok L /\
  let M := rotate (PI / 3) in let gs := rc_g (recip_tbt L 2) in
  (forall g, in_lattice (lt_b1 L) (lt_b2 L) g -> in_lattice (lt_b1 L) (lt_b2 L) (M g)) /\
  exists k, forall argsort eigh inv, sorts argsort -> diagonalises eigh -> inverts inv ->
    exists fs fs', pw_freqs (fst (pwe_run argsort eigh inv (pwe_init L (shapes_layer 0 1 1) 2 None) [k] "te" 9)) = Some fs /\
      pw_freqs (fst (pwe_run argsort eigh inv (pwe_init L (shapes_layer 0 1 1) 2 None) [M k] "te" 9)) = Some fs' /\ fs <> fs'.
Proof.
  assert (E : exists L, lattice_init (LatName "hexagonal") = Ok L) by (eexists; reflexivity). destruct E as [L HL]. exists L. split; [exact HL|].
  pose proof (named_independent _ _ HL) as Hi. destruct (hex_b L HL) as [B1 B2]. pose proof sqrt3_pos as P3. pose proof sqrt3_sq as Q3. pose proof PI_RGT_0 as HPi.
  set (w := 2 * PI / sqrt 3) in *. assert (W : sqrt 3 * w = 2 * PI) by (unfold w; field; lra). assert (W2 : sqrt 3 * (2 * PI) = 3 * w).
  { rewrite <- W. transitivity ((sqrt 3 * sqrt 3) * w); [ring|]. rewrite Q3. ring. }
  assert (Wp : 0 < w) by (unfold w; apply Rdiv_lt_0_compat; lra). clearbody w.
  assert (WW : (2 * PI) * (2 * PI) = 3 * (w * w)) by (rewrite <- W; transitivity ((sqrt 3 * sqrt 3) * (w * w)); [ring|rewrite Q3; ring]).
  assert (Mx : forall i j : Z, rotate (PI / 3) (comb i j (lt_b1 L) (lt_b2 L)) = comb (i + j) (- i) (lt_b1 L) (lt_b2 L)).
  { intros i j. unfold rotate, comb. rewrite B1, B2, cos_PI3, sin_PI3. cbn [fst snd]. rewrite plus_IZR, opp_IZR.
    f_equal.
    - transitivity (1 / 2 * ((IZR i + IZR j) * (2 * PI)) - (IZR i - IZR j) / 2 * (sqrt 3 * w)); [field|]. rewrite W. field.
    - transitivity ((IZR i + IZR j) / 2 * (sqrt 3 * (2 * PI)) + 1 / 2 * ((IZR i - IZR j) * w)); [field|]. rewrite W2. field. }
  split.
  { intros g (i & j & ->). rewrite Mx. eexists. eexists. reflexivity. }
  set (gs := rc_g (recip_tbt L 2)). destruct (tbt_set _ L 2 HL Hi ltac:(lra)) as (n1 & n2 & I1 & I2 & _ & _ & Ln & ND & _ & Inn & _). fold gs in Ln, ND, Inn.
  assert (LB : len (lt_b1 L) = 2 * w /\ len (lt_b2 L) = 2 * w).
  { rewrite B1, B2. unfold len, inner. cbn [fst snd]. split; rewrite <- (sqrt_square (2 * w)) by lra; f_equal; lra. }
  destruct LB as [LB1 LB2]. rewrite LB1 in I1. rewrite LB2 in I2.
  assert (NN : forall n, integer_part (2 * PI * 2 / (2 * w)) n -> n = 1%nat).
  { intros n I. apply (int_part_unique _ _ _ I). assert (X : 2 * PI * 2 / (2 * w) = sqrt 3) by (rewrite <- W; field; lra). rewrite X. simpl INR. split; [nra|nra]. }
  apply NN in I1, I2. subst n1 n2.
  assert (Qf : forall i j : Z, inner (comb i j (lt_b1 L) (lt_b2 L)) (comb i j (lt_b1 L) (lt_b2 L)) = IZR (i * i + i * j + j * j) * (4 * (w * w))).
  { intros i j. unfold inner, comb. rewrite B1, B2. cbn [fst snd]. rewrite !plus_IZR, !mult_IZR.
    transitivity ((IZR i + IZR j) * (IZR i + IZR j) * ((2 * PI) * (2 * PI)) + (IZR i - IZR j) * (IZR i - IZR j) * (w * w)); [ring|]. rewrite WW. ring. }
  assert (Sep : forall g g', In g gs -> In g' gs -> is_g0 (diff g g') -> g = g').
  { apply (hex_sep L gs HL). intros g Hgin. apply Inn in Hgin. destruct Hgin as (i & j & _ & _ & ->). eexists; eexists; reflexivity. }
  exists (comb 1 1 (lt_b1 L) (lt_b2 L)). intros argsort eigh inv Hs He Hv.
  set (k := comb 1 1 (lt_b1 L) (lt_b2 L)).
  destruct (uniform_bands argsort eigh inv Hs He Hv _ L 1 0 1 2 None [k] "te" 9 HL Hi ltac:(lra) ltac:(lra) ltac:(discriminate) (or_introl eq_refl) Sep) as (s1 & f1 & v1 & -> & G1 & _ & L1 & _ & Sm1).
  destruct (uniform_bands argsort eigh inv Hs He Hv _ L 1 0 1 2 None [rotate (PI / 3) k] "te" 9 HL Hi ltac:(lra) ltac:(lra) ltac:(discriminate) (or_introl eq_refl) Sep) as (s2 & f2 & v2 & -> & G2 & _ & L2 & _ & Sm2).
  cbn [fst]. exists f1, f2. split; [exact G1|]. split; [exact G2|]. intros EQ. subst f2. fold gs in Sm1, Sm2.
  destruct (Sm1 0%nat k eq_refl) as (a1 & Pa & _ & Ea). destruct (Sm2 0%nat _ eq_refl) as (a2 & Pb & _ & Eb).
  assert (La : forall a : list R, List.length a = 9%nat -> firstn 9 a = a) by (intros a H; rewrite <- H; apply firstn_all).
  rewrite La in Ea by (rewrite (Permutation_length Pa), map_length; exact Ln). rewrite La in Eb by (rewrite (Permutation_length Pb), map_length; exact Ln).
  rewrite Ea in Eb. subst a2. pose proof (Permutation_trans (Permutation_sym Pa) Pb) as PP.
  assert (I0 : In k gs) by (apply Inn; exists 1%Z, 1%Z; split; [lia|]; split; [lia|reflexivity]).
  pose proof (Permutation_in _ PP (in_map (fun g => len (shifted k g) / (2 * PI * sqrt 1)) _ _ I0)) as IN. apply in_map_iff in IN. destruct IN as (g & Eq & Ig).
  apply Inn in Ig. destruct Ig as (i & j & Hi' & Hj' & ->). unfold k in Eq. rewrite Mx in Eq.
  assert (Ad : forall a b c d : Z, shifted (comb a b (lt_b1 L) (lt_b2 L)) (comb c d (lt_b1 L) (lt_b2 L)) = comb (a + c) (b + d) (lt_b1 L) (lt_b2 L)).
  { intros. unfold shifted, comb. cbn [fst snd]. rewrite !plus_IZR. f_equal; ring. }
  rewrite !Ad in Eq. rewrite sqrt_1, Rmult_1_r in Eq. unfold len in Eq. rewrite !Qf in Eq.
  assert (Eq2 : sqrt (IZR ((1 + 1 + i) * (1 + 1 + i) + (1 + 1 + i) * (- (1) + j) + (- (1) + j) * (- (1) + j)) * (4 * (w * w))) = sqrt (IZR ((1 + 1) * (1 + 1) + (1 + 1) * (1 + 1) + (1 + 1) * (1 + 1)) * (4 * (w * w)))).
  { apply (f_equal (fun x => x * (2 * PI))) in Eq. unfold Rdiv in Eq. rewrite !Rmult_assoc, Rinv_l, !Rmult_1_r in Eq by lra. exact Eq. }
  assert (PWW : 0 < 4 * (w * w)) by nra.
  assert (NQ : (0 <= (1 + 1 + i) * (1 + 1 + i) + (1 + 1 + i) * (- (1) + j) + (- (1) + j) * (- (1) + j) <= 9)%Z).
  { assert (Vi : (i = -1 \/ i = 0 \/ i = 1)%Z) by lia. assert (Vj : (j = -1 \/ j = 0 \/ j = 1)%Z) by lia.
    destruct Vi as [->|[->| ->]]; destruct Vj as [->|[->| ->]]; lia. }
  destruct NQ as [NQ1 NQ2]. apply IZR_le in NQ1, NQ2.
  apply sqrt_inj in Eq2; [|apply Rmult_le_pos; lra|apply Rmult_le_pos; [|lra]; apply IZR_le; lia].
  apply Rmult_eq_reg_r in Eq2; [|lra]. rewrite Eq2 in NQ2. apply le_IZR in NQ2. lia.
Qed.

(** ** C134: scaled crystals *)
Lemma scaled_lattice a1 a2 s L : 0 < s -> lattice_init (LatVecs a1 a2) = Ok L -> independent (lt_a1 L) (lt_a2 L) ->
  exists L', lattice_init (LatVecs (scale_by s a1) (scale_by s a2)) = Ok L' /\ independent (lt_a1 L') (lt_a2 L') /\
    lt_b1 L' = scale_by (/ s) (lt_b1 L) /\ lt_b2 L' = scale_by (/ s) (lt_b2 L) /\ lt_ec_area L' = s * s * lt_ec_area L.
Proof.
  intros Hs HL Hi. destruct (lattice_init (LatVecs (scale_by s a1) (scale_by s a2))) as [L'|ex] eqn:HL'.
  2:{ destruct a1 as [x1 y1], a2 as [x2 y2]. unfold lattice_init in HL'. cbn [parse_input scale_by fst snd] in HL'. destruct (Reqb _ _); discriminate. }
  exists L'. split; [reflexivity|]. destruct a1 as [x1 y1], a2 as [x2 y2]. unfold lattice_init in HL, HL'. cbn [parse_input scale_by fst snd] in HL, HL'.
  assert (EL : lt_a1 L = (x1, y1) /\ lt_a2 L = (x2, y2) /\ lt_b1 L = xy (scal_div3 (2 * PI) (dot3 (x1, y1, 0) (cross3 (x2, y2, 0) (0, 0, 1))) (cross3 (x2, y2, 0) (0, 0, 1))) /\
     lt_b2 L = xy (scal_div3 (2 * PI) (dot3 (x2, y2, 0) (cross3 (0, 0, 1) (x1, y1, 0))) (cross3 (0, 0, 1) (x1, y1, 0))) /\ lt_ec_area L = norm3 (cross3 (x1, y1, 0) (x2, y2, 0))).
  { destruct (Reqb _ _); injection HL as <-; cbn; auto. }
  assert (EL' : lt_a1 L' = (s * x1, s * y1) /\ lt_a2 L' = (s * x2, s * y2) /\ lt_b1 L' = xy (scal_div3 (2 * PI) (dot3 (s * x1, s * y1, 0) (cross3 (s * x2, s * y2, 0) (0, 0, 1))) (cross3 (s * x2, s * y2, 0) (0, 0, 1))) /\
     lt_b2 L' = xy (scal_div3 (2 * PI) (dot3 (s * x2, s * y2, 0) (cross3 (0, 0, 1) (s * x1, s * y1, 0))) (cross3 (0, 0, 1) (s * x1, s * y1, 0))) /\ lt_ec_area L' = norm3 (cross3 (s * x1, s * y1, 0) (s * x2, s * y2, 0))).
  { destruct (Reqb _ _) in HL'; injection HL' as <-; cbn; auto. }
  destruct EL as (A1 & A2 & B1 & B2 & Ar), EL' as (A1' & A2' & B1' & B2' & Ar'). rewrite A1, A2 in Hi. unfold independent, det in *. cbn [fst snd] in Hi.
  rewrite A1', A2', B1, B2, B1', B2', Ar, Ar'. unfold scal_div3, xy, cross3, dot3, scale_by, norm3. cbn [fst snd]. 
  assert (Hi2 : s * s * (x1 * y2 - y1 * x2) <> 0) by (apply Rmult_integral_contrapositive; split; [nra|exact Hi]).
  split; [|split; [|split]].
  - replace (s * x1 * (s * y2) - s * y1 * (s * x2)) with (s * s * (x1 * y2 - y1 * x2)) by ring. apply Rmult_integral_contrapositive. split; [nra|exact Hi].
  - f_equal; field; repeat split; try lra; try (intros Q; apply Hi; lra); intros Q; apply Hi2; lra.
  - f_equal; field; repeat split; try lra; try (intros Q; apply Hi; lra); intros Q; apply Hi2; lra.
  - unfold dot3. rewrite <- (sqrt_square (s * s)) at 1 by nra. rewrite <- sqrt_mult_alt by (apply Rle_0_sqr). f_equal. ring.
Qed.
Lemma scaled_waves L L' s gmax : 0 < s -> 0 <= gmax -> independent (lt_b1 L) (lt_b2 L) -> independent (lt_b1 L') (lt_b2 L') ->
  lt_b1 L' = scale_by (/ s) (lt_b1 L) -> lt_b2 L' = scale_by (/ s) (lt_b2 L) ->
  rc_g (recip_tbt L' (gmax / s)) = map (scale_by (/ s)) (rc_g (recip_tbt L gmax)).
Proof.
  intros Hs Hg Hi Hi' B1 B2. assert (Hg' : 0 <= gmax / s) by (apply Rmult_le_pos; [auto|left; apply Rinv_0_lt_compat; auto]).
  destruct (recip_tbt_form L gmax Hg Hi) as (n1 & n2 & I1 & I2 & -> & _). destruct (recip_tbt_form L' (gmax / s) Hg' Hi') as (m1 & m2 & J1 & J2 & -> & _).
  destruct (indep_len _ _ Hi) as [P1 P2].
  assert (LB : forall b, len (scale_by (/ s) b) = / s * len b).
  { intros b. unfold len, inner, scale_by. cbn [fst snd]. assert (0 < / s) by (apply Rinv_0_lt_compat; auto). rewrite <- (sqrt_square (/ s)) at 5 by lra. rewrite <- sqrt_mult_alt by nra. f_equal. ring. }
  rewrite B1, LB in J1. rewrite B2, LB in J2.
  replace (2 * PI * (gmax / s) / (/ s * len (lt_b1 L))) with (2 * PI * gmax / len (lt_b1 L)) in J1 by (field; lra).
  replace (2 * PI * (gmax / s) / (/ s * len (lt_b2 L))) with (2 * PI * gmax / len (lt_b2 L)) in J2 by (field; lra).
  rewrite (int_part_unique _ _ _ J1 I1), (int_part_unique _ _ _ J2 I2), map_map. apply map_ext. intros [i j]. unfold cmb, comb, scale_by. rewrite B1, B2. unfold scale_by. cbn [fst snd]. f_equal; ring.
Qed.
Lemma length_scaling argsort eigh inv : sorts argsort -> diagonalises eigh -> inverts inv ->
  forall a1 a2 s L L' ly ly' gmax e ks pol m, 0 < s -> lattice_init (LatVecs a1 a2) = Ok L -> independent (lt_a1 L) (lt_a2 L) -> 0 <= gmax ->
  lattice_init (LatVecs (scale_by s a1) (scale_by s a2)) = Ok L' ->
  conj_symmetric (lft L ly) -> conj_symmetric (lft L' ly') -> lower pol = "te"%string \/ lower pol = "tm"%string ->
  let gs := rc_g (recip_tbt L gmax) in let n := List.length gs in let eps := ft_matrix (lft L ly) gs in
  (forall g, difference_of gs g -> lft L' ly' (scale_by (/ s) g) = lft L ly g) ->
  (exists B, is_inverse n eps B) -> psd n eps ->
  exists fs, pw_freqs (fst (pwe_run argsort eigh inv (pwe_init L ly gmax e) ks pol m)) = Some fs /\
    pw_freqs (fst (pwe_run argsort eigh inv (pwe_init L' ly' (gmax / s) e) (map (scale_by (/ s)) ks) pol m)) = Some (map (map (Rmult (/ s))) fs).
Proof.
  intros Hs He Hi a1 a2 s L L' ly ly' gmax e ks pol m Hs0 HL Hind Hg HL' Hc Hc' Hpol gs n eps HF HB HP.
  destruct (scaled_lattice a1 a2 s L Hs0 HL Hind) as (L2 & HL2 & Hind' & B1 & B2 & _). rewrite HL2 in HL'. injection HL' as ->.
  assert (Hg' : 0 <= gmax / s) by (apply Rmult_le_pos; [auto|left; apply Rinv_0_lt_compat; auto]).
  pose proof (scaled_waves L L' s gmax Hs0 Hg (indep_recip _ _ HL Hind) (indep_recip _ _ HL2 Hind') B1 B2) as GS. fold gs in GS.
  assert (GA : forall i, (i < n)%nat -> gat (rc_g (recip_tbt L' (gmax / s))) i = scale_by (/ s) (gat gs i)).
  { intros i _. rewrite GS. unfold gat. replace (0, 0) with (scale_by (/ s) (0, 0)) at 1 by (unfold scale_by; cbn [fst snd]; rewrite Rmult_0_r; reflexivity). apply map_nth. }
  destruct (two_runs argsort eigh inv Hs He Hi _ _ L L' ly ly' gmax (gmax / s) e e HL Hind Hg Hc HL2 Hind' Hg' Hc'
    (fun i => i) (fun _ => RtoC 1) (fun z => z) (/ s) (scale_by (/ s))) with (ks := ks) (pol := pol) (m := m) as (fs & F1 & F2); auto.
  - rewrite GS, map_length. reflexivity.
  - apply perm_id.
  - intros i _. rewrite Cconj_R. ring.
  - apply id_auto.
  - intros i j Hi' Hj. fold gs n in Hi', Hj |- *. unfold twist, ft_matrix. rewrite !GA, Cconj_R by auto.
    rewrite <- HF; [|exists (gat gs i), (gat gs j); split; [apply nth_In; auto|split; [apply nth_In; auto|reflexivity]]].
    match goal with |- ?a = (_ * ?b * _)%C => transitivity b; [|ring] end. f_equal. unfold diff, scale_by. cbn [fst snd]. f_equal; ring.
  - left. apply Rinv_0_lt_compat; auto.
  - intros k _ i j Hi' Hj. fold gs n in Hi', Hj |- *. rewrite !GA by auto. unfold inner, shifted, scale_by. cbn [fst snd]. ring.
  - exists fs. auto.
Qed.
(** uniform material: the hypothesis on the transforms holds as long as the scaled
    lattice is not too coarse for the 1e-10 test *)
Lemma uniform_scaled L L' s eb z1 z2 gs : 0 < s ->
  (forall g g', In g gs -> In g' gs -> is_g0 (diff g g') -> g = g') ->
  (forall g g', In g gs -> In g' gs -> is_g0 (scale_by (/ s) (diff g g')) -> g = g') ->
  forall g, difference_of gs g -> lft L' (shapes_layer z1 z2 eb) (scale_by (/ s) g) = lft L (shapes_layer z1 z2 eb) g.
Proof.
  intros Hs S1 S2 g (u & v & Hu & Hv & ->). unfold lft, layer_ft_at, shapes_layer. cbn [ly_shapes ly_epsavg fold_left].
  assert (NZ : near_zero (scale_by (/ s) (diff u v)) = near_zero (diff u v)).
  { pose proof (near_zero_iff (scale_by (/ s) (diff u v))) as Q1. pose proof (near_zero_iff (diff u v)) as Q2.
    assert (K : u = v -> diff u v = (0, 0)) by (intros ->; unfold diff; rewrite !Rminus_diag_eq by auto; reflexivity).
    assert (K0 : is_g0 (0, 0)) by (unfold is_g0; cbn [fst snd]; rewrite Rabs_R0, Rplus_0_l; apply Rinv_0_lt_compat; simpl; lra).
    destruct (near_zero (scale_by (/ s) (diff u v))), (near_zero (diff u v)); auto.
    - assert (E : u = v) by (apply S2; auto; apply Q1; auto). symmetry. apply Q2. rewrite (K E). exact K0.
    - apply Q1. assert (E : u = v) by (apply S1; auto; apply Q2; auto). rewrite (K E). unfold scale_by. cbn [fst snd]. rewrite Rmult_0_r. exact K0. }
  rewrite NZ. destruct (near_zero (diff u v)); unfold Cdiv; ring.
Qed.
(** ... and a crystal too coarse *)
Lemma too_coarse : exists a1 a2 s L L' gmax, 0 < s /\ lattice_init (LatVecs a1 a2) = Ok L /\ lattice_init (LatVecs (scale_by s a1) (scale_by s a2)) = Ok L' /\
  independent (lt_a1 L) (lt_a2 L) /\ independent (lt_a1 L') (lt_a2 L') /\ 0 <= gmax /\
  let n := List.length (rc_g (recip_tbt L gmax)) in List.length (rc_g (recip_tbt L' (gmax / s))) = n /\
  (exists B, is_inverse n (ft_matrix (lft L (shapes_layer 0 1 12)) (rc_g (recip_tbt L gmax))) B) /\
  ~ exists B, is_inverse n (ft_matrix (lft L' (shapes_layer 0 s 12)) (rc_g (recip_tbt L' (gmax / s)))) B.
Proof.
  destruct (lattice_init (LatVecs (1, 0) (0, 1))) as [L|ex] eqn:HL; [|unfold lattice_init in HL; cbn [parse_input] in HL; destruct (Reqb _ _); discriminate].
  assert (EL : lt_a1 L = (1, 0) /\ lt_a2 L = (0, 1) /\ lt_b1 L = (2 * PI, 0) /\ lt_b2 L = (0, 2 * PI)).
  { unfold lattice_init in HL. cbn [parse_input] in HL. destruct (Reqb _ _); injection HL as <-; cbn [lt_a1 lt_a2 lt_b1 lt_b2]; unfold scal_div3, xy, dot3, cross3;
      (split; [reflexivity|split; [reflexivity|split; f_equal; field]]). }
  destruct EL as (A1 & A2 & B1 & B2). assert (Hi : independent (lt_a1 L) (lt_a2 L)) by (rewrite A1, A2; unfold independent, det; cbn [fst snd]; lra).
  set (s := 10 ^ 12). assert (Hs : 0 < s) by (unfold s; simpl; lra). pose proof PI_RGT_0 as HPi.
  destruct (scaled_lattice (1, 0) (0, 1) s L Hs HL Hi) as (L' & HL' & Hi' & B1' & B2' & _).
  exists (1, 0), (0, 1), s, L, L', 1. split; [exact Hs|]. split; [exact HL|]. split; [exact HL'|]. split; [exact Hi|]. split; [exact Hi'|]. split; [lra|]. cbv zeta.
  pose proof (scaled_waves L L' s 1 Hs ltac:(lra) (indep_recip _ _ HL Hi) (indep_recip _ _ HL' Hi') B1' B2') as GS. rewrite GS, map_length. split; [reflexivity|].
  destruct (tbt_set _ L 1 HL Hi ltac:(lra)) as (n1 & n2 & I1 & I2 & _ & _ & Ln & ND & _ & Inn & _). set (gs := rc_g (recip_tbt L 1)) in *.
  assert (LB : len (lt_b1 L) = 2 * PI /\ len (lt_b2 L) = 2 * PI).
  { rewrite B1, B2. unfold len, inner. cbn [fst snd]. split; (transitivity (sqrt ((2 * PI) * (2 * PI))); [f_equal; ring|apply sqrt_square; lra]). }
  destruct LB as [LB1 LB2]. rewrite LB1 in I1. rewrite LB2 in I2. replace (2 * PI * 1 / (2 * PI)) with 1 in I1, I2 by (field; lra).
  assert (n1 = 1%nat) by (apply (int_part_unique 1); [auto|simpl; lra]). assert (n2 = 1%nat) by (apply (int_part_unique 1); [auto|simpl; lra]). subst n1 n2.
  assert (Lat : forall g, In g gs -> exists i j : Z, (Z.abs i <= 1)%Z /\ (Z.abs j <= 1)%Z /\ g = (IZR i * (2 * PI), IZR j * (2 * PI))).
  { intros g H. apply Inn in H. destruct H as (i & j & H1 & H2 & ->). exists i, j. split; [exact H1|]. split; [exact H2|]. unfold comb. rewrite B1, B2. cbn [fst snd]. f_equal; ring. }
  split.
  - eexists. apply (delta_inverse _ 12); [lra|]. apply uniform_matrix; [exact ND|]. intros g g' H H' Zr.
    destruct (Lat g H) as (i & j & _ & _ & ->), (Lat g' H') as (i' & j' & _ & _ & ->). unfold is_g0, diff in Zr. cbn [fst snd] in Zr.
    replace (IZR i * (2 * PI) - IZR i' * (2 * PI)) with (IZR (i - i') * (2 * PI)) in Zr by (rewrite minus_IZR; ring).
    replace (IZR j * (2 * PI) - IZR j' * (2 * PI)) with (IZR (j - j') * (2 * PI)) in Zr by (rewrite minus_IZR; ring).
    rewrite !(Rabs_mult _ (2 * PI)), (Rabs_pos_eq (2 * PI)) in Zr by lra.
    assert (e10 : / 10 ^ 10 < 1) by (rewrite <- Rinv_1; apply Rinv_lt_contravar; simpl; lra).
    assert (K : forall a : Z, a <> 0%Z -> 1 <= Rabs (IZR a)) by (intros a Ha; rewrite <- abs_IZR; apply IZR_le; lia). pose proof PI2_1.
    pose proof (Rabs_pos (IZR (i - i'))). pose proof (Rabs_pos (IZR (j - j'))).
    assert (i = i') by (destruct (Z.eq_dec i i') as [|N]; auto; assert (N' : (i - i')%Z <> 0%Z) by lia; apply K in N'; nra).
    assert (j = j') by (destruct (Z.eq_dec j j') as [|N]; auto; assert (N' : (j - j')%Z <> 0%Z) by lia; apply K in N'; nra). subst. reflexivity.
  - intros (B & _ & I). assert (N0 : (0 < List.length gs)%nat /\ (1 < List.length gs)%nat) by lia. destruct N0 as [N0 N1].
    assert (All : forall i j, (i < List.length gs)%nat -> (j < List.length gs)%nat -> ft_matrix (lft L' (shapes_layer 0 s 12)) (map (scale_by (/ s)) gs) i j = RtoC 12).
    { intros i j Hi0 Hj0. unfold ft_matrix, lft. apply layer_ft_zero.
      assert (GA : forall i, gat (map (scale_by (/ s)) gs) i = scale_by (/ s) (gat gs i)).
      { intros a. unfold gat. replace (0, 0) with (scale_by (/ s) (0, 0)) at 1 by (unfold scale_by; cbn [fst snd]; rewrite Rmult_0_r; reflexivity). apply map_nth. }
      rewrite !GA. assert (Gi : In (gat gs i) gs) by (apply nth_In; auto). assert (Gj : In (gat gs j) gs) by (apply nth_In; auto).
      destruct (Lat _ Gi) as (a & b & Ha & Hb & ->), (Lat _ Gj) as (a' & b' & Ha' & Hb' & ->). unfold is_g0, diff, scale_by. cbn [fst snd].
      assert (K : forall u w, (Z.abs u <= 1)%Z -> (Z.abs w <= 1)%Z -> Rabs (/ s * (IZR u * (2 * PI)) - / s * (IZR w * (2 * PI))) <= / s * 16).
      { intros u w Hu Hw. replace (/ s * (IZR u * (2 * PI)) - / s * (IZR w * (2 * PI))) with (/ s * (IZR (u - w) * (2 * PI))) by (rewrite minus_IZR; ring).
        assert (0 < / s) by (apply Rinv_0_lt_compat; auto). rewrite (Rabs_mult (/ s)), (Rabs_mult _ (2 * PI)), (Rabs_pos_eq (/ s)), (Rabs_pos_eq (2 * PI)) by lra. apply Rmult_le_compat_l; [lra|].
        assert (Rabs (IZR (u - w)) <= 2) by (rewrite <- abs_IZR; apply IZR_le; lia). pose proof PI_4. pose proof (Rabs_pos (IZR (u - w))). nra. }
      pose proof (K a a' Ha Ha'). pose proof (K b b' Hb Hb'). assert (S2 : / s * 16 + / s * 16 < / 10 ^ 10) by (unfold s; simpl; lra). lra. }
    pose proof (I 0%nat 0%nat N0 N0) as E0. pose proof (I 0%nat 1%nat N0 N1) as E1. unfold mmul, mid in E0, E1. cbn [Nat.eqb] in E0, E1.
    assert (EE : csum (List.length gs) (fun k => (B 0%nat k * ft_matrix (lft L' (shapes_layer 0 s 12)) (map (scale_by (/ s)) gs) k 0%nat)%C) =
      csum (List.length gs) (fun k => (B 0%nat k * ft_matrix (lft L' (shapes_layer 0 s 12)) (map (scale_by (/ s)) gs) k 1%nat)%C)).
    { apply csum_ext. intros k Hk. rewrite !All by auto. reflexivity. }
    rewrite EE, E1 in E0. apply (f_equal fst) in E0. cbn in E0. lra.
Qed.

(** ** C136: periodicity in k *)
Lemma not_periodic : exists L, lattice_init (LatName "square") = Ok L /\
  forall argsort eigh inv, sorts argsort -> diagonalises eigh -> inverts inv ->
    exists fs fs', pw_freqs (fst (pwe_run argsort eigh inv (pwe_init L (shapes_layer 0 1 1) 0 None) [(0, 0)] "te" 1)) = Some fs /\
      pw_freqs (fst (pwe_run argsort eigh inv (pwe_init L (shapes_layer 0 1 1) 0 None) [shifted (0, 0) (lt_b1 L)] "te" 1)) = Some fs' /\
      fs = [[0]] /\ fs' = [[1]].
Proof.
  destruct one_wave as (L & HL & Hi & Hg). exists L. split; [exact HL|]. intros argsort eigh inv Hs He Hv. destruct (square_b L HL) as [B1 _]. pose proof PI_RGT_0 as HPi.
  assert (Sep : forall g g', In g (rc_g (recip_tbt L 0)) -> In g' (rc_g (recip_tbt L 0)) -> is_g0 (diff g g') -> g = g').
  { rewrite Hg. intros g g' [<-|[]] [<-|[]] _. auto. }
  assert (One : forall k f, len (shifted k (0, 0)) / (2 * PI * sqrt 1) = f -> exists s v, pwe_run argsort eigh inv (pwe_init L (shapes_layer 0 1 1) 0 None) [k] "te" 1 = (s, v) /\ pw_freqs s = Some [[f]]).
  { intros k f Ef. destruct (uniform_bands argsort eigh inv Hs He Hv _ L 1 0 1 0 None [k] "te" 1 HL Hi ltac:(lra) ltac:(lra) ltac:(discriminate) (or_introl eq_refl) Sep) as (s1 & f1 & v1 & R1 & G1 & _ & Lf & _ & Sm).
    exists s1, (Ok tt). split; [exact R1|]. rewrite G1. rewrite Hg in Sm. destruct (Sm 0%nat k eq_refl) as (sl & P & _ & E). cbn [map] in P.
    apply Permutation_sym, Permutation_length_1_inv in P. subst sl. cbn [firstn] in E. destruct f1 as [|x [|y f1]]; try discriminate Lf. cbn [nth] in E. rewrite E, Ef. reflexivity. }
  destruct (One (0, 0) 0) as (s1 & v1 & -> & F1).
  { unfold len, shifted, inner. cbn [fst snd]. replace ((0 + 0) * (0 + 0) + (0 + 0) * (0 + 0)) with 0 by ring. rewrite sqrt_0. unfold Rdiv. ring. }
  destruct (One (shifted (0, 0) (lt_b1 L)) 1) as (s2 & v2 & -> & F2).
  { rewrite B1. unfold len, shifted, inner. cbn [fst snd]. rewrite sqrt_1, Rmult_1_r.
    replace ((0 + 2 * PI + 0) * (0 + 2 * PI + 0) + (0 + 0 + 0) * (0 + 0 + 0)) with (2 * PI * (2 * PI)) by ring. rewrite sqrt_square by lra. field. lra. }
  cbn [fst]. exists [[0]], [[1]]. auto.
Qed.
(** opposite points of the zone boundary *)
Lemma zone_boundary argsort eigh inv : sorts argsort -> diagonalises eigh -> inverts inv ->
  forall args L ly gmax e k b pol m, lattice_init args = Ok L -> independent (lt_a1 L) (lt_a2 L) -> 0 <= gmax ->
  conj_symmetric (lft L ly) -> lower pol = "te"%string \/ lower pol = "tm"%string -> b = shifted k k ->
  let gs := rc_g (recip_tbt L gmax) in let n := List.length gs in let eps := ft_matrix (lft L ly) gs in
  (exists B, is_inverse n eps B) -> psd n eps ->
  exists fs, pw_freqs (fst (pwe_run argsort eigh inv (pwe_init L ly gmax e) [k] pol m)) = Some fs /\
    pw_freqs (fst (pwe_run argsort eigh inv (pwe_init L ly gmax e) [diff k b] pol m)) = Some fs.
Proof.
  intros Hs He Hi args L ly gmax e k b pol m HL Hind Hg Hc Hpol -> gs n eps HB HP.
  destruct (reversal argsort eigh inv Hs He Hi args L ly gmax e [k] pol m HL Hind Hg Hc Hpol HB HP) as (fs & F1 & F2). exists fs. split; [exact F1|].
  replace (diff k (shifted k k)) with (opp k); [exact F2|]. unfold opp, diff, shifted. cbn [fst snd]. f_equal; ring.
Qed.
