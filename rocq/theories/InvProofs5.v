(** Higher permittivity, lower bands (C135); layers of circles. *)
From Coq Require Import Permutation List.
From Verif Require Import Py CBase LatticeModel LatticeSpec LatticeProofs PhcModel PhcSpec PhcProofs2 PhcProofs3 PhcProofs4 RecipModel RecipSpec RecipProofs RecipProofs3 RecipProofs5 ShapesSpec ShapesModel ShapesProofs2 ShapesProofs3 MatElModel RunModel RunSpec RunProofs PweSpec PweModel PweProofs PweProofs2 PweProofs3 PweProofs4 PweProofs6 PweProofs7 LinProofs LinProofs2.
From Verif Require Import InvSpec InvProofs InvProofs2 InvProofs3 InvProofs4.
Open Scope R_scope.
Open Scope list_scope.

Lemma form_mono pol gs k B B' n : (forall v, fst (cdot n v (mvec n B' v)) <= fst (cdot n v (mvec n B v))) ->
  forall v, fst (cdot n v (mvec n (form_of pol gs k B') v)) <= fst (cdot n v (mvec n (form_of pol gs k B) v)).
Proof.
  intros H v. unfold form_of. destruct (String.eqb pol "te").
  - set (x i := fst (shifted k (gat gs i))). set (y i := snd (shifted k (gat gs i))).
    assert (E : forall B, cdot n v (mvec n (te_form gs k B) v) =
      Cplus (cdot n v (mvec n (fun i j => Cmult (RtoC (x i * x j)) (B i j)) v)) (cdot n v (mvec n (fun i j => Cmult (RtoC (y i * y j)) (B i j)) v))).
    { intros B0. unfold cdot, mvec. rewrite <- csum_plus. apply csum_ext. intros i _. rewrite <- Cmult_plus_distr_l. f_equal.
      rewrite <- csum_plus. apply csum_ext. intros j _. unfold te_form, x, y, inner. rewrite RtoC_plus. ring. }
    rewrite !E, !quad_scaled. pose proof (H (fun i => Cmult (RtoC (x i)) (v i))). pose proof (H (fun i => Cmult (RtoC (y i)) (v i))).
    cbn [fst Cplus]. apply Rplus_le_compat; assumption.
  - unfold tm_form. rewrite !(quad_scaled n (fun i => len (shifted k (gat gs i)))). apply H.
Qed.

Lemma monotone argsort eigh inv : sorts argsort -> diagonalises eigh -> inverts inv ->
  forall args L ly ly' gmax e ks pol m, lattice_init args = Ok L -> independent (lt_a1 L) (lt_a2 L) -> 0 <= gmax ->
  conj_symmetric (lft L ly) -> conj_symmetric (lft L ly') -> lower pol = "te"%string \/ lower pol = "tm"%string ->
  let gs := rc_g (recip_tbt L gmax) in let n := List.length gs in let eps := ft_matrix (lft L ly) gs in let eps' := ft_matrix (lft L ly') gs in
  (exists B, is_inverse n eps B) -> psd n eps -> (exists B, is_inverse n eps' B) -> psd n (fun i j => eps' i j - eps i j)%C ->
  exists fs fs', pw_freqs (fst (pwe_run argsort eigh inv (pwe_init L ly gmax e) ks pol m)) = Some fs /\
    pw_freqs (fst (pwe_run argsort eigh inv (pwe_init L ly' gmax e) ks pol m)) = Some fs' /\ nowhere_above fs' fs.
Proof.
  intros Hs He Hi args L ly ly' gmax e ks pol m HL Hind Hg Hc Hc' Hpol gs n eps eps' HB HP HB' HD.
  assert (Hk0 : ks = [] \/ ks <> []) by (destruct ks; [left; auto|right; discriminate]).
  destruct Hk0 as [->|Hk]; [exists [], []; split; [|split; [|split; [|intros i H; inversion H]]]; reflexivity|].
  assert (Le : forall v, fst (cdot n v (mvec n eps v)) <= fst (cdot n v (mvec n eps' v))).
  { intros v. specialize (HD v). assert (E : cdot n v (mvec n (fun i j => (eps' i j - eps i j)%C) v) = (cdot n v (mvec n eps' v) - cdot n v (mvec n eps v))%C).
    { unfold cdot. rewrite <- csum_minus. apply csum_ext. intros i _. transitivity (Cconj (v i) * (mvec n eps' v i - mvec n eps v i))%C; [|ring].
      f_equal. unfold mvec. rewrite <- csum_minus. apply csum_ext. intros. ring. }
    rewrite E in HD. cbn [fst Cminus Cplus Copp] in HD. lra. }
  assert (HP' : psd n eps') by (intros v; specialize (Le v); specialize (HP v); lra).
  assert (HH : forall l, conj_symmetric (lft L l) -> herm_on n (ft_matrix (lft L l) gs)).
  { intros l C i j _ _. unfold ft_matrix. rewrite <- C. f_equal. unfold opp, diff. cbn [fst snd]. f_equal; ring. }
  destruct (bands argsort eigh inv Hs He Hi args L ly gmax e ks pol m HL Hind Hg Hc Hk Hpol HB HP) as (s1 & f1 & v1 & B1 & -> & I1 & F1 & _ & L1 & _ & N1 & _).
  destruct (bands argsort eigh inv Hs He Hi args L ly' gmax e ks pol m HL Hind Hg Hc' Hk Hpol HB' HP') as (s2 & f2 & v2 & B2 & -> & I2 & F2 & _ & L2 & _ & N2 & _).
  exists f1, f2. split; [exact F1|]. split; [exact F2|]. split; [congruence|]. intros i Hi'. rewrite L1 in Hi'.
  destruct (nth_error ks i) as [k|] eqn:E; [|apply nth_error_None in E; lia].
  apply (lowest_monotone n m (form_of (lower pol) gs k B1) (form_of (lower pol) gs k B2) _ (nth i v1 []) _ (nth i v2 []) (N1 i k E) (N2 i k E)).
  apply form_mono. exact (inverse_antitone n eps eps' B1 B2 (HH ly Hc) (HH ly' Hc') HP I1 I2 Le).
Qed.

(** ** a layer in which every permittivity is raised by the same amount *)
Definition raised (dl : R) (s : shape) : shape := mkShape (sh_eps s + dl) (sh_area s) (sh_inside s) (sh_ft s).
Definition filled (area : R) (z1 z2 eb : R) (ss : list shape) : layer := fold_left (append_shape area) ss (shapes_layer z1 z2 eb).
Lemma filled_form area z1 z2 eb ss : ly_shapes (filled area z1 z2 eb ss) = ss /\ ly_epsb (filled area z1 z2 eb ss) = eb /\
  ly_epsavg (filled area z1 z2 eb ss) = eb + total (map (fun s => (sh_eps s - eb) * sh_area s / area) ss).
Proof. destruct (fold_append area ss (shapes_layer z1 z2 eb)) as (H1 & H2 & _ & _ & _ & _ & H3). split; [exact H1|]. split; [exact H2|]. exact H3. Qed.
Lemma filled_conj L z1 z2 eb ss : (forall s, In s ss -> conj_symmetric (sh_ft s)) -> conj_symmetric (lft L (filled (lt_ec_area L) z1 z2 eb ss)).
Proof.
  intros H g. unfold lft, opp. apply layer_ft_herm. destruct (filled_form (lt_ec_area L) z1 z2 eb ss) as (-> & _). intros s Hin. apply (H s Hin).
Qed.
Lemma raised_ft L z1 z2 eb dl ss g : lft L (filled (lt_ec_area L) z1 z2 (eb + dl) (map (raised dl) ss)) g =
  (lft L (filled (lt_ec_area L) z1 z2 eb ss) g + (if near_zero g then RtoC dl else RtoC 0))%C.
Proof.
  unfold lft, layer_ft_at. destruct (filled_form (lt_ec_area L) z1 z2 eb ss) as (-> & -> & ->).
  destruct (filled_form (lt_ec_area L) z1 z2 (eb + dl) (map (raised dl) ss)) as (-> & -> & ->). rewrite map_map.
  assert (E1 : forall a, fold_left (fun acc s => Cplus acc (Cmult (RtoC (sh_eps s - (eb + dl))) (sh_ft s g))) (map (raised dl) ss) a =
     fold_left (fun acc s => Cplus acc (Cmult (RtoC (sh_eps s - eb)) (sh_ft s g))) ss a).
  { induction ss as [|s l IH]; intros a; [reflexivity|]. cbn [map fold_left]. rewrite IH. f_equal. unfold raised. cbn [sh_eps sh_ft].
    replace (sh_eps s + dl - (eb + dl)) with (sh_eps s - eb) by ring. reflexivity. }
  rewrite E1. rewrite (map_ext (fun x => (sh_eps (raised dl x) - (eb + dl)) * sh_area (raised dl x) / lt_ec_area L) (fun s => (sh_eps s - eb) * sh_area s / lt_ec_area L)).
  2:{ intros s. unfold raised. cbn [sh_eps sh_area]. f_equal. ring. }
  destruct (near_zero g).
  - replace ((eb + dl + total (map (fun s => (sh_eps s - eb) * sh_area s / lt_ec_area L) ss)) * 1) with ((eb + total (map (fun s => (sh_eps s - eb) * sh_area s / lt_ec_area L) ss)) * 1 + dl) by ring.
    rewrite (RtoC_plus _ dl). ring.
  - rewrite !Rmult_0_r. ring.
Qed.
Lemma psd_plus_id n A c : 0 <= c -> (forall i j, (i < n)%nat -> (j < n)%nat -> A i j = if Nat.eqb i j then RtoC c else RtoC 0) -> psd n A.
Proof.
  intros Hc H v. unfold cdot. apply fst_csum_nonneg. intros i Hi. unfold mvec. rewrite (csum_single _ i); auto.
  - rewrite H, Nat.eqb_refl by auto. replace (Cconj (v i) * (RtoC c * v i))%C with (RtoC c * (v i * Cconj (v i)))%C by ring.
    rewrite Cconj_mod, <- RtoC_mult. cbn [fst RtoC]. apply Rmult_le_pos; [auto|]. pose proof (Rle_0_sqr (fst (v i))). pose proof (Rle_0_sqr (snd (v i))). unfold Rsqr in *. nra.
  - intros j Hj Ne. rewrite H by auto. destruct (Nat.eqb_spec i j); [congruence|ring].
Qed.
Lemma pd_of_inverse n A B : herm_on n A -> psd n A -> is_inverse n A B -> pos_def n A.
Proof.
  intros H P I v (i & Hi & Nz). destruct (spectral n A H) as (ls & V & Es).
  assert (LP : forall j, (j < n)%nat -> 0 < nth j ls 0).
  { intros j Hj. destruct Es as (E1 & E2 & E3).
    assert (0 <= nth j ls 0) by (apply (psd_eigs n A ls V P (conj E1 (conj E2 E3))), nth_In; lia).
    destruct (Rle_lt_or_eq_dec 0 (nth j ls 0)) as [|Z]; auto. exfalso.
    assert (Z2 : forall a, (a < n)%nat -> V a j = RtoC 0).
    { intros a Ha. rewrite <- (mvec_id n (fun a => V a j) a Ha). destruct I as [_ I2].
      transitivity (mvec n (mmul n B A) (fun a => V a j) a); [unfold mvec; apply csum_ext; intros b Hb; rewrite I2 by auto; reflexivity|].
      rewrite mvec_mmul. unfold mvec at 1. apply csum_0. intros b Hb. rewrite E3, <- Z by auto. ring. }
    specialize (E2 j j Hj Hj). rewrite Nat.eqb_refl in E2. rewrite csum_0 in E2; [apply (f_equal fst) in E2; cbn in E2; lra|].
    intros a Ha. rewrite (Z2 a Ha). ring. }
  assert (CN : exists j, (j < n)%nat /\ coef n V v j <> RtoC 0).
  { destruct (Classical_Prop.classic (exists j, (j < n)%nat /\ coef n V v j <> RtoC 0)) as [|Q]; auto. exfalso. apply Nz.
    rewrite (expand n A ls V Es v i Hi). apply csum_0. intros j Hj. destruct (Classical_Prop.classic (coef n V v j = RtoC 0)) as [->|X]; [ring|].
    elim Q. exists j. auto. }
  destruct CN as (j & Hj & Cn). rewrite (form_expand n A ls V Es v).
  apply Rlt_le_trans with (nth j ls 0 * sqm (coef n V v j)).
  - apply Rmult_lt_0_compat; [auto|]. destruct (Rle_lt_or_eq_dec 0 _ (sqm_nonneg (coef n V v j))) as [|Z]; auto. exfalso. apply Cn.
    unfold sqm in Z. pose proof (Rle_0_sqr (fst (coef n V v j))). pose proof (Rle_0_sqr (snd (coef n V v j))). unfold Rsqr in *.
    apply Ceq; cbn [fst snd RtoC]; apply Rsqr_0_uniq; unfold Rsqr; lra.
  - apply (fst_csum_ge n (fun j => RtoC (nth j ls 0 * sqm (coef n V v j))) j Hj). intros a Ha. cbn [fst RtoC].
    apply Rmult_le_pos; [left; auto|apply sqm_nonneg].
Qed.
(** C135 *)
Lemma raise_all argsort eigh inv : sorts argsort -> diagonalises eigh -> inverts inv ->
  forall args L z1 z2 eb dl ss gmax e ks pol m, lattice_init args = Ok L -> independent (lt_a1 L) (lt_a2 L) -> 0 <= gmax -> 0 <= dl ->
  (forall s, In s ss -> conj_symmetric (sh_ft s)) -> lower pol = "te"%string \/ lower pol = "tm"%string ->
  let gs := rc_g (recip_tbt L gmax) in let n := List.length gs in let ly := filled (lt_ec_area L) z1 z2 eb ss in let eps := ft_matrix (lft L ly) gs in
  (forall g g', In g gs -> In g' gs -> is_g0 (diff g g') -> g = g') ->
  (exists B, is_inverse n eps B) -> psd n eps ->
  exists fs fs', pw_freqs (fst (pwe_run argsort eigh inv (pwe_init L ly gmax e) ks pol m)) = Some fs /\
    pw_freqs (fst (pwe_run argsort eigh inv (pwe_init L (filled (lt_ec_area L) z1 z2 (eb + dl) (map (raised dl) ss)) gmax e) ks pol m)) = Some fs' /\
    nowhere_above fs' fs.
Proof.
  intros Hs He Hi args L z1 z2 eb dl ss gmax e ks pol m HL Hind Hg Hd Hc Hpol gs n ly eps Sep HB HP.
  pose proof (filled_conj L z1 z2 eb ss Hc) as C1.
  assert (C2 : conj_symmetric (lft L (filled (lt_ec_area L) z1 z2 (eb + dl) (map (raised dl) ss)))).
  { apply filled_conj. intros s Hin. apply in_map_iff in Hin. destruct Hin as (s0 & <- & H0). exact (Hc s0 H0). }
  assert (DE : forall i j, (i < n)%nat -> (j < n)%nat ->
    (ft_matrix (lft L (filled (lt_ec_area L) z1 z2 (eb + dl) (map (raised dl) ss))) gs i j - eps i j)%C = if Nat.eqb i j then RtoC dl else RtoC 0).
  { intros i j Hi' Hj. unfold eps, ft_matrix, ly. rewrite raised_ft. 
    transitivity (if near_zero (diff (gat gs i) (gat gs j)) then RtoC dl else RtoC 0); [ring|].
    destruct (tbt_set args L gmax HL Hind Hg) as (n1 & n2 & _ & _ & _ & _ & _ & ND & _). fold gs in ND.
    destruct (near_zero (diff (gat gs i) (gat gs j))) eqn:Z.
    - apply near_zero_iff in Z. apply Sep in Z; [|apply nth_In; auto..]. apply (proj1 (NoDup_nth gs (0, 0)) ND) in Z; auto. rewrite Z, Nat.eqb_refl. reflexivity.
    - destruct (Nat.eqb_spec i j) as [->|]; [|reflexivity]. assert (X : is_g0 (diff (gat gs j) (gat gs j))).
      { unfold is_g0, diff. cbn [fst snd]. rewrite !Rminus_diag_eq, Rabs_R0 by auto. rewrite Rplus_0_l. apply Rinv_0_lt_compat. simpl. lra. }
      apply near_zero_iff in X. congruence. }
  apply (monotone argsort eigh inv Hs He Hi args L ly _ gmax e ks pol m HL Hind Hg C1 C2 Hpol HB HP); fold gs n; cbv zeta.
  - apply pd_inverse.
    + intros i j _ _. unfold ft_matrix. rewrite <- C2. f_equal. unfold opp, diff. cbn [fst snd]. f_equal; ring.
    + assert (HH : herm_on n eps). { intros i j _ _. unfold eps, ft_matrix. rewrite <- C1. f_equal. unfold opp, diff. cbn [fst snd]. f_equal; ring. }
      destruct HB as [B HB]. pose proof (pd_of_inverse n eps B HH HP HB) as PD. intros v Hv.
      apply Rlt_le_trans with (fst (cdot n v (mvec n eps v))); [apply PD; auto|].
      pose proof (psd_plus_id n _ dl Hd DE v) as Q.
      match goal with |- _ <= fst (cdot n v (mvec n ?E v)) => set (ep := E) in * end.
      assert (E : cdot n v (mvec n (fun i j => (ep i j - eps i j)%C) v) = (cdot n v (mvec n ep v) - cdot n v (mvec n eps v))%C).
      { unfold cdot. rewrite <- csum_minus. apply csum_ext. intros i _. transitivity (Cconj (v i) * (mvec n ep v i - mvec n eps v i))%C; [|ring].
        f_equal. unfold mvec. rewrite <- csum_minus. apply csum_ext. intros. ring. }
      rewrite E in Q. cbn [fst Cminus Cplus Copp] in Q. lra.
  - apply (psd_plus_id n _ dl Hd). exact DE.
Qed.
