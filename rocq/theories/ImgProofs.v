(** Shapes drawn in another unit cell give the same coefficients. *)
From Coq Require Import List FunctionalExtensionality.
From Verif Require Import Py CBase LatticeModel LatticeSpec LatticeProofs PhcModel PhcSpec RecipModel RecipSpec RecipProofs MatElModel RunModel PweModel ExcModel CellProofs.
From Verif Require Import InvSpec GinvSpec ImgSpec.
Open Scope R_scope.
Open Scope list_scope.

Definition rec (L : lattice) : R * R -> Prop := in_lattice (lt_b1 L) (lt_b2 L).
Lemma dual_phase args L g r : lattice_init args = Ok L -> independent (lt_a1 L) (lt_a2 L) -> rec L g -> in_lattice (lt_a1 L) (lt_a2 L) r -> expi (- inner g r) = RtoC 1.
Proof.
  intros HL Hi (m & n & Eg) (p & q & Er). destruct (duality args L HL Hi) as (D11 & D22 & D12 & D21).
  subst. replace (- inner (comb m n (lt_b1 L) (lt_b2 L)) (comb p q (lt_a1 L) (lt_a2 L))) with (2 * PI * IZR (- (m * p + n * q))); [apply expi_int|].
  rewrite inner_comb_r, !inner_comb_l, D11, D22, D12, D21, opp_IZR, plus_IZR, !mult_IZR. ring.
Qed.
Section One.
Variables (args : lat_args) (L : lattice).
Hypothesis HL : lattice_init args = Ok L.
Hypothesis Hi : independent (lt_a1 L) (lt_a2 L).
Lemma image_ft s s' g : image_of L s s' -> rec L g -> sh_ft s' g = sh_ft s g.
Proof. intros (_ & _ & r & Hr & M & _) Hg. rewrite (M g Hg), (dual_phase args L g r HL Hi Hg Hr). ring. Qed.
Lemma redrawn_ft area ly ly' g : redrawn L ly ly' -> rec L g -> layer_ft_at area ly' g = layer_ft_at area ly g.
Proof.
  intros (_ & _ & _ & Eb & Ea & F) Hg. unfold layer_ft_at. rewrite Eb, Ea. cbv zeta.
  assert (K : forall a, fold_left (fun acc s => (acc + RtoC (sh_eps s - ly_epsb ly) * sh_ft s g)%C) (ly_shapes ly') a = fold_left (fun acc s => (acc + RtoC (sh_eps s - ly_epsb ly) * sh_ft s g)%C) (ly_shapes ly) a); [|rewrite K; reflexivity].
  induction F as [|s s' l l' H F IH]; intros a; cbn [fold_left]; [reflexivity|].
  rewrite (image_ft s s' g H Hg). destruct H as (E & _). rewrite E. apply IH.
Qed.
Lemma rec_sub u v : rec L u -> rec L v -> rec L (vsub u v).
Proof. intros (m & n & ->) (p & q & ->). exists (m - p)%Z, (n - q)%Z. unfold vsub, comb. cbn [fst snd]. rewrite !minus_IZR. f_equal; ring. Qed.
Lemma rec_0 : rec L (0, 0).
Proof. exists 0%Z, 0%Z. unfold comb. f_equal; ring. Qed.
Lemma rec_nth gs i : (forall g, In g gs -> rec L g) -> rec L (nthg gs i).
Proof. intros H. unfold nthg. destruct (nth_in_or_default i gs (0, 0)) as [I| ->]; [auto|apply rec_0]. Qed.
Lemma rec_G1 gs g : (forall g, In g gs -> rec L g) -> In g (G1_of gs) -> rec L g.
Proof. intros H I. apply in_map_iff in I. destruct I as (h & <- & I). apply rec_sub; auto. apply rec_nth; auto. Qed.
Lemma rec_G2 gs a b g : (forall g, In g gs -> rec L g) -> In g (G2_of gs a b) -> rec L g.
Proof.
  intros H I. apply in_flat_map in I. destruct I as (c & _ & I). apply in_map_iff in I. destruct I as (p & <- & _).
  apply rec_sub; apply rec_nth; auto.
Qed.
Lemma rec_gvec i1 i2 g : In g (gvec_of (lt_b1 L) (lt_b2 L) i1 i2) -> rec L g.
Proof. intros I. apply in_map_iff in I. destruct I as ((m & n) & <- & _). exists m, n. unfold comb. cbn [fst snd]. f_equal; ring. Qed.
Lemma in_select {A} (x : A) m : forall l, In x (select m l) -> In x l.
Proof.
  induction m as [|b m IH]; intros [|y l]; try destruct b; cbn [select]; intros I; try (destruct I; fail); auto.
  - destruct I as [->|I]; [left; reflexivity|right; auto].
  - right; auto.
Qed.
Lemma rec_tbt gmax g : In g (rc_g (recip_tbt L gmax)) -> rec L g.
Proof. apply rec_gvec. Qed.
Lemma rec_abs fuel gmax rc g : recip_abs fuel L gmax = Some (Ok rc) -> In g (rc_g rc) -> rec L g.
Proof.
  unfold recip_abs. cbv zeta.
  assert (K : forall mask j1 j2, (let* m1 := zmax_list j1 in let* m2 := zmax_list j2 in Ok (mkRecip (keep mask (gvec_of (lt_b1 L) (lt_b2 L) (inds1_of (nmax_for 4 gmax (lt_b1 L)) (nmax_for 4 gmax (lt_b2 L))) (inds2_of (nmax_for 4 gmax (lt_b1 L)) (nmax_for 4 gmax (lt_b2 L))))) m1 m2 j1 j2)) = Ok rc -> In g (rc_g rc) -> rec L g).
  { intros mask j1 j2 E I. destruct (zmax_list j1) as [m1|]; [|discriminate]. destruct (zmax_list j2) as [m2|]; [|discriminate]. injection E as <-. cbn [rc_g] in I.
    apply in_select in I. eapply rec_gvec, I. }
  destruct (r_in _ _); [destruct (nudge _ _ _); [|discriminate]|]; intros E; injection E as E; revert E; apply K.
Qed.
Lemma rec_waves tbt gmax rc g : waves_of L tbt gmax rc -> In g (rc_g rc) -> rec L g.
Proof. unfold waves_of. destruct tbt; [intros ->; apply rec_tbt|intros (f & E); apply (rec_abs f gmax rc g E)]. Qed.
Lemma in_slice {A} (x : A) a b l : In x (slice a b l) -> In x l.
Proof.
  unfold slice. intros I. assert (K : forall n (m : list A), In x (firstn n m) -> In x m).
  { induction n as [|n IH]; intros [|y m] J; cbn [firstn] in J; try (destruct J; fail). destruct J as [->|J]; [left; reflexivity|right; auto]. }
  apply K in I. revert l I. induction a as [|a IH]; intros [|y l] I; cbn [skipn] in I; auto. right; auto.
Qed.
Lemma T1_tbt_same ft ft' rc : (forall g, rec L g -> ft' g = ft g) -> (forall g, In g (rc_g rc) -> rec L g) -> T1_tbt ft' rc = T1_tbt ft rc.
Proof. intros E H. unfold T1_tbt. f_equal. apply map_ext_in. intros g I. apply E. eapply rec_G1, I. auto. Qed.
Lemma T2_tbt_same ft ft' rc : (forall g, rec L g -> ft' g = ft g) -> (forall g, In g (rc_g rc) -> rec L g) -> T2_tbt ft' rc = T2_tbt ft rc.
Proof. intros E H. unfold T2_tbt. f_equal. apply map_ext_in. intros g I. apply E. eapply rec_G2, I. auto. Qed.
Lemma T1_abs_same ft ft' rc : (forall g, rec L g -> ft' g = ft g) -> T1_abs L ft' rc = T1_abs L ft rc.
Proof.
  intros E. unfold T1_abs. cbv zeta. replace (T1_unique L ft' rc) with (T1_unique L ft rc); [reflexivity|]. unfold T1_unique. cbv zeta.
  assert (K : forall n, map ft (slice 0 n (G1_unique L rc)) = map ft' (slice 0 n (G1_unique L rc))).
  { intros n. apply map_ext_in. intros g I. symmetry. apply E. apply in_slice in I. apply rec_gvec in I. auto. }
  rewrite K. reflexivity.
Qed.
Lemma einv_same inv only tbt (ft ft' : R * R -> C) rc : (forall g, rec L g -> ft' g = ft g) -> (forall g, In g (rc_g rc) -> rec L g) ->
  (if tbt : bool then eps_inv_tbt inv only ft' rc else eps_inv_abs inv only L ft' rc) = (if tbt then eps_inv_tbt inv only ft rc else eps_inv_abs inv only L ft rc).
Proof.
  intros E H. destruct tbt.
  - unfold eps_inv_tbt, eps_mat_tbt. rewrite (T1_tbt_same ft ft' rc E H), (T2_tbt_same ft ft' rc E H). reflexivity.
  - unfold eps_inv_abs, eps_mat_abs. rewrite (T1_abs_same ft ft' rc E). reflexivity.
Qed.
(** the exciton potential *)
Lemma exc_ft_same area V gs l l' : Forall2 (image_of L) l l' -> (forall g, In g gs -> rec L g) -> forall acc, exc_ft_loop area V gs l' acc = exc_ft_loop area V gs l acc.
Proof.
  intros F H. induction F as [|s s' l l' Hs F IH]; intros acc; cbn [exc_ft_loop]; [reflexivity|].
  assert (Z : zip_with (fun g v => ((v + RtoC V * sh_ft s' g) / RtoC area)%C) gs acc = zip_with (fun g v => ((v + RtoC V * sh_ft s g) / RtoC area)%C) gs acc).
  { clear IH F. revert acc. induction gs as [|g gs IH]; intros [|v acc]; cbn [zip_with]; auto. rewrite (image_ft s s' g Hs) by (apply H; left; reflexivity).
    f_equal. apply IH. intros h I. apply H. right. auto. }
  rewrite Z. destruct (first_zero _ _); [|reflexivity]. destruct (c_lt0 _); apply IH.
Qed.
End One.
