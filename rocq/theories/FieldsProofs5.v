(** The plotted permittivity differs from the exact series when tiny imaginary
    parts are dropped. *)
From Verif Require Import Py LatticeModel LatticeSpec LatticeProofs CBase PhcModel RecipModel RecipSpec RecipProofs RecipProofs2 FieldsSpec FieldsModel FieldsProofs FieldsProofs2.
From Coq Require Import Lra Lia Permutation.
Open Scope R_scope.
Open Scope list_scope.

Definition spike (a : R) (g : R * R) : R :=
  if Req_EM_T (snd g) 0 then (if Req_EM_T (fst g) a then 1 / 10 ^ 11 else if Req_EM_T (fst g) (- a) then - (1 / 10 ^ 11) else 0) else 0.
Definition spiked (a : R) (g : R * R) : C := (1, spike a g).

Lemma spiked_conj a : a <> 0 -> conj_symmetric (spiked a).
Proof.
  intros Ha [u v]. unfold spiked, spike, opp, Cconj. cbn [fst snd]. f_equal.
  repeat destruct (Req_EM_T _ _); try lra.
Qed.
Lemma spike_small a g : Rabs (spike a g) <= 1 / 10 ^ 11.
Proof.
  unfold spike. assert (0 < 1 / 10 ^ 11) by lra.
  repeat destruct (Req_EM_T _ _); try rewrite Rabs_R0; try (rewrite Rabs_Ropp); try rewrite Rabs_pos_eq; lra.
Qed.
Lemma snap_spiked a Gs : Gs <> [] -> snap (map (spiked a) Gs) = snap (map (fun _ => RtoC 1) Gs).
Proof.
  intros HG. unfold snap.
  assert (F : forall l : list (R * R), l <> [] -> amax (map fst (map (spiked a) l)) = 1 /\ amax (map fst (map (fun _ : R * R => RtoC 1) l)) = 1 /\
     amax (map snd (map (spiked a) l)) <= 1 / 10 ^ 11 /\ amax (map snd (map (fun _ : R * R => RtoC 1) l)) = 0).
  { assert (Q : 0 < 1 / 10 ^ 11) by lra. revert Q. generalize (1 / 10 ^ 11) as q, (spike_small a). intros q S Q.
    intros [|g l] H; [easy|]. clear H.
    assert (B : amax (map fst (map (spiked a) l)) <= 1 /\ amax (map fst (map (fun _ : R * R => RtoC 1) l)) <= 1 /\ amax (map snd (map (spiked a) l)) <= q /\
       amax (map snd (map (fun _ : R * R => RtoC 1) l)) = 0).
    { induction l as [|h l (I1 & I2 & I3 & I4)]; cbn [map amax fold_right]; [repeat split; lra|].
      fold (amax (map fst (map (spiked a) l))) (amax (map snd (map (spiked a) l))) (amax (map fst (map (fun _ : R * R => RtoC 1) l))) (amax (map snd (map (fun _ : R * R => RtoC 1) l))).
      cbn [spiked fst snd RtoC]. rewrite Rabs_R1, Rabs_R0, I4.
      repeat split; try (apply Rmax_lub; auto; lra); try (apply Rmax_lub; auto; apply S). rewrite Rmax_left; lra. }
    destruct B as (I1 & I2 & I3 & I4). cbn [map amax fold_right].
    fold (amax (map fst (map (spiked a) l))) (amax (map snd (map (spiked a) l))) (amax (map fst (map (fun _ : R * R => RtoC 1) l))) (amax (map snd (map (fun _ : R * R => RtoC 1) l))).
    cbn [spiked fst snd RtoC]. rewrite Rabs_R1, Rabs_R0, I4. split; [apply Rmax_left; auto|]. split; [apply Rmax_left; auto|]. split; [apply Rmax_lub; auto; apply S|]. apply Rmax_left. lra. }
  destruct (F Gs HG) as (F1 & F2 & F3 & F4). rewrite F1, F2, F4.
  unfold Rltb. destruct (Rlt_dec _ _); [|exfalso; lra]. destruct (Rlt_dec _ _); [|exfalso; lra]. rewrite !map_map. auto.
Qed.

(** the exact series minus the one with all coefficients 1 *)
Lemma series_gap a x Ds : fst (series (map (fun D => (RtoC 1, D)) Ds) x 0) - fst (series (map (fun D => (spiked a D, D)) Ds) x 0) =
  fold_right (fun D s => spike a D * sin (fst D * x) + s) 0 Ds.
Proof.
  induction Ds as [|D Ds IH]; cbn [map series fold_right]; [cbn; lra|].
  fold (series (map (fun D => (RtoC 1, D)) Ds) x 0) (series (map (fun D => (spiked a D, D)) Ds) x 0). rewrite <- IH.
  unfold Cplus, Cmult. cbn [fst snd spiked expi RtoC]. rewrite Rmult_0_r, Rplus_0_r. ring.
Qed.
Lemma gap_pos a x Ds : sin (a * x) = 1 -> In (a, 0) Ds -> 1 / 10 ^ 11 <= fold_right (fun D s => spike a D * sin (fst D * x) + s) 0 Ds.
Proof.
  intros Hx. assert (Q : 0 < 1 / 10 ^ 11) by lra.
  assert (T : forall D, 0 <= spike a D * sin (fst D * x)).
  { intros [u v]. unfold spike. cbn [fst snd]. destruct (Req_EM_T v 0); [|lra]. destruct (Req_EM_T u a) as [->|N]; [rewrite Hx; lra|].
    destruct (Req_EM_T u (- a)) as [->|N']; [|lra]. replace (- a * x) with (- (a * x)) by ring. rewrite sin_neg, Hx. lra. }
  assert (S0 : forall l, 0 <= fold_right (fun D s => spike a D * sin (fst D * x) + s) 0 l).
  { induction l as [|D l IH]; cbn [fold_right]; [lra|]. specialize (T D). lra. }
  induction Ds as [|D l IH]; [easy|]. intros [->|H]; cbn [fold_right].
  - specialize (S0 l). unfold spike at 1. cbn [fst snd]. destruct (Req_EM_T 0 0); [|lra]. destruct (Req_EM_T a a); [|lra]. rewrite Hx. lra.
  - specialize (IH H). specialize (T D). lra.
Qed.

Lemma square_plane_waves L : lattice_init (LatName "square") = Ok L -> In (2 * PI, 0) (rc_g (recip_tbt L 1)) /\ In (0, 0) (rc_g (recip_tbt L 1)).
Proof.
  intros HL. destruct (square_b L HL) as [B1 B2]. pose proof (named_independent _ _ HL) as HI.
  destruct (tbt_set _ L 1 HL HI ltac:(lra)) as (n1 & n2 & I1 & I2 & _ & _ & _ & _ & _ & HS & _).
  assert (N1 : (1 <= n1)%nat).
  { destruct I1 as [_ I1]. rewrite B1 in I1. unfold len in I1. cbn [fst snd] in I1.
    assert (sqrt (2 * PI * (2 * PI) + 0 * 0) = 2 * PI).
    { replace (2 * PI * (2 * PI) + 0 * 0) with ((2 * PI) * (2 * PI)) by ring. apply sqrt_square. pose proof PI_RGT_0. lra. }
    destruct n1; [exfalso|lia]. pose proof PI_RGT_0.
    match type of I1 with ?a < _ => assert (E : a = 1) end.
    { match goal with |- _ / ?s = 1 => assert (s = 2 * PI) as -> end; [|field; lra].
      etransitivity; [|exact H]. f_equal. }
    rewrite E in I1. simpl in I1. lra. }
  split; apply HS.
  - exists 1%Z, 0%Z. split; [lia|]. split; [lia|]. rewrite B1, B2. unfold comb. cbn [fst snd]. f_equal; ring.
  - exists 0%Z, 0%Z. split; [lia|]. split; [lia|]. rewrite B1, B2. unfold comb. cbn [fst snd]. f_equal; ring.
Qed.

Lemma dropped : exists L ft x y, lattice_init (LatName "square") = Ok L /\ conj_symmetric ft /\
  let rc := recip_tbt L 1 in let gs := rc_g rc in
  let v := get_eps_tbt (T1_tbt ft rc) (T2_tbt ft rc) (G1_of gs) (G2_of gs (Z.to_nat (rc_n1 rc)) (Z.to_nat (rc_n2 rc))) x y in
  forall Ds, NoDup Ds -> (forall D, In D Ds <-> exists g g', In g gs /\ In g' gs /\ D = diff g g') ->
  v <> series (map (fun D => (ft D, D)) Ds) x y.
Proof.
  destruct (lattice_init (LatName "square")) as [L|e] eqn:HL; [|discriminate].
  exists L, (spiked (2 * PI)), (1 / 4), 0. split; auto. pose proof PI_RGT_0.
  split; [apply spiked_conj; lra|]. intros rc gs v Ds ND HD.
  pose proof (named_independent _ _ HL) as HI.
  destruct (square_plane_waves L HL) as [W1 W0]. fold rc gs in W1, W0.
  set (one := fun _ : R * R => RtoC 1).
  assert (Hone : conj_symmetric one). { intros g. unfold one. rewrite Cconj_R. auto. }
  destruct (eps_map _ L 1 one (1 / 4) 0 HL HI ltac:(lra) Hone) as (terms & E1 & E2 & E3 & E4 & _). fold rc gs in E1, E3.
  assert (EV : v = series terms (1 / 4) 0).
  { rewrite <- E1. unfold v, T1_tbt, T2_tbt. f_equal; unfold one; apply snap_spiked.
    - fold gs. unfold G1_of. destruct gs; [easy|discriminate].
    - destruct (tbt_set _ L 1 HL HI ltac:(lra)) as (n1 & n2 & _ & _ & R1 & R2 & LEN & _). fold rc in R1, R2, LEN. rewrite R1, R2, !Nat2Z.id.
      replace (2 * n1 + 1)%nat with (S (2 * n1)) by lia. replace (2 * n2 + 1)%nat with (S (2 * n2)) by lia. unfold G2_of. discriminate. }
  assert (ET : series terms (1 / 4) 0 = series (map (fun D => (RtoC 1, D)) Ds) (1 / 4) 0).
  { transitivity (series (map (fun D => (RtoC 1, D)) (map snd terms)) (1 / 4) 0).
    - f_equal. rewrite map_map. rewrite <- (map_id terms) at 1. apply map_ext_in. intros t Ht. rewrite Forall_forall in E4.
      destruct t as [c D]. cbn [snd]. f_equal. destruct (E4 _ Ht) as [Q|[Q _]]; cbn [fst snd] in Q; rewrite Q; auto.
    - apply series_perm. apply Permutation_map. apply NoDup_Permutation; auto. intros D. rewrite E3, HD. reflexivity. }
  rewrite EV, ET. intros E. pose proof (series_gap (2 * PI) (1 / 4) Ds) as G. rewrite <- E in G.
  assert (B : 1 / 10 ^ 11 <= fold_right (fun D s => spike (2 * PI) D * sin (fst D * (1 / 4)) + s) 0 Ds).
  { apply gap_pos.
    - replace (2 * PI * (1 / 4)) with (PI / 2) by field. apply sin_PI2.
    - apply HD. exists (2 * PI, 0), (0, 0). split; auto. split; auto. unfold diff. cbn [fst snd]. f_equal; ring. }
  rewrite <- G in B. assert (0 < 1 / 10 ^ 11) by lra. lra.
Qed.

(** ** 'abs' *)
From Coq Require Import FinFun.
From Verif Require Import RecipProofs3 RecipProofs4.
Section UNIQUE.
Variables (L : lattice) (ft : R * R -> C) (rc : recip) (sel : list (Z * Z)).
Hypothesis Hg : rc_g rc = map (cmb (lt_b1 L) (lt_b2 L)) sel.
Hypothesis Hi : combine (rc_i1 rc) (rc_i2 rc) = sel.
Hypothesis Hb : independent (lt_b1 L) (lt_b2 L).
Let u := np_unique (grid_diff zz_sub sel).
Lemma sel_diff w : In w u <-> exists a b, In a sel /\ In b sel /\ w = zz_sub a b.
Proof.
  unfold u. rewrite unique_in. unfold grid_diff. rewrite in_flat_map. split.
  - intros (x & Hx & H). apply in_map_iff in H. destruct H as (z & <- & Hz). eauto.
  - intros (a & b & Ha & Hb' & ->). exists b. split; auto. apply in_map_iff. eauto.
Qed.
Lemma unique_vectors : G1_unique L rc = map (cmb (lt_b1 L) (lt_b2 L)) u.
Proof. unfold G1_unique. rewrite Hi, gvec_cmb, combine_split. reflexivity. Qed.
Lemma unique_nodup : NoDup (G1_unique L rc).
Proof. rewrite unique_vectors. apply Injective_map_NoDup; [intros x y; apply cmb_inj; auto|]. apply srt_nodup, unique_srt. Qed.
Lemma unique_is_diff D : In D (G1_unique L rc) <-> exists g g', In g (rc_g rc) /\ In g' (rc_g rc) /\ D = diff g g'.
Proof.
  rewrite unique_vectors, Hg, in_map_iff. split.
  - intros (w & <- & Hw). apply sel_diff in Hw. destruct Hw as (a & b & Ha & Hb' & ->).
    exists (cmb (lt_b1 L) (lt_b2 L) a), (cmb (lt_b1 L) (lt_b2 L) b). split; [apply in_map; auto|]. split; [apply in_map; auto|]. symmetry. apply cmb_diff.
  - intros (g & g' & H1 & H2 & ->). apply in_map_iff in H1, H2. destruct H1 as (a & <- & Ha). destruct H2 as (b & <- & Hb').
    exists (zz_sub a b). split; [symmetry; apply cmb_diff|]. apply sel_diff. eauto.
Qed.
Lemma unique_coeffs : conj_symmetric ft -> sel <> [] -> T1_unique L ft rc = map ft (G1_unique L rc).
Proof.
  intros Hc Hn.
  assert (Hs : srt u) by apply unique_srt.
  assert (Ho : forall x, In x u -> In (zopp x) u).
  { intros x Hx. apply sel_diff in Hx. destruct Hx as (a & b & Ha & Hb' & ->). apply sel_diff. exists b, a. split; auto. split; auto. unfold zz_sub, zopp; cbn [fst snd]. f_equal; lia. }
  assert (H0 : In (0, 0)%Z u).
  { assert (X : exists a, In a sel) by (clear -Hn; destruct sel as [|a t]; [easy|exists a; left; auto]). destruct X as [a Ha].
    apply sel_diff. exists a, a. split; auto. split; auto. unfold zz_sub. f_equal; lia. }
  unfold T1_unique. rewrite unique_vectors, Hi. fold u.
  assert (SM : forall e, slice 0 e (map (cmb (lt_b1 L) (lt_b2 L)) u) = map (cmb (lt_b1 L) (lt_b2 L)) (slice 0 e u)) by (intros; unfold slice; cbn [skipn]; apply firstn_map).
  rewrite SM, !map_map. set (F := fun y => ft (cmb (lt_b1 L) (lt_b2 L) y)).
  assert (HF : forall x, F (zopp x) = Cconj (F x)) by (intros x; unfold F; rewrite cmb_opp; apply Hc).
  destruct (u_odd u Hs Ho H0) as (m & Em & _).
  cbv zeta. set (l := map F (slice 0 ((List.length u - 1) / 2 + 1) u)).
  assert (LEN : List.length (l ++ map Cconj (rev (removelast l))) = List.length u).
  { rewrite app_length, map_length, rev_length, (removelast_len u) by auto. unfold l. rewrite map_length. unfold slice. rewrite firstn_length. cbn [skipn]. rewrite Em.
    replace (2 * m + 1 - 1)%nat with (m * 2)%nat by lia. rewrite Nat.div_mul by lia. lia. }
  apply (nth_ext _ _ (RtoC 0) (RtoC 0)); [rewrite LEN, map_length; reflexivity|].
  intros k Hk. rewrite LEN in Hk. pose proof (full_nth u Hs Ho H0 F k HF Hk) as FN. cbv zeta in FN. etransitivity; [exact FN|]. symmetry. apply nth_map_lt. auto.
Qed.
End UNIQUE.

Lemma abs_map args L gmax fuel rc ft x y : lattice_init args = Ok L -> independent (lt_a1 L) (lt_a2 L) -> 0 <= gmax ->
  conj_symmetric ft -> recip_abs fuel L gmax = Some (Ok rc) ->
  exists Ds, NoDup Ds /\ (forall D, In D Ds <-> exists g g', In g (rc_g rc) /\ In g' (rc_g rc) /\ D = diff g g') /\
    get_eps_abs (T1_unique L ft rc) (G1_unique L rc) x y = series (map (fun D => (ft D, D)) Ds) x y /\
    snd (series (map (fun D => (ft D, D)) Ds) x y) = 0.
Proof.
  intros HL Hind Hg Hc HR. pose proof (indep_recip _ _ HL Hind) as Hb.
  destruct (recip_abs_form L gmax Hg Hb) as (n1 & n2 & k & _ & _ & _ & _ & _ & F & _).
  destruct (F _ _ HR) as (rc' & E & G & I & _). injection E as E. subst rc'.
  destruct (abs_set args L gmax fuel _ HL Hind Hg HR) as (rc' & k' & E & _ & ND & In0 & _). injection E as E. subst rc'.
  match type of G with _ = map _ ?s => assert (Hn : s <> []) by (intros Q; rewrite Q in G; rewrite G in In0; easy) end.
  pose proof (unique_nodup L rc _ I Hb) as UN. pose proof (unique_is_diff L rc _ G I) as UD. pose proof (unique_coeffs L ft rc _ I Hc Hn) as UC.
  exists (G1_unique L rc). split; auto. split; auto. split.
  - unfold get_eps_abs. rewrite UC. destruct (ftinv_series (fun i => nth i (map ft (G1_unique L rc)) (RtoC 0)) (G1_unique L rc) x y) as [terms [E1 [E2 [E3 E4]]]]. rewrite E1.
    apply series_perm.
    assert (Tm : terms = map (fun D => (ft D, D)) (map snd terms)).
    { rewrite map_map. rewrite <- (map_id terms) at 1. apply map_ext_in. intros t Hin. rewrite Forall_forall in E4. destruct (E4 t Hin) as [i [Hi ->]].
      cbn [fst snd]. f_equal. apply nth_map_lt. auto. }
    rewrite Tm. apply Permutation_map. apply NoDup_Permutation; auto.
  - pose proof (series_real ft (map (fun D => (RtoC 0, D)) (G1_unique L rc)) x y Hc) as X. unfold exact_terms in X. rewrite !map_map in X. cbn [snd] in X. rewrite map_id in X. apply X; auto.
    intros D. rewrite !UD. intros (g & g' & H1 & H2 & ->). exists g', g. split; auto. split; auto. unfold neg_g, diff. cbn [fst snd]. f_equal; ring.
Qed.

From Verif Require Import RecipProofs5.
Lemma abs_case : exists L fuel rc, lattice_init (LatName "square") = Ok L /\ independent (lt_a1 L) (lt_a2 L) /\
  recip_abs fuel L (3 / 2) = Some (Ok rc) /\ rc_g rc <> [] /\ conj_symmetric (fun g => (1, fst g)).
Proof.
  destruct abs_tbt_differ as (L & fuel & rc & i & j & i' & j' & gi & gj & HL & HR & _ & Hi & _).
  exists L, fuel, rc. split; auto. split; [eapply named_independent; eauto|]. split; auto. split.
  - intros E. rewrite E in Hi. destruct i; discriminate.
  - intros g. unfold opp, Cconj. cbn [fst snd]. reflexivity.
Qed.
