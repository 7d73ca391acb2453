(** More plane waves lower the exciton energies, a higher potential raises them;
    bounds. *)
From Coq Require Import Permutation List.
From Verif Require Import Py CBase LatticeModel PhcModel PhcSpec RecipModel RecipSpec RecipProofs RecipProofs2 RecipProofs3 MatElModel RunModel RunSpec RunProofs RunProofs5 PweSpec PweModel PweProofs PweProofs2 ExcSpec ExcModel ExcProofs ExcProofs2 ExcProofs3 ShapesSpec LatticeSpec.
From Verif Require Import LinProofs LinProofs2 LinProofs3 InvSpec InvProofs InvProofs2 InvProofs3 InvProofs4 EinvSpec EinvProofs EinvProofs2 EinvProofs3 EinvProofs4.
Open Scope R_scope.
Open Scope list_scope.

Lemma nth_mm (f : R -> C) es i : nth i (map (map f) es) [] = map f (nth i es []).
Proof. apply (map_nth (map f) es []). Qed.
Lemma nth_en E0 loss l b : (b < List.length l)%nat -> fst (nth b (map (fun e => (e + E0, loss)) l) (RtoC 0)) = nth b l 0 + E0.
Proof. intros H. rewrite (nth_indep _ (RtoC 0) (0 + E0, loss)), (map_nth (fun e => (e + E0, loss))) by (rewrite map_length; auto). reflexivity. Qed.
Lemma nowhere_of E0 loss loss' es es' : Forall2 (fun l l' => (List.length l <= List.length l')%nat /\ forall b, (b < List.length l)%nat -> nth b l' 0 <= nth b l 0) es es' ->
  nowhere_above_c (map (map (fun e => (e + E0, loss'))) es') (map (map (fun e => (e + E0, loss))) es).
Proof.
  intros F. assert (LE : List.length es' = List.length es) by (induction F; cbn; auto). split; [rewrite !map_length; auto|]. rewrite map_length. intros i Hi. rewrite !nth_mm, !map_length.
  assert (K : (List.length (nth i es []) <= List.length (nth i es' []))%nat /\ forall b, (b < List.length (nth i es []))%nat -> nth b (nth i es' []) 0 <= nth b (nth i es []) 0).
  { clear LE. revert i Hi. induction F as [|x y l l' H F IH]; intros [|i] Hi; cbn in Hi; try lia; [exact H|]. apply IH. lia. }
  destruct K as (K1 & K2). split; [exact K1|]. intros b Hb. rewrite !nth_en by lia. specialize (K2 b Hb). lra.
Qed.
Lemma transform_incl area ly V gs gs' pot : incl gs gs' -> transform_of area ly V gs' pot -> transform_of area ly V gs pot.
Proof. intros I T ds H0 Hd. apply T; auto. intros D HD. destruct (Hd D HD) as (g & g' & A & B & ->). exists g, g'. auto. Qed.
(** the layer depends on the structure and z alone *)
Lemma init_layer fuel P z V a M E0 loss osc gmax tr s fuel' V' a' M' E0' loss' osc' gmax' tr' s' : exc_init fuel P z V a M E0 loss osc gmax tr = Some (Ok s) ->
  exc_init fuel' P z V' a' M' E0' loss' osc' gmax' tr' = Some (Ok s') -> tr = "tbt"%string \/ tr = "abs"%string -> tr' = "tbt"%string \/ tr' = "abs"%string -> ex_layer s' = ex_layer s.
Proof.
  assert (G : forall fuel V a M E0 loss osc gmax tr s, exc_init fuel P z V a M E0 loss osc gmax tr = Some (Ok s) -> tr = "tbt"%string \/ tr = "abs"%string -> nth_error (pc_layers P) (z_to_lind P z - 1) = Some (ex_layer s)).
  { clear. intros fuel V a M E0 loss osc gmax tr s H Htr. unfold exc_init in H. cbv zeta in H. destruct (_ || _)%bool in H; [discriminate|]. destruct (nth_error _ _) as [ly|]; [|discriminate]. f_equal.
    destruct (check_osc osc); [|discriminate]. destruct Htr as [->| ->]; cbn [String.eqb Ascii.eqb Bool.eqb] in H.
    - destruct (pot_tbt _ _ _ _) as [[]|] in H; [|discriminate]. cbn [bind] in H. injection H as <-. reflexivity.
    - destruct (recip_abs _ _ _) as [[rc|]|]; [|discriminate..]. cbn [bind] in H. destruct (pot_abs _ _ _ _) as [[]|] in H; [|discriminate]. cbn [bind] in H. injection H as <-. reflexivity. }
  intros H H' T T'. apply G in H; auto. apply G in H'; auto. congruence.
Qed.
Lemma tbt_incl args L gmax gmax' : lattice_init args = Ok L -> independent (lt_a1 L) (lt_a2 L) -> 0 <= gmax <= gmax' -> incl (rc_g (recip_tbt L gmax)) (rc_g (recip_tbt L gmax')).
Proof.
  intros HL Hi Hg. destruct (tbt_set args L gmax HL Hi ltac:(lra)) as (n1 & n2 & I1 & I2 & _ & _ & _ & _ & _ & K & _).
  destruct (tbt_set args L gmax' HL Hi ltac:(lra)) as (n1' & n2' & I1' & I2' & _ & _ & _ & _ & _ & K' & _).
  pose proof PI_RGT_0 as HP.
  assert (LE : forall b n n', integer_part (2 * PI * gmax / len b) n -> integer_part (2 * PI * gmax' / len b) n' -> (n <= n')%nat).
  { intros b n n' (A & _) (_ & B). assert (X : 2 * PI * gmax / len b <= 2 * PI * gmax' / len b).
    { unfold Rdiv. apply Rmult_le_compat_r; [|nra]. destruct (Rle_lt_or_eq_dec 0 (len b)) as [P|P]; [apply sqrt_pos|left; apply Rinv_0_lt_compat; auto|]. rewrite <- P, Rinv_0. lra. }
    assert (Y : INR n < INR (S n')) by (rewrite S_INR; lra). apply INR_lt in Y. lia. }
  pose proof (LE _ _ _ I1 I1'). pose proof (LE _ _ _ I2 I2').
  intros g Hgs. apply K in Hgs. destruct Hgs as (i & j & A & B & ->). apply K'. exists i, j. split; [lia|]. split; [lia|reflexivity].
Qed.
Section Two.
Variable argsort : list R -> list nat.
Variable eigh : nat -> cmat -> list R * cmat.
Hypothesis Hs : sorts argsort.
Hypothesis He : diagonalises eigh.
Lemma more_exc fuel fuel' P z V a M E0 loss osc gmax gmax' tr args pot s s' ks m :
  exc_init fuel P z V a M E0 loss osc gmax tr = Some (Ok s) -> exc_init fuel' P z V a M E0 loss osc gmax' tr = Some (Ok s') ->
  tr = "tbt"%string \/ tr = "abs"%string -> lattice_init args = Ok (pc_lattice P) -> independent (lt_a1 (pc_lattice P)) (lt_a2 (pc_lattice P)) -> 0 <= gmax -> 0 <= gmax' ->
  conj_symmetric pot -> transform_of (lt_ec_area (pc_lattice P)) (ex_layer s) V (rc_g (ex_rc s')) pot -> ks <> [] -> incl (rc_g (ex_rc s)) (rc_g (ex_rc s')) ->
  exists es es', snd (exc_run argsort eigh s ks m) = Ok tt /\ snd (exc_run argsort eigh s' ks m) = Ok tt /\ List.length es = List.length ks /\
    ex_eners (fst (exc_run argsort eigh s ks m)) = Some es /\ ex_eners (fst (exc_run argsort eigh s' ks m)) = Some es' /\ nowhere_above_c es' es.
Proof.
  intros HI HI' Htr HL Hi Hg Hg' Hc Ht Ne IN.
  destruct (exc_waves _ _ _ _ _ _ _ _ _ _ _ _ _ HI Htr HL Hi Hg) as (ND & _). destruct (exc_waves _ _ _ _ _ _ _ _ _ _ _ _ _ HI' Htr HL Hi Hg') as (ND' & _).
  pose proof (init_layer _ _ _ _ _ _ _ _ _ _ _ _ _ _ _ _ _ _ _ _ _ _ HI HI' Htr Htr) as EL.
  set (gs := rc_g (ex_rc s)) in *. set (gs' := rc_g (ex_rc s')) in *.
  destruct (index_of gs' (fun i => gat gs i) (List.length gs)) as (ix & X); [intros i Hi'; apply IN, nth_In; auto|].
  assert (Inj : forall i j, (i < List.length gs)%nat -> (j < List.length gs)%nat -> ix i = ix j -> i = j).
  { intros i j Hi' Hj E. apply (proj1 (NoDup_nth gs (0, 0)) ND); auto. transitivity (gat gs' (ix i)); [symmetry; apply X; auto|]. rewrite E. apply X; auto. }
  destruct (exc_pair argsort eigh Hs He fuel P z V a M E0 loss osc gmax tr args pot s fuel' P z V a M E0 loss osc gmax' tr args pot s' ks ks m eq
    (fun l l' => (List.length l <= List.length l')%nat /\ forall b, (b < List.length l)%nat -> nth b l' 0 <= nth b l 0)) as (es & es' & O & O' & LE & E & E' & Q); auto.
  - eapply transform_incl; eauto.
  - rewrite EL. exact Ht.
  - clear. induction ks; constructor; auto.
  - intros k k' es vs es' vs' <- L L'. fold gs in L. fold gs' in L'. eapply (levels_embedded (List.length gs) (List.length gs') ix); eauto; [intros i Hi'; apply X; auto|apply (NoDup_incl_length ND IN)|].
    intros v. right. f_equal. apply form_ext. intros i j Hi' Hj. unfold schroedinger. destruct (X i Hi') as (_ & ->). destruct (X j Hj) as (_ & ->).
    destruct (Nat.eqb_spec i j) as [->|Nij]; [rewrite Nat.eqb_refl; reflexivity|]. destruct (Nat.eqb_spec (ix i) (ix j)) as [Z|_]; [exfalso; apply Nij, Inj; auto|reflexivity].
  - eexists _, _. split; [exact O|]. split; [exact O'|]. split; [|split; [exact E|split; [exact E'|apply nowhere_of; exact Q]]]. rewrite map_length. exact LE.
Qed.
(** a layer with one shape: raising the barrier from V to V' *)
Lemma raise_exc fuel P z V V' a M E0 loss osc gmax tr args sh d s s' ks m :
  exc_init fuel P z V a M E0 loss osc gmax tr = Some (Ok s) -> exc_init fuel P z V' a M E0 loss osc gmax tr = Some (Ok s') ->
  tr = "tbt"%string \/ tr = "abs"%string -> lattice_init args = Ok (pc_lattice P) -> independent (lt_a1 (pc_lattice P)) (lt_a2 (pc_lattice P)) -> 0 <= gmax -> 0 < lt_ec_area (pc_lattice P) ->
  ly_shapes (ex_layer s) = [sh] -> conj_symmetric (sh_ft sh) -> 0 <= fst (sh_ft sh (0, 0)) -> separated (rc_g (ex_rc s)) -> near_integral sh d (rc_g (ex_rc s)) ->
  0 < V <= V' -> ks <> [] ->
  exists es es', snd (exc_run argsort eigh s ks m) = Ok tt /\ snd (exc_run argsort eigh s' ks m) = Ok tt /\ List.length es = List.length ks /\ List.length es' = List.length ks /\
    ex_eners (fst (exc_run argsort eigh s ks m)) = Some es /\ ex_eners (fst (exc_run argsort eigh s' ks m)) = Some es' /\
    forall i, (i < List.length ks)%nat -> List.length (nth i es' []) = List.length (nth i es []) /\
      forall b, (b < List.length (nth i es []))%nat -> fst (nth b (nth i es []) (RtoC 0)) <= fst (nth b (nth i es' []) (RtoC 0)) + INR (List.length (rc_g (ex_rc s))) * d * (V' - V) / lt_ec_area (pc_lattice P).
Proof.
  intros HI HI' Htr HL Hi Hg Ha HS Hc Z1 Sp NI HV Ne.
  pose proof (init_layer _ _ _ _ _ _ _ _ _ _ _ _ _ _ _ _ _ _ _ _ _ _ HI HI' Htr Htr) as EL.
  pose proof (init_waves _ _ _ _ _ _ _ _ _ _ _ _ _ _ _ _ _ _ _ _ _ HI HI' eq_refl Htr) as ER.
  assert (Z2 : snd (sh_ft sh (0, 0)) = 0).
  { pose proof (Hc (0, 0)) as H. replace (opp (0, 0)) with (0, 0) in H by (unfold opp; cbn; f_equal; ring). apply (f_equal snd) in H. cbn in H. lra. }
  set (area := lt_ec_area (pc_lattice P)) in *. set (gs := rc_g (ex_rc s)) in *. set (n := List.length gs).
  set (pot := fun W g => Cdiv (Cmult (RtoC W) (sh_ft sh g)) (RtoC area)).
  assert (PC : forall W, conj_symmetric (pot W)). { intros W g. unfold pot. rewrite Cconj_div, Cconj_mult, !Cconj_R. do 2 f_equal. apply Hc. }
  set (c := INR n * d * (V' - V) / area).
  destruct (exc_pair argsort eigh Hs He fuel P z V a M E0 loss osc gmax tr args (pot V) s fuel P z V' a M E0 loss osc gmax tr args (pot V') s' ks ks m eq
    (fun l l' => List.length l = List.length l' /\ forall b, (b < List.length l')%nat -> nth b l 0 <= nth b l' 0 + c)) as (es & es' & O & O' & LE & E & E' & Q); auto.
  - apply one_transform; auto; lra.
  - fold area. rewrite ER, EL. apply one_transform; auto; lra.
  - clear. induction ks; constructor; auto.
  - intros k k' es vs es' vs' <- L L'. rewrite ER in L'. fold gs n in L, L'. eapply (levels_within n m); eauto. intros v.
    rewrite (form_ext n (schroedinger hbar qe M a (flip (String.eqb tr "abs") (pot V')) gs k)
      (fun i j => (schroedinger hbar qe M a (flip (String.eqb tr "abs") (pot V)) gs k i j + RtoC ((V' - V) / area) * flip (String.eqb tr "abs") (sh_ft sh) (diff (gat gs i) (gat gs j)))%C)).
    2:{ intros i j Hi' Hj. unfold schroedinger, flip, pot. destruct (String.eqb tr "abs"); unfold Cdiv; rewrite <- RtoC_inv by lra; unfold Rdiv; rewrite RtoC_mult, RtoC_minus; ring. }
    rewrite form_add, form_scale. pose proof (shape_form sh d gs (String.eqb tr "abs") v NI) as SF. fold n in SF.
    set (q := cdot n v (mvec n (fun i j => flip (String.eqb tr "abs") (sh_ft sh) (diff (gat gs i) (gat gs j))) v)) in *.
    assert (X : 0 <= (V' - V) / area) by (apply Rmult_le_pos; [lra|left; apply Rinv_0_lt_compat; exact Ha]).
    assert (Y : (V' - V) / area * - (INR n * d * nrm n v) <= (V' - V) / area * fst q) by (apply Rmult_le_compat_l; auto).
    replace (c * nrm n v) with ((V' - V) / area * (INR n * d * nrm n v)) by (unfold c; field; lra).
    set (p := cdot n v _). unfold Cplus, Cmult, RtoC. cbn [fst snd]. set (w := (V' - V) / area) in *. clearbody w p q. lra.
  - exists (map (map (fun e => (e + E0, loss))) es), (map (map (fun e => (e + E0, loss))) es'). split; [exact O|]. split; [exact O'|]. split; [rewrite map_length; exact LE|]. assert (LE' : List.length es' = List.length es) by (clear -Q; induction Q; cbn; auto). split; [rewrite map_length; lia|].
    split; [exact E|]. split; [exact E'|]. intros i Hik. rewrite !nth_mm, !map_length. rewrite <- LE in Hik. clear LE LE' E E' O O'.
    assert (K : List.length (nth i es []) = List.length (nth i es' []) /\ forall b, (b < List.length (nth i es' []))%nat -> nth b (nth i es []) 0 <= nth b (nth i es' []) 0 + c).
    { revert i Hik. induction Q as [|x y l l' H F IH]; intros [|i] Hik; cbn in Hik; try lia; [exact H|]. apply IH. lia. }
    destruct K as (K1 & K2). split; [auto|]. intros b Hb. rewrite !nth_en by lia. specialize (K2 b ltac:(lia)). lra.
Qed.
(** bounds for a layer with one shape *)
Lemma bounds_exc fuel P z V a M E0 loss osc gmax tr args sh d s ks m :
  exc_init fuel P z V a M E0 loss osc gmax tr = Some (Ok s) ->
  tr = "tbt"%string \/ tr = "abs"%string -> lattice_init args = Ok (pc_lattice P) -> independent (lt_a1 (pc_lattice P)) (lt_a2 (pc_lattice P)) -> 0 <= gmax -> 0 < lt_ec_area (pc_lattice P) ->
  ly_shapes (ex_layer s) = [sh] -> conj_symmetric (sh_ft sh) -> 0 <= fst (sh_ft sh (0, 0)) -> separated (rc_g (ex_rc s)) -> near_integral sh d (rc_g (ex_rc s)) ->
  0 < V -> 0 < M -> ks <> [] ->
  exists es, snd (exc_run argsort eigh s ks m) = Ok tt /\ List.length es = List.length ks /\ ex_eners (fst (exc_run argsort eigh s ks m)) = Some es /\
    forall i k, nth_error ks i = Some k ->
      (forall b, (b < List.length (nth i es []))%nat -> E0 - INR (List.length (rc_g (ex_rc s))) * d * V / lt_ec_area (pc_lattice P) <= fst (nth b (nth i es []) (RtoC 0))) /\
      (forall g, In g (rc_g (ex_rc s)) -> (0 < m)%nat -> fst (nth 0 (nth i es []) (RtoC 0)) <= E0 + free_energy hbar qe M a k g + V * fst (sh_ft sh (0, 0)) / lt_ec_area (pc_lattice P)).
Proof.
  intros HI Htr HL Hi Hg Ha HS Hc Z1 Sp NI HV HM Ne.
  assert (Z2 : snd (sh_ft sh (0, 0)) = 0).
  { pose proof (Hc (0, 0)) as H. replace (opp (0, 0)) with (0, 0) in H by (unfold opp; cbn; f_equal; ring). apply (f_equal snd) in H. cbn in H. lra. }
  set (area := lt_ec_area (pc_lattice P)) in *. set (gs := rc_g (ex_rc s)) in *. set (n := List.length gs).
  set (pot := fun g => Cdiv (Cmult (RtoC V) (sh_ft sh g)) (RtoC area)).
  assert (PC : conj_symmetric pot). { intros g. unfold pot. rewrite Cconj_div, Cconj_mult, !Cconj_R. do 2 f_equal. apply Hc. }
  assert (Ht : transform_of area (ex_layer s) V gs pot) by (apply one_transform; auto; lra).
  destruct (exc_whole argsort eigh Hs He fuel P z V a M E0 loss osc gmax tr args pot s HI Htr HL Hi Hg PC Ht ks m Ne) as (s1 & es & vs & R1 & R2 & _ & _ & R5 & _ & R7).
  exists (map (map (fun e => (e + E0, loss))) es). rewrite R1. split; [reflexivity|]. split; [rewrite map_length; auto|]. split; [exact R2|].
  intros i k Hk. rewrite nth_mm, map_length. destruct (R7 i k Hk) as (ls & W & (E1 & E2 & E3) & As & LL & _). fold gs n in E1, E2, E3. rewrite LL. rewrite firstn_length, E1.
  set (S0 := schroedinger hbar qe M a (flip (String.eqb tr "abs") pot) gs k) in *.
  assert (FE : forall g, 0 <= free_energy hbar qe M a k g).
  { intros g. unfold free_energy. apply Rmult_le_pos; [apply Rmult_le_pos; apply pow2_ge_0|]. left. apply Rinv_0_lt_compat. unfold qe. lra. }
  split.
  - intros b Hb. rewrite nth_en by (rewrite firstn_length; lia). rewrite firstn_nth by lia.
    set (v := fun i => W i b). assert (Ev : fst (cdot n v (mvec n S0 v)) = nth b ls 0).
    { transitivity (fst (RtoC (nth b ls 0) * cdot n v v)%C).
      - f_equal. unfold cdot. rewrite <- csum_scal_l. apply csum_ext. intros i' Hi'. pose proof (E3 i' b Hi' ltac:(lia)) as E3'. fold v in E3'. rewrite E3'. change (W i' b) with (v i'). ring.
      - unfold cdot, v. rewrite E2, Nat.eqb_refl by lia. cbn. ring. }
    assert (Nv : nrm n v = 1). { pose proof (cdot_nrm n v) as H. unfold cdot, v in H. rewrite E2, Nat.eqb_refl in H by lia. apply (f_equal fst) in H. cbn in H. symmetry. exact H. }
    rewrite (form_ext n S0 (fun i j => ((if Nat.eqb i j then RtoC (free_energy hbar qe M a k (gat gs i)) else RtoC 0) + RtoC (V / area) * flip (String.eqb tr "abs") (sh_ft sh) (diff (gat gs i) (gat gs j)))%C)) in Ev.
    2:{ intros i' j Hi' Hj. unfold S0, schroedinger, flip, pot. destruct (String.eqb tr "abs"); unfold Cdiv; rewrite <- RtoC_inv by lra; unfold Rdiv; rewrite RtoC_mult; ring. }
    rewrite form_add, form_scale in Ev. pose proof (shape_form sh d gs (String.eqb tr "abs") v NI) as SF. fold n in SF. rewrite Nv in SF.
    set (q := cdot n v (mvec n (fun i j => flip (String.eqb tr "abs") (sh_ft sh) (diff (gat gs i) (gat gs j))) v)) in *.
    assert (K : 0 <= fst (cdot n v (mvec n (fun i j => if Nat.eqb i j then RtoC (free_energy hbar qe M a k (gat gs i)) else RtoC 0) v))).
    { unfold cdot. apply Rle_trans with (fst (csum n (fun _ => RtoC 0))); [rewrite csum_0 by auto; cbn; lra|]. apply fst_csum_le. intros i' Hi'. unfold mvec.
      rewrite (csum_ext n _ (fun j => if Nat.eqb j i' then (RtoC (free_energy hbar qe M a k (gat gs i')) * v i')%C else RtoC 0)).
      2:{ intros j Hj. rewrite (Nat.eqb_sym i' j). destruct (Nat.eqb_spec j i') as [->|]; ring. }
      rewrite csum_delta by auto. specialize (FE (gat gs i')). pose proof (sqm_nonneg (v i')) as SQ. unfold sqm in SQ. destruct (v i') as [p r]. cbn in *. nra. }
    set (kk := cdot n v (mvec n (fun i j => if Nat.eqb i j then RtoC (free_energy hbar qe M a k (gat gs i)) else RtoC 0) v)) in *.
    unfold Cplus, Cmult, RtoC in Ev. cbn [fst snd] in Ev. assert (X : 0 <= V / area) by (apply Rmult_le_pos; [lra|left; apply Rinv_0_lt_compat; exact Ha]).
    assert (Y : V / area * - (INR n * d * 1) <= V / area * fst q) by (apply Rmult_le_compat_l; auto).
    replace (INR n * d * V / area) with (V / area * (INR n * d * 1)) by (field; lra). lra.
  - intros g Hgs Hm. destruct (In_nth _ _ (0, 0) Hgs) as (j & Hj & Eg). fold n in Hj.
    rewrite nth_en by (rewrite firstn_length; lia). rewrite firstn_nth by lia.
    assert (DV : S0 j j = RtoC (free_energy hbar qe M a k g + V * fst (sh_ft sh (0, 0)) / area)).
    { unfold S0, schroedinger. rewrite Nat.eqb_refl, diff_same. replace (gat gs j) with g by (symmetry; exact Eg).
      replace (flip (String.eqb tr "abs") pot (0, 0)) with (pot (0, 0)) by (unfold flip; destruct (String.eqb tr "abs"); auto; unfold opp; cbn; do 2 f_equal; ring).
      unfold pot. rewrite (surjective_pairing (sh_ft sh (0, 0))), Z2. unfold Cdiv. rewrite <- RtoC_inv by lra. apply Ceq; cbn; [field; lra|ring]. }
    pose proof (eigs_embedded 1 n (fun _ => j) (fun _ _ => Hj) (fun i j Hi Hj _ => ltac:(lia)) (fun _ _ => S0 j j) S0 [fst (S0 j j)] (fun _ _ => RtoC 1) ls W) as EB.
    specialize (EB). cut (nth 0 ls 0 <= fst (S0 j j)); [rewrite DV; cbn [fst RtoC]; lra|].
    apply (EB) with (b := 0%nat); auto; try lia.
    + split; [reflexivity|]. split.
      * intros a' b' A B. replace a' with 0%nat by lia. replace b' with 0%nat by lia. cbn [Nat.eqb]. cbn [csum]. rewrite ?Cconj_R. apply Ceq; cbn; ring.
      * intros a' b' A B. replace b' with 0%nat by lia. unfold mvec. cbn [nth]. rewrite DV. apply Ceq; cbn; ring.
    + split; auto.
    + intros a' b' A. cbn in A. lia.
    + intros v. lra.
Qed.
End Two.
