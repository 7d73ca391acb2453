(** The fields at the interfaces of the stack. *)
From Verif Require Import Py CBase LatticeModel PhcModel PhcSpec PhcProofs PhcProofs2 SlabSpec SlabModel MatElModel MatElSpec FieldsModel.
From Coq Require Import Lra Lia.
Open Scope R_scope.
Open Scope list_scope.

Section Forms.
Variables (P : phc) (eps : list R) (d : gkdata) (omega : R) (m : nat * gmode) (i : nat).
Let N := List.length eps.
Let g := md_g (snd m) i.
Let A l := md_A (snd m) l i.
Let B l := md_B (snd m) l i.
Let c l := md_chi (snd m) l i.
(** where heights are measured from *)
Definition zref (l : nat) : R :=
  if Nat.eqb l 0 then ly_zmax (pc_clad_l P) else if Nat.eqb l (List.length eps - 1) then ly_zmin (pc_clad_u P) else z_cent P l.
Let w l z := wave (c l) (A l) (B l) (z - zref l).
Let dw l z := dwave (c l) (A l) (B l) (z - zref l).

Hypothesis HN : (2 <= N)%nat.
Hypothesis HA : A 0%nat = RtoC 0.
Hypothesis HB : B (N - 1)%nat = RtoC 0.

Lemma cexp_neg3 (a : C) (x : R) : cexp (- Ci * a * RtoC x)%C = cexp (- (Ci * a * RtoC x))%C.
Proof. f_equal. ring. Qed.

Lemma H_form l z : basis_H P eps d m i l z =
  if Nat.even (fst m) then (Copp (dw l z) * RtoC (pkx d g), Copp (dw l z) * RtoC (pky d g), Ci * w l z * RtoC (gk_len d g))%C
  else (w l z * RtoC (pky d g), w l z * RtoC (- pkx d g), RtoC 0)%C.
Proof.
  unfold basis_H, dw, w, dwave, wave, zref, N in *. fold g. fold (A l) (B l) (c l). fold (A (List.length eps - 1)%nat) (B 0%nat) (c 0%nat) (c (List.length eps - 1)%nat).
  destruct (Nat.even (fst m)).
  - destruct (Nat.eqb_spec l 0) as [->|N0].
    + rewrite HA, cexp_neg3. apply (f_equal2 pair); [apply (f_equal2 pair)|]; try reflexivity; ring.
    + destruct (Nat.eqb_spec l (List.length eps - 1)) as [->|N1].
      * rewrite HB. apply (f_equal2 pair); [apply (f_equal2 pair)|]; try reflexivity; ring.
      * rewrite cexp_neg3. apply (f_equal2 pair); [apply (f_equal2 pair)|]; try reflexivity; ring.
  - destruct (Nat.eqb_spec l 0) as [->|N0].
    + rewrite HA, cexp_neg3. apply (f_equal2 pair); [apply (f_equal2 pair)|]; try reflexivity; ring.
    + destruct (Nat.eqb_spec l (List.length eps - 1)) as [->|N1].
      * rewrite HB. apply (f_equal2 pair); [apply (f_equal2 pair)|]; try reflexivity; ring.
      * rewrite cexp_neg3. apply (f_equal2 pair); [apply (f_equal2 pair)|]; try reflexivity; ring.
Qed.

Lemma D_form l z : basis_D P eps d omega m i l z =
  if Nat.even (fst m) then
    let a := (Ci * RtoC (md_om (snd m) i * md_om (snd m) i) * / RtoC omega * RtoC (nth l eps 0) * w l z)%C in
    (a * RtoC (pky d g), a * RtoC (- pkx d g), RtoC 0)%C
  else (- Ci * / RtoC omega * dw l z * RtoC (pkx d g), - Ci * / RtoC omega * dw l z * RtoC (pky d g),
        - RtoC 1 * / RtoC omega * RtoC (gk_len d g) * w l z)%C.
Proof.
  assert (II : (Ci * Ci = - RtoC 1)%C) by (unfold Ci, RtoC, Copp, Cmult; cbn [fst snd]; f_equal; ring).
  unfold basis_D, dw, w, dwave, wave, zref, N in *. fold g. fold (A l) (B l) (c l). fold (A (List.length eps - 1)%nat) (B 0%nat) (c 0%nat) (c (List.length eps - 1)%nat).
  unfold Cdiv. cbv zeta.
  destruct (Nat.even (fst m)).
  - destruct (Nat.eqb_spec l 0) as [->|N0].
    + rewrite HA, cexp_neg3. apply (f_equal2 pair); [apply (f_equal2 pair)|]; try reflexivity; ring.
    + destruct (Nat.eqb_spec l (List.length eps - 1)) as [->|N1].
      * rewrite HB. apply (f_equal2 pair); [apply (f_equal2 pair)|]; try reflexivity; ring.
      * rewrite cexp_neg3. apply (f_equal2 pair); [apply (f_equal2 pair)|]; try reflexivity; ring.
  - destruct (Nat.eqb_spec l 0) as [->|N0].
    + rewrite HA, cexp_neg3. apply (f_equal2 pair); [apply (f_equal2 pair)|].
      1,2: ring.
      transitivity (Ci * Ci * / RtoC omega * B 0%nat * cexp (- (Ci * c 0%nat * RtoC (z - ly_zmax (pc_clad_l P)))) * RtoC (gk_len d g))%C; [ring|].
      rewrite II. ring.
    + destruct (Nat.eqb_spec l (List.length eps - 1)) as [->|N1].
      * rewrite HB. apply (f_equal2 pair); [apply (f_equal2 pair)|].
        1,2: ring.
        transitivity (Ci * Ci * / RtoC omega * A (List.length eps - 1)%nat * cexp (Ci * c (List.length eps - 1)%nat * RtoC (z - ly_zmin (pc_clad_u P))) * RtoC (gk_len d g))%C; [ring|].
        rewrite II. ring.
      * rewrite cexp_neg3.
        set (p := cexp (Ci * c l * RtoC (z - z_cent P l))%C). set (q := cexp (- (Ci * c l * RtoC (z - z_cent P l)))%C).
        assert (E : (RtoC 1 * / RtoC omega * c l * (A l * p - B l * q) = - Ci * / RtoC omega * (Ci * c l * (A l * p - B l * q)))%C).
        { transitivity (- (Ci * Ci) * / RtoC omega * c l * (A l * p - B l * q))%C; [|ring]. rewrite II. ring. }
        rewrite E. reflexivity.
Qed.
End Forms.

Lemma all_matched_at te : forall n s (f : nat -> R * C * (C * C) * R) l, all_matched te (map f (seq s n)) -> (S l < n)%nat -> matched te (f (s + l)%nat) (f (s + S l)%nat).
Proof.
  induction n as [|[|n] IH]; intros s f l H L; try lia.
  cbn [seq map] in H. destruct H as [H1 H2].
  destruct l as [|l].
  - rewrite Nat.add_0_r, Nat.add_1_r. exact H1.
  - replace (s + S l)%nat with (S s + l)%nat by lia. replace (s + S (S l))%nat with (S s + S l)%nat by lia.
    apply IH; [|lia]. exact H2.
Qed.

Lemma total_snoc l d : total (l ++ [d]) = total l + d.
Proof. induction l as [|x l IH]; cbn [app total]; [lra|rewrite IH; lra]. Qed.
Lemma total_step ds l d : nth_error ds l = Some d -> total (firstn (S l) ds) = total (firstn l ds) + d.
Proof.
  intros H. rewrite <- total_snoc. f_equal. revert l H. induction ds as [|x ds IH]; intros [|l] H; try discriminate.
  - injection H as ->. reflexivity.
  - cbn [nth_error] in H. cbn [firstn app]. f_equal. apply IH; auto.
Qed.

Lemma refs L el eu ops eps l :
  let P := run_ops (phc_init L el eu) ops in let ds := thicknesses ops in
  List.length eps = S (S (List.length ds)) -> (l <= List.length ds)%nat ->
  let hs := 0 :: map (fun d => d / 2) ds ++ [0] in
  total (firstn l ds) - zref P eps l = nth l hs 0 /\
  total (firstn l ds) - zref P eps (S l) = - nth (S l) hs 0.
Proof.
  intros P ds HL Hl hs.
  destruct (stack_contiguous L el eu ops) as [S0 [S1 [S2 [S3 [S4 S5]]]]]. fold P ds in S0, S1, S2, S3, S4, S5.
  assert (IN : forall k, (0 < k <= List.length ds)%nat ->
     zref P eps k = total (firstn (k - 1) ds) + nth k hs 0 /\ total (firstn k ds) = total (firstn (k - 1) ds) + 2 * nth k hs 0).
  { intros k Hk. destruct k as [|k]; [lia|]. replace (S k - 1)%nat with k by lia.
    destruct (nth_error (pc_layers P) k) as [ly|] eqn:E; [|apply nth_error_None in E; lia].
    destruct (S1 k ly E) as [d [D1 [D2 [D3 D4]]]].
    assert (NH : nth (S k) hs 0 = d / 2).
    { unfold hs. cbn [nth]. rewrite app_nth1 by (rewrite map_length; lia).
      rewrite (nth_indep _ 0 (0 / 2)) by (rewrite map_length; lia).
      rewrite (map_nth (fun d => d / 2)). rewrite (nth_error_nth ds k 0 D1). reflexivity. }
    rewrite NH. rewrite (total_step _ _ _ D1). split; [|lra].
    unfold zref. destruct (Nat.eqb_spec (S k) 0); [lia|]. destruct (Nat.eqb_spec (S k) (List.length eps - 1)); [lia|].
    unfold z_cent. replace (S k - 1)%nat with k by lia. rewrite E, D2, D3, (total_step _ _ _ D1). lra. }
  split.
  - destruct (Nat.eq_dec l 0) as [->|N0].
    + unfold zref. cbn [Nat.eqb firstn total hs nth]. rewrite S2. lra.
    + destruct (IN l ltac:(lia)) as [I1 I2]. lra.
  - destruct (Nat.eq_dec l (List.length ds)) as [->|N1].
    + unfold zref. destruct (Nat.eqb_spec (S (List.length ds)) 0); [lia|].
      destruct (Nat.eqb_spec (S (List.length ds)) (List.length eps - 1)); [|lia].
      rewrite S4, firstn_all. unfold hs. cbn [nth].
      rewrite app_nth2 by (rewrite map_length; lia). rewrite map_length, Nat.sub_diag. cbn [nth]. lra.
    + destruct (IN (S l) ltac:(lia)) as [I1 I2]. replace (S l - 1)%nat with l in * by lia. lra.
Qed.

Lemma fields_continuous L el eu ops eps gd omega m i :
  let P := run_ops (phc_init L el eu) ops in let ds := thicknesses ops in
  let hs := 0 :: map (fun d => d / 2) ds ++ [0] in
  List.length eps = S (S (List.length ds)) -> Forall (fun e => e <> 0) eps ->
  md_A (snd m) 0%nat i = RtoC 0 -> md_B (snd m) (S (List.length ds)) i = RtoC 0 ->
  all_matched (Nat.even (fst m)) (map (fun l => (nth l eps 0, md_chi (snd m) l i, (md_A (snd m) l i, md_B (snd m) l i), nth l hs 0)) (seq 0 (List.length eps))) ->
  forall l, (l <= List.length ds)%nat ->
  let z := total (firstn l ds) in
  let D := basis_D P eps gd omega m i in
  basis_H P eps gd m i l z = basis_H P eps gd m i (S l) z /\
  cz (D l z) = cz (D (S l) z) /\
  (cx (D l z) / RtoC (nth l eps 0) = cx (D (S l) z) / RtoC (nth (S l) eps 0))%C /\
  (cy (D l z) / RtoC (nth l eps 0) = cy (D (S l) z) / RtoC (nth (S l) eps 0))%C.
Proof.
  intros P ds hs HL HE HA HB HM l Hl z D.
  assert (HB' : md_B (snd m) (List.length eps - 1) i = RtoC 0) by (rewrite HL; replace (S (S (List.length ds)) - 1)%nat with (S (List.length ds)) by lia; exact HB).
  pose proof (all_matched_at _ _ 0%nat _ l HM ltac:(lia)) as M. cbn [Nat.add] in M.
  destruct (refs L el eu ops eps l HL Hl) as [R1 R2]. fold P ds hs z in R1, R2.
  assert (NZ : forall k, (k < List.length eps)%nat -> RtoC (nth k eps 0) <> RtoC 0).
  { intros k Hk E. apply RtoC_inj in E. rewrite Forall_forall in HE. apply (HE (nth k eps 0)); [apply nth_In; auto|exact E]. }
  pose proof (NZ l ltac:(lia)) as N1. pose proof (NZ (S l) ltac:(lia)) as N2.
  unfold D. rewrite !H_form by (auto; lia). rewrite !D_form by (auto; lia). rewrite R1, R2.
  unfold matched in M. destruct M as [M1 M2].
  destruct (Nat.even (fst m)).
  - cbv zeta. unfold cx, cy, cz. cbn [fst snd]. rewrite M1, M2. split; [reflexivity|]. split; [reflexivity|].
    assert (CAN : forall k e y q : C, e <> RtoC 0 -> (k * e * y * q / e = k * y * q)%C).
    { intros k e y q He. unfold Cdiv. transitivity (k * y * q * (e * / e))%C; [ring|]. rewrite Cinv_r by exact He. ring. }
    rewrite !CAN by assumption. split; reflexivity.
  - unfold cx, cy, cz. cbn [fst snd]. rewrite M1.
    split; [reflexivity|]. split; [reflexivity|]. split.
    + transitivity (- Ci * / RtoC omega * (dwave (md_chi (snd m) l i) (md_A (snd m) l i) (md_B (snd m) l i) (nth l hs 0) / RtoC (nth l eps 0)) * RtoC (pkx gd (md_g (snd m) i)))%C;
        [unfold Cdiv; ring|rewrite M2; unfold Cdiv; ring].
    + transitivity (- Ci * / RtoC omega * (dwave (md_chi (snd m) l i) (md_A (snd m) l i) (md_B (snd m) l i) (nth l hs 0) / RtoC (nth l eps 0)) * RtoC (pky gd (md_g (snd m) i)))%C;
        [unfold Cdiv; ring|rewrite M2; unfold Cdiv; ring].
Qed.

(** a guided TE mode: cos in a core of half width pi/4, decaying outside *)
Definition core_mode : gmode :=
  let s := RtoC (cos (PI / 4)) in
  GMode [0%nat] (fun _ => 1) (fun l _ => nth l [RtoC 0; RtoC (1 / 2); s] (RtoC 0)) (fun l _ => nth l [s; RtoC (1 / 2); RtoC 0] (RtoC 0))
    (fun l _ => nth l [Ci; RtoC 1; Ci] (RtoC 0)).
Lemma core_mode_matched ds hs eps : ds = [PI / 2] -> hs = 0 :: map (fun d => d / 2) ds ++ [0] ->
  all_matched true (map (fun l => (nth l eps 0, md_chi core_mode l 0, (md_A core_mode l 0, md_B core_mode l 0), nth l hs 0)) (seq 0 3)).
Proof.
  intros -> ->. cbn [seq map all_matched app nth core_mode md_chi md_A md_B].
  assert (SC : sin (PI / 4) = cos (PI / 4)) by (rewrite sin_PI4, cos_PI4; reflexivity).
  replace (PI / 2 / 2) with (PI / 4) by field.
  assert (E0 : forall x, exp (0 * x) = 1) by (intros x; rewrite Rmult_0_l; apply exp_0).
  repeat split; unfold wave, dwave, cexp, expi, Ci, Cminus, Cmult, Cplus, Copp, RtoC; cbn [fst snd];
    apply injective_projections; cbn [fst snd].
  all: repeat match goal with |- context [exp ?x] => replace x with 0 by ring; rewrite exp_0 end.
  all: repeat match goal with |- context [cos ?x] => lazymatch x with PI / 4 => fail | 0 => fail | _ => first [replace x with (PI / 4) by ring | replace x with (- (PI / 4)) by ring; rewrite cos_neg | replace x with 0 by ring] end end.
  all: repeat match goal with |- context [sin ?x] => lazymatch x with PI / 4 => fail | 0 => fail | _ => first [replace x with (PI / 4) by ring | replace x with (- (PI / 4)) by ring; rewrite sin_neg | replace x with 0 by ring] end end.
  all: rewrite ?cos_0, ?sin_0, ?SC; field.
Qed.
