(** The couplings as overlaps with the scattering states (C111). *)
From Verif Require Import Py CBase CInt SlabModel SlabSpec SlabProofs SlabProofs2 SlabProofs3 SlabProofs10 SlabProofs11 MatElModel MatElSpec MatElProofs2
  RadSpec RadModel RadProofs RadProofs2 RadProofs3.
Open Scope C_scope.
Open Scope list_scope.

Definition pol_fac (te : bool) : C := if te then Copp Ci else RtoC 1.

Lemma rad_loop_sum ov te v get inc : forall count numg acc a (gm : nat -> gmode),
  rad_loop ov te v get count inc numg acc = Ok a ->
  (forall n m, nth_error inc n = Some m -> get m = Ok (gm n)) ->
  (forall n, (n < List.length inc)%nat -> nr (ov (nth n inc 0%nat, gm n)) = nth n numg 0%nat) /\
  forall j, a j = acc j + pol_fac te * csum (List.length inc) (fun n => csum (nth n numg 0%nat) (fun i =>
     (snd v (count + list_sum (firstn n numg) + i)%nat)^* * ent (ov (nth n inc 0%nat, gm n)) i j)).
Proof.
  induction inc as [|m inc IH]; intros count numg acc a gm H Hg.
  - injection H as <-. split; [intros n L; cbn in L; lia|]. intros j. cbn. ring.
  - cbn [rad_loop] in H. rewrite (Hg 0%nat m eq_refl) in H. cbn [bind] in H.
    destruct numg as [|n ns]; [discriminate H|].
    unfold rad_term in H. destruct (Nat.eqb_spec (nr (ov (m, gm 0%nat))) n) as [E|E]; [|discriminate H].
    destruct (Nat.leb (count + n) (fst v)); [|discriminate H]. cbn [andb bind] in H.
    destruct (IH _ _ _ _ (fun k => gm (S k)) H) as [S1 S2].
    { intros k m' K. apply (Hg (S k) m' K). }
    split.
    + intros [|k] L; [exact E|]. apply (S1 k). cbn in L. lia.
    + intros j. rewrite S2. cbn [List.length]. rewrite csum_first. cbn [nth firstn list_sum fold_right].
      rewrite Cmult_plus_distr_l, Cplus_assoc. f_equal.
      * f_equal. unfold pol_fac.
        assert (X : csum n (fun i => ent (ov (m, gm 0%nat)) i j * (snd v (count + i)%nat)^* ) =
                    csum n (fun i => (snd v (count + 0 + i)%nat)^* * ent (ov (m, gm 0%nat)) i j)).
        { apply csum_ext. intros i _. rewrite Nat.add_0_r. ring. }
        destruct te; cbv beta; rewrite X; ring.
      * f_equal. apply csum_ext. intros k _. apply csum_ext. intros i _. cbv beta. f_equal. f_equal. apply f_equal.
        unfold list_sum. cbn [fold_right]. lia.
Qed.

Lemma overlap_block dl eps ds einv d m te r : rad_overlap dl eps ds einv d m te r = mat_block dl eps ds einv d m (if te then 0%nat else 1%nat, r).
Proof. unfold rad_overlap, mat_block. destruct (Nat.even (fst m)), te; reflexivity. Qed.

Lemma nth_hd {A} (l : list A) d : nth 0 l d = hd d l.
Proof. destruct l; reflexivity. Qed.
Lemma nth_lst {A} (l : list A) d n : List.length l = n -> nth (n - 1) l d = last l d.
Proof.
  intros <-. induction l as [|x [|y l] IH]; [reflexivity|reflexivity|].
  change (last (x :: y :: l) d) with (last (y :: l) d). rewrite <- IH. cbn [List.length]. rewrite !Nat.sub_succ, !Nat.sub_0_r. reflexivity.
Qed.

Lemma get_rad_at gk ind w pol clad eps ds r j idx : get_rad gk ind w pol clad eps ds = Ok r -> nth_error ind j = Some idx ->
  md_g r j = idx /\ md_om r j = w /\ exists X Y, rad_mode pol clad w (gk idx) eps ds = Ok (X, Y) /\
  (forall il, md_A r il j = nth il Y (RtoC 0)) /\ (forall il, md_B r il j = nth il X (RtoC 0)) /\
  (forall il, md_chi r il j = chi w (gk idx) (nth il eps 0%R)).
Proof.
  unfold get_rad. cbv zeta. unfold rad_modes. destruct (mapM _ (map gk ind)) as [xy|x] eqn:E; [|discriminate].
  cbn [bind]. intros H Hj. injection H as <-. unfold md_g. cbn [md_ind md_om md_A md_B md_chi].
  split; [apply nth_of_error, Hj|]. split; [reflexivity|].
  pose proof (nth_error_map_lt gk ind j idx Hj) as Hg.
  destruct (mapM_ok_nth _ _ _ E _ _ Hg) as [[X Y] [EX K]].
  exists X, Y. split; [exact EX|].
  rewrite (nth_of_error _ _ _ 0%R Hg), (nth_of_error xy _ _ ([], []) K). repeat split.
Qed.

(** finitely many choices *)
Lemma fin_choice {A} (n : nat) (d : A) (P : nat -> A -> Prop) : (forall i, (i < n)%nat -> exists x, P i x) ->
  exists f, forall i, (i < n)%nat -> P i (f i).
Proof.
  induction n as [|n IH]; intros H; [exists (fun _ => d); intros i Hi; lia|].
  destruct IH as [f Hf]; [intros i Hi; apply H; lia|]. destruct (H n ltac:(lia)) as [x Hx].
  exists (fun i => if Nat.eqb i n then x else f i). intros i Hi. destruct (Nat.eqb_spec i n) as [->|N]; [exact Hx|apply Hf; lia].
Qed.
Lemma fin_choice2 {A} (n : nat) (m : nat -> nat) (d : A) (P : nat -> nat -> A -> Prop) :
  (forall k i, (k < n)%nat -> (i < m k)%nat -> exists x, P k i x) ->
  exists f, forall k i, (k < n)%nat -> (i < m k)%nat -> P k i (f k i).
Proof.
  intros H. destruct (fin_choice n (fun _ => d) (fun k h => forall i, (i < m k)%nat -> P k i (h i))) as [f Hf];
    [|exists f; intros k i Hk Hi; apply Hf; assumption].
  intros k Hk. apply (fin_choice (m k) d). intros i Hi. apply H; assumption.
Qed.

(** ** one cladding and polarisation *)
Section Channel.
Variables (dl : R) (e : rad_env) (w ec : R) (v : nat * (nat -> C)) (clad : nat) (te : bool) (r : gmode) (a : nat -> C) (gm : nat -> gmode).
Let d := gk_data (re_gvec e) (re_k e) (re_dgx e).
Let ind := rad_inds (List.length (re_gvec e)) (gk_len d) ec w.
Let Nl := List.length (re_eps e).
Let e_in := if Nat.eqb clad 0 then hd 0%R (re_eps e) else last (re_eps e) 0%R.
Hypothesis Hc : (clad < 2)%nat.
Hypothesis Hr : get_rad (gk_len d) ind w (if te then "te" else "tm")%string clad (re_eps e) (re_ds e) = Ok r.
Hypothesis Ha : rad_loop (fun m => rad_overlap dl (re_eps e) (re_ds e) (re_einv e) d m te r) te v (re_get e)
                    0 (re_inc e) (re_numg e) (fun _ => RtoC 0) = Ok a.
Hypothesis Hg : forall n m, nth_error (re_inc e) n = Some m -> re_get e m = Ok (gm n).
Hypothesis Hl : (List.length (re_ds e) + 2 = List.length (re_eps e))%nat.
Hypothesis Hd : re_ds e <> [].

Lemma ind_gvec j idx : nth_error ind j = Some idx -> (idx < List.length (re_gvec e))%nat.
Proof. intros H. apply nth_error_In in H. unfold ind, rad_inds in H. apply filter_In in H as [H _]. apply in_seq in H. lia. Qed.

Lemma chi_im_pos w' g x : (0 <= snd (chi w' g x))%R.
Proof.
  destruct (chi_branch w' g x) as [_ [H1 H2]].
  destruct (Rle_dec 0 (x * (w' * w') - g * g)) as [P|P]; [destruct (H1 P); lra|].
  destruct (H2 ltac:(lra)). lra.
Qed.

Lemma channel_overlap j G c : nth_error (map (fun i => nth i (re_gvec e) (0, 0)%R) ind) j = Some G ->
  nth_error (coupling (List.length (re_gvec e)) (gk_len d) ec w a) j = Some c ->
  let g := sqrt (sq_len G (re_k e) (re_dgx e)) in
  (/ 10 ^ 10 <= g)%R -> Forall (fun x => (0 < x)%R /\ chi w g x <> RtoC 0) (re_eps e) -> (g * g < e_in * (w * w))%R ->
  (forall n i, (n < List.length (re_inc e))%nat -> (i < nth n (re_numg e) 0)%nat ->
     md_A (gm n) 0 i = RtoC 0 /\ md_B (gm n) (Nl - 1) i = RtoC 0 /\ (0 < snd (md_chi (gm n) 0 i))%R /\ (0 < snd (md_chi (gm n) (Nl - 1) i))%R /\
     forall il, (0 < il < Nl - 1)%nat -> apart dl (md_chi (gm n) il i) (chi w g (nth il (re_eps e) 0%R))) ->
  exists (As Bs : list C) (idx : nat) (V : nat -> nat -> nat -> C),
    scattering te clad (re_eps e) (map (chi w g) (re_eps e)) (0%R :: map (fun x => (x / 2)%R) (re_ds e) ++ [0%R]) As Bs
      (if te then RtoC (1 / (sqrt e_in * w)) else RtoC 1) /\
    nth_error (re_gvec e) idx = Some G /\
    (forall n i il, (n < List.length (re_inc e))%nat -> (i < nth n (re_numg e) 0)%nat -> (il < Nl)%nat ->
       is_layer_int dl il Nl (re_ds e) (fun z => hdot
         (curl_field (Nat.even (nth n (re_inc e) 0%nat)) (gk_x d (md_g (gm n) i)) (gk_y d (md_g (gm n) i)) (md_om (gm n) i) (nth il (re_eps e) 0%R)
            (md_chi (gm n) il i) (md_A (gm n) il i) (md_B (gm n) il i) z)
         (curl_field te (fst G + fst (re_k e) + re_dgx e) (snd G + snd (re_k e)) w (nth il (re_eps e) 0%R)
            (chi w g (nth il (re_eps e) 0%R)) (nth il As (RtoC 0)) (nth il Bs (RtoC 0)) z)) (V n i il)) /\
    c = RtoC (sqrt (ec / (4 * sqrt (ec * (w * w) - g * g)))) * (pol_fac te *
      csum (List.length (re_inc e)) (fun n => csum (nth n (re_numg e) 0%nat) (fun i =>
        (snd v (list_sum (firstn n (re_numg e)) + i)%nat)^* * csum Nl (fun il => re_einv e il (md_g (gm n) i) idx * V n i il)))).
Proof.
  intros HG Hcp g Hg0 HP Ho Hgm.
  destruct (nth_error ind j) as [idx|] eqn:Hj.
  2:{ exfalso. apply nth_error_None in Hj. assert (K : nth_error (map (fun i => nth i (re_gvec e) (0, 0)%R) ind) j <> None) by (rewrite HG; discriminate).
      apply nth_error_Some in K. rewrite map_length in K. lia. }
  pose proof (ind_gvec j idx Hj) as Li.
  pose proof (nth_error_map_lt (fun i => nth i (re_gvec e) (0, 0)%R) ind j idx Hj) as HG'. rewrite HG in HG'. injection HG' as ->.
  set (G := nth idx (re_gvec e) (0, 0)%R) in *.
  assert (Eg : gk_len d idx = g) by reflexivity.
  destruct (get_rad_at _ _ _ _ _ _ _ _ _ _ Hr Hj) as [Ei [Eo [X [Y [EM [EA [EB EC]]]]]]].
  rewrite Eg in EM, EC.
  assert (Emax : Rmax g (/ 10 ^ 10) = g) by (apply Rmax_left; exact Hg0).
  destruct (radiation (if te then "te" else "tm")%string te clad w g (re_eps e) (re_ds e)) as [X' [Y' [EM' Sc]]];
    [destruct te; reflexivity|exact Hc|exact Hl|exact Hd|rewrite Emax; exact HP|rewrite Emax; exact Ho|].
  rewrite EM in EM'. injection EM' as <- <-. rewrite Emax in Sc. fold e_in in Sc.
  destruct (rad_loop_sum _ _ _ _ _ _ _ _ _ gm Ha Hg) as [S1 S2].
  assert (LY : List.length Y = Nl /\ List.length X = Nl) by (destruct Sc as [? [? _]]; split; assumption). destruct LY as [LY LX].
  assert (FIT : forall n i, (n < List.length (re_inc e))%nat -> (i < nth n (re_numg e) 0)%nat -> forall il, (il < Nl)%nat ->
    layer_fit dl il Nl (md_chi (gm n) il i) (md_A (gm n) il i) (md_B (gm n) il i) (md_chi r il j) (md_A r il j) (md_B r il j)).
  { intros n i Ln Lii il Lil. destruct (Hgm n i Ln Lii) as [G1 [G2 [G3 [G4 G5]]]].
    rewrite EA, EB, EC. unfold layer_fit.
    destruct Sc as [_ [_ [_ [SA SB]]]].
    assert (N2 : (1 < Nl)%nat) by (unfold Nl; lia).
    assert (CH : (clad = 0 \/ clad = 1)%nat) by lia.
    assert (IN : snd (chi w g e_in) = 0%R) by (destruct (chi_branch w g e_in) as [_ [K _]]; apply K; lra).
    destruct (Nat.eqb_spec il 0) as [->|N0]; [|destruct (Nat.eqb_spec il (Nl - 1)) as [->|N1]].
    - split; [exact G1|]. split; [exact G3|]. rewrite !nth_hd.
      destruct CH as [EC1|EC1]; unfold e_in in IN; rewrite EC1 in SA, SB, IN; cbn [Nat.eqb] in SA, SB, IN.
      + rewrite IN. split; right; lra.
      + split; [left; exact SA|right]. pose proof (chi_im_pos w g (hd 0%R (re_eps e))). lra.
    - split; [exact G2|]. split; [exact G4|].
      rewrite (nth_lst X), (nth_lst Y), (nth_lst (re_eps e)) by (assumption || reflexivity).
      destruct CH as [EC1|EC1]; unfold e_in in IN; rewrite EC1 in SA, SB, IN; cbn [Nat.eqb] in SA, SB, IN.
      + split; [right|left; exact SB]. pose proof (chi_im_pos w g (last (re_eps e) 0%R)). lra.
      + rewrite IN. split; right; lra.
    - right. apply G5. lia. }
  assert (OV : forall n i, (n < List.length (re_inc e))%nat -> (i < nth n (re_numg e) 0)%nat -> exists V : nat -> C,
    (forall il, (il < Nl)%nat -> is_layer_int dl il Nl (re_ds e) (fun z => hdot
         (curl_field (Nat.even (nth n (re_inc e) 0%nat)) (gk_x d (md_g (gm n) i)) (gk_y d (md_g (gm n) i)) (md_om (gm n) i) (nth il (re_eps e) 0%R)
            (md_chi (gm n) il i) (md_A (gm n) il i) (md_B (gm n) il i) z)
         (curl_field te (fst G + fst (re_k e) + re_dgx e) (snd G + snd (re_k e)) w (nth il (re_eps e) 0%R)
            (chi w g (nth il (re_eps e) 0%R)) (nth il Y (RtoC 0)) (nth il X (RtoC 0)) z)) (V il)) /\
    ent (rad_overlap dl (re_eps e) (re_ds e) (re_einv e) d (nth n (re_inc e) 0%nat, gm n) te r) i j =
      csum Nl (fun il => re_einv e il (md_g (gm n) i) idx * V il)).
  { intros n i Ln Lii. rewrite overlap_block.
    destruct (overlap dl (re_eps e) (re_ds e) (re_einv e) d (nth n (re_inc e) 0%nat, gm n) (if te then 0%nat else 1%nat, r) i j eq_refl eq_refl
      (FIT n i Ln Lii)) as [V [V1 V2]].
    exists V. split.
    - intros il Lil. pose proof (V1 il Lil) as K. unfold bfield in K. cbn [fst snd] in K. rewrite Eo, Ei, EA, EB, EC in K.
      replace (Nat.even (if te then 0%nat else 1%nat)) with te in K by (destruct te; reflexivity).
      exact K.
    - rewrite V2. cbn [snd]. rewrite Ei. reflexivity. }
  assert (CHO : exists V : nat -> nat -> nat -> C, forall n i, (n < List.length (re_inc e))%nat -> (i < nth n (re_numg e) 0)%nat ->
    (forall il, (il < Nl)%nat -> is_layer_int dl il Nl (re_ds e) (fun z => hdot
         (curl_field (Nat.even (nth n (re_inc e) 0%nat)) (gk_x d (md_g (gm n) i)) (gk_y d (md_g (gm n) i)) (md_om (gm n) i) (nth il (re_eps e) 0%R)
            (md_chi (gm n) il i) (md_A (gm n) il i) (md_B (gm n) il i) z)
         (curl_field te (fst G + fst (re_k e) + re_dgx e) (snd G + snd (re_k e)) w (nth il (re_eps e) 0%R)
            (chi w g (nth il (re_eps e) 0%R)) (nth il Y (RtoC 0)) (nth il X (RtoC 0)) z)) (V n i il)) /\
    ent (rad_overlap dl (re_eps e) (re_ds e) (re_einv e) d (nth n (re_inc e) 0%nat, gm n) te r) i j =
      csum Nl (fun il => re_einv e il (md_g (gm n) i) idx * V n i il)).
  { apply (fin_choice2 (List.length (re_inc e)) (fun n => nth n (re_numg e) 0%nat) (fun _ => RtoC 0)
      (fun n i V => (forall il, (il < Nl)%nat -> is_layer_int dl il Nl (re_ds e) (fun z => hdot
         (curl_field (Nat.even (nth n (re_inc e) 0%nat)) (gk_x d (md_g (gm n) i)) (gk_y d (md_g (gm n) i)) (md_om (gm n) i) (nth il (re_eps e) 0%R)
            (md_chi (gm n) il i) (md_A (gm n) il i) (md_B (gm n) il i) z)
         (curl_field te (fst G + fst (re_k e) + re_dgx e) (snd G + snd (re_k e)) w (nth il (re_eps e) 0%R)
            (chi w g (nth il (re_eps e) 0%R)) (nth il Y (RtoC 0)) (nth il X (RtoC 0)) z)) (V il)) /\
      ent (rad_overlap dl (re_eps e) (re_ds e) (re_einv e) d (nth n (re_inc e) 0%nat, gm n) te r) i j =
        csum Nl (fun il => re_einv e il (md_g (gm n) i) idx * V il))). exact OV. }
  destruct CHO as [V HV].
  exists Y, X, idx, V. split; [|split; [|split]].
  - destruct te; exact Sc.
  - unfold G. apply nth_error_nth'. exact Li.
  - intros n i il Ln Lii Lil. apply HV; assumption.
  - assert (Lj : (j < List.length ind)%nat) by (apply nth_error_Some; rewrite Hj; discriminate).
    unfold coupling in Hcp. fold ind in Hcp.
    rewrite (nth_error_map_lt _ _ _ _ (nth_error_seq0 _ _ Lj)) in Hcp.
    apply (f_equal (fun x => match x with Some y => y | None => RtoC 0 end)) in Hcp. cbv beta iota in Hcp. rewrite <- Hcp.
    rewrite (nth_of_error _ _ _ 0%nat Hj), Eg. f_equal.
    + f_equal. f_equal. unfold rad_dos.
      assert (PP := PI_RGT_0). unfold Rdiv. rewrite (Rinv_mult 4 (sqrt (ec * (w * w) - g * g))). generalize (/ sqrt (ec * (w * w) - g * g))%R. intros q. field. lra.
    + rewrite S2, Cplus_0_l. f_equal. apply csum_ext. intros n Ln. apply csum_ext. intros i Lii.
      destruct (HV n i Ln Lii) as [_ K]. rewrite K. reflexivity.
Qed.
End Channel.

Lemma couplings_overlap dl e f v r (gm : nat -> gmode) (up te : bool) j G c : rad_one dl e f v = Ok r ->
  (forall n m, nth_error (re_inc e) n = Some m -> re_get e m = Ok (gm n)) ->
  (List.length (re_ds e) + 2 = List.length (re_eps e))%nat -> re_ds e <> [] ->
  nth_error (if up then rr_gu r else rr_gl r) j = Some G ->
  nth_error (if up then (if te then rr_ute r else rr_utm r) else if te then rr_lte r else rr_ltm r) j = Some c ->
  let w := (2 * PI * f)%R in let g := sqrt (sq_len G (re_k e) (re_dgx e)) in let Nl := List.length (re_eps e) in
  let ec := if up then re_clad_u e else re_clad_l e in
  let e_in := if up then last (re_eps e) 0%R else hd 0%R (re_eps e) in
  let ep il := nth il (re_eps e) 0%R in
  (/ 10 ^ 10 <= g)%R -> Forall (fun x => (0 < x)%R /\ chi w g x <> RtoC 0) (re_eps e) -> (g * g < e_in * (w * w))%R ->
  (forall n i, (n < List.length (re_inc e))%nat -> (i < nth n (re_numg e) 0)%nat ->
     md_A (gm n) 0 i = RtoC 0 /\ md_B (gm n) (Nl - 1) i = RtoC 0 /\ (0 < snd (md_chi (gm n) 0 i))%R /\ (0 < snd (md_chi (gm n) (Nl - 1) i))%R /\
     forall il, (0 < il < Nl - 1)%nat -> apart dl (md_chi (gm n) il i) (chi w g (ep il))) ->
  let F n i il := let q := nth (md_g (gm n) i) (re_gvec e) (0, 0)%R in
     curl_field (Nat.even (nth n (re_inc e) 0%nat)) (fst q + fst (re_k e) + re_dgx e) (snd q + snd (re_k e)) (md_om (gm n) i) (ep il)
       (md_chi (gm n) il i) (md_A (gm n) il i) (md_B (gm n) il i) in
  exists (As Bs : list C) (idx : nat) (V : nat -> nat -> nat -> C),
    let Frad il := curl_field te (fst G + fst (re_k e) + re_dgx e) (snd G + snd (re_k e)) w (ep il)
       (chi w g (ep il)) (nth il As (RtoC 0)) (nth il Bs (RtoC 0)) in
    scattering te (if up then 1 else 0) (re_eps e) (map (chi w g) (re_eps e)) (0%R :: map (fun x => (x / 2)%R) (re_ds e) ++ [0%R]) As Bs
      (if te then RtoC (1 / (sqrt e_in * w)) else RtoC 1) /\
    nth_error (re_gvec e) idx = Some G /\
    (forall n i il, (n < List.length (re_inc e))%nat -> (i < nth n (re_numg e) 0)%nat -> (il < Nl)%nat ->
       is_layer_int dl il Nl (re_ds e) (fun z => hdot (F n i il z) (Frad il z)) (V n i il)) /\
    c = RtoC (sqrt (ec / (4 * sqrt (ec * (w * w) - g * g)))) * ((if te then - Ci else RtoC 1) *
      csum (List.length (re_inc e)) (fun n => csum (nth n (re_numg e) 0%nat) (fun i =>
        Cconj (snd v (list_sum (firstn n (re_numg e)) + i)%nat) * csum Nl (fun il => re_einv e il (md_g (gm n) i) idx * V n i il)))).
Proof.
  intros H Hg Hl Hd. unfold rad_one in H. cbv zeta in H.
  destruct (get_rad _ _ _ "te" 0 _ _) as [lte|] eqn:R1 in H; [cbn [bind] in H|discriminate H].
  destruct (get_rad _ _ _ "tm" 0 _ _) as [ltm|] eqn:R2 in H; [cbn [bind] in H|discriminate H].
  destruct (get_rad _ _ _ "te" 1 _ _) as [ute|] eqn:R3 in H; [cbn [bind] in H|discriminate H].
  destruct (get_rad _ _ _ "tm" 1 _ _) as [utm|] eqn:R4 in H; [cbn [bind] in H|discriminate H].
  match type of H with bind ?x _ = _ => destruct x as [a1|] eqn:A1; [cbn [bind] in H|discriminate H] end.
  match type of H with bind ?x _ = _ => destruct x as [a2|] eqn:A2; [cbn [bind] in H|discriminate H] end.
  match type of H with bind ?x _ = _ => destruct x as [a3|] eqn:A3; [cbn [bind] in H|discriminate H] end.
  match type of H with bind ?x _ = _ => destruct x as [a4|] eqn:A4; [cbn [bind] in H|discriminate H] end.
  apply (f_equal (fun x => match x with Ok y => y | Raise _ => r end)) in H. cbv beta iota in H. subst r.
  cbn [rr_gl rr_gu rr_lte rr_ltm rr_ute rr_utm].
  destruct up, te; intros HG Hc.
  - exact (channel_overlap dl e (2 * PI * f) (re_clad_u e) v 1 true ute a3 gm ltac:(lia) R3 A3 Hg Hl Hd j G c HG Hc).
  - exact (channel_overlap dl e (2 * PI * f) (re_clad_u e) v 1 false utm a4 gm ltac:(lia) R4 A4 Hg Hl Hd j G c HG Hc).
  - exact (channel_overlap dl e (2 * PI * f) (re_clad_l e) v 0 true lte a1 gm ltac:(lia) R1 A1 Hg Hl Hd j G c HG Hc).
  - exact (channel_overlap dl e (2 * PI * f) (re_clad_l e) v 0 false ltm a2 gm ltac:(lia) R2 A2 Hg Hl Hd j G c HG Hc).
Qed.

(** a slab with one guided mode and one open channel *)
Definition ex_gm : gmode :=
  GMode [0%nat] (fun _ => 1%R) (fun il _ => if Nat.eqb il 0 then RtoC 0 else RtoC 1) (fun il _ => if Nat.eqb il 2 then RtoC 0 else RtoC 1)
    (fun il _ => chi 1 2 (nth il [1; 12; 1]%R 0%R)).
Definition ex_rad2 : rad_env :=
  RadEnv [(2, 0)]%R (0, 0)%R 0 [1; 12; 1]%R [1%R] (fun _ i j => RtoC (if Nat.eqb i j then 1 / 12 else 0)) 1 1 (fun _ => Ok ex_gm) [0%nat] [1%nat].
Lemma ex_rad2_ok : let e := ex_rad2 in let w := (2 * PI * (3 / (2 * PI)))%R in
  exists r, rad_one 0 e (3 / (2 * PI)) (1%nat, fun _ => RtoC 1) = Ok r /\ nth_error (rr_gl r) 0 = Some (2, 0)%R /\
  let g := sqrt (sq_len (2, 0) (re_k e) (re_dgx e)) in
  (/ 10 ^ 10 <= g)%R /\ Forall (fun x => (0 < x)%R /\ chi w g x <> RtoC 0) (re_eps e) /\ (g * g < hd 0 (re_eps e) * (w * w))%R /\
  (forall n i, (n < List.length (re_inc e))%nat -> (i < nth n (re_numg e) 0)%nat ->
     md_A ex_gm 0 i = RtoC 0 /\ md_B ex_gm 2 i = RtoC 0 /\ (0 < snd (md_chi ex_gm 0 i))%R /\ (0 < snd (md_chi ex_gm 2 i))%R /\
     forall il, (0 < il < 3 - 1)%nat -> apart 0 (md_chi ex_gm il i) (chi w g (nth il (re_eps e) 0%R))).
Proof.
  cbv zeta. assert (PP := PI_RGT_0).
  assert (W : (2 * PI * (3 / (2 * PI)) = 3)%R) by (field; lra).
  assert (Gq : sqrt (sq_len (2, 0) (re_k ex_rad2) (re_dgx ex_rad2)) = 2%R).
  { unfold sq_len. cbn [fst snd re_k re_dgx ex_rad2].
    replace ((2 + 0 + 0) * (2 + 0 + 0) + (0 + 0) * (0 + 0))%R with (2 * 2)%R by ring. apply sqrt_square. lra. }
  destruct (rad_one_ok 0 ex_rad2 (3 / (2 * PI)) (1%nat, fun _ => RtoC 1)) as [r Hr].
  { exists [ex_gm]. split; [repeat constructor|split; reflexivity]. }
  { reflexivity. } { discriminate. }
  exists r. split; [exact Hr|]. rewrite W, Gq. split.
  { destruct (rad_one_channels _ _ _ _ _ Hr) as [-> _]. unfold rad_inds. cbn [re_gvec ex_rad2 List.length seq filter re_clad_l re_k re_dgx].
    rewrite W. rewrite gk_sq. cbn [nth]. unfold sq_len. cbn [fst snd].
    destruct (Rleb _ _) eqn:E; [reflexivity|]. apply Rleb_false in E. lra. }
  split; [apply Rle_trans with 1%R; [|lra]; rewrite <- Rinv_1; apply Rinv_le_contravar; [lra|]; apply pow_R1_Rle; lra|].
  split; [repeat constructor; try lra; rewrite chi_ge by lra; apply RtoC_neq0, Rgt_not_eq, sqrt_lt_R0; lra|].
  split; [cbn; lra|].
  intros n i Hn Hi. unfold ex_gm. cbn [md_A md_B md_chi Nat.eqb nth]. split; [reflexivity|]. split; [reflexivity|].
  split; [apply chi_evan; lra|]. split; [apply chi_evan; lra|].
  intros il Hil. replace il with 1%nat by lia. cbn [nth re_eps ex_rad2]. rewrite !chi_ge by lra.
  assert (S1 : (0 < sqrt (12 * (1 * 1) - 2 * 2))%R) by (apply sqrt_lt_R0; lra).
  assert (S2 : (sqrt (12 * (1 * 1) - 2 * 2) < sqrt (12 * (3 * 3) - 2 * 2))%R) by (apply sqrt_lt_1_alt; lra).
  unfold apart. rewrite Cconj_R. repeat split; intros E; apply (f_equal fst) in E; cbn in E; lra.
Qed.

(** a mode that was not stored is refused *)
Lemma out_of_range dl e n fs vs minds i : In i minds -> (n <= i)%nat -> rad_components dl e n fs vs minds = Raise ValueError.
Proof.
  intros Hi L. unfold rad_components. destruct minds as [|m t] eqn:E; [destruct Hi|]. rewrite <- E in *.
  destruct (existsb _ minds) eqn:X; [reflexivity|exfalso].
  assert (K : existsb (fun i => Nat.leb n i) minds = true) by (apply existsb_exists; exists i; split; [exact Hi|apply Nat.leb_le; exact L]).
  rewrite K in X. discriminate.
Qed.
Lemma compute_out_of_range dl e n fs vs minds i : In i minds -> (n <= i)%nat ->
  compute_rad dl e n fs vs minds = Raise ValueError /\ compute_rad_sp dl e n fs vs minds = Raise ValueError.
Proof. intros Hi L. unfold compute_rad, compute_rad_sp. rewrite (out_of_range dl e n fs vs minds i Hi L). split; reflexivity. Qed.
Lemma compute_in_range dl e fs vs minds : minds <> [] -> Forall (fun i => (i < List.length fs)%nat) minds -> List.length vs = List.length fs ->
  Forall (fun v => consistent e (fst v)) vs -> (List.length (re_ds e) + 2 = List.length (re_eps e))%nat -> re_ds e <> [] ->
  exists im rs, compute_rad dl e (List.length fs) fs vs minds = Ok (im, rs) /\ List.length im = List.length minds.
Proof.
  intros Hne Hm Hv Hc Hl Hd. unfold compute_rad, rad_components. destruct minds as [|m0 t] eqn:E0; [contradiction|]. rewrite <- E0 in *. clear E0.
  destruct (existsb _ minds) eqn:X.
  { exfalso. apply existsb_exists in X as [i [Hi L]]. apply Nat.leb_le in L. rewrite Forall_forall in Hm. specialize (Hm i Hi). lia. }
  destruct (mapM_all_ok (fun im => match nth_error fs im, nth_error vs im with
       | Some f, Some v => rad_one dl e f v | _, _ => Raise IndexError end) minds) as [rs Hrs].
  { intros i Hi. rewrite Forall_forall in Hm. specialize (Hm i Hi).
    destruct (nth_error fs i) as [f|] eqn:Ef; [|apply nth_error_None in Ef; lia].
    destruct (nth_error vs i) as [v|] eqn:Ev; [|apply nth_error_None in Ev; lia].
    apply rad_one_ok; [|exact Hl|exact Hd]. rewrite Forall_forall in Hc. apply Hc. eapply nth_error_In; exact Ev. }
  rewrite Hrs. cbn [bind]. eexists _, rs. split; [reflexivity|]. rewrite map_length. exact (mapM_ok_length _ _ _ Hrs).
Qed.
