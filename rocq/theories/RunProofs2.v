(** What a successful run leaves behind. *)
From Coq Require Import Permutation List.
From Verif Require Import Py CBase LatticeModel PhcModel SymModel SymSpec RecipModel SlabModel MatElModel RadModel RunModel RunSpec RunProofs.
Open Scope R_scope.
Open Scope list_scope.

Lemma then_ok {A B} (m : act A) (f : A -> act B) s s' b : andthen m f s = (s', Ok b) ->
  exists a s1, m s = (s1, Ok a) /\ f a s1 = (s', Ok b).
Proof. unfold andthen. destruct (m s) as [s1 [a|e]]; intros H; [eauto|discriminate]. Qed.
Lemma lift_ok {A} (r : result A) s s' a : lift r s = (s', Ok a) -> s' = s /\ r = Ok a.
Proof. unfold lift. intros H. injection H as <- ->. auto. Qed.
Lemma mod_ok f s s' u : modify f s = (s', Ok u) -> s' = f s.
Proof. unfold modify. intros H. injection H as <-. auto. Qed.
Lemma ret_ok {A} (a b : A) s s' : ret a s = (s', Ok b) -> s' = s /\ b = a.
Proof. unfold ret. intros H. injection H as <- <-. auto. Qed.

Section RunOk.
Variable argsort : list R -> list nat.
Variable eigh : nat -> cmat -> list R * cmat.
Variable eigsh : nat -> cmat -> nat -> R -> result (list R * cmat).
Variable inv : nat -> cmat -> cmat.
Variable root : (R -> R) -> R -> R -> R.
Variable dl : R.
Variable d : dev.
Variable o : opts.
Variable eps ds : list R.
Variable einv : nat -> cmat.
Variable refl : list (R * mat2).
Variable angles : list R.

Definition gkl (k : R * R) : nat -> R := gk_len (gk_data (dv_gvec d) k (o_dgx o)).
Definition exact_grid (k : R * R) : list R := r_sort (map (gkl k) (seq 0 (List.length (dv_gvec d)))).

(** what the solver step gave for one k-point; ind is the list of plane waves it read *)
Definition solved (ik : nat) (mat : arr2) (numg : list nat) (ind : list (list nat)) (fs : list R) (vs : list (nat * (nat -> C))) (sy : list Z) : Prop :=
  (o_solver o = "eigh"%string /\ o_symm o = None /\ solve_plain argsort eigh o mat = Ok (fs, vs) /\ sy = []) \/
  (o_solver o = "eigsh"%string /\ o_symm o = None /\ solve_eigsh argsort eigsh o mat = Ok (fs, vs) /\ sy = []) \/
  (o_solver o = "eigh"%string /\ exists y a m b E O, o_symm o = Some y /\ SymModel.get angles ik = Ok a /\ dict_get a refl = Ok m /\
     symm_basis d o m numg ind = Ok b /\ symm_split o mat b = Ok (E, O) /\
     if String.eqb (lower y) "both" then solve_both argsort eigh o b E O = Ok (fs, vs, sy)
     else if String.eqb (lower y) "odd" then solve_one argsort eigh o b O (pad_above (sb_even b)) = Ok (fs, vs) /\ sy = repeat (-1)%Z (List.length fs)
     else solve_one argsort eigh o b E (pad_below (sb_odd b)) = Ok (fs, vs) /\ sy = repeat 1%Z (List.length fs)).

Definition k_result (ik : nat) (k : R * R) (t : list R * gtable * gtable) (inc numg : list nat) (ind : list (list nat))
  (fs : list R) (vs : list (nat * (nat -> C))) (sy : list Z) : Prop :=
  let '(garr, te, tm) := t in
  (exact_modes o = true -> compute_guided root o eps ds (exact_grid k) = Ok t) /\
  exists mat ms, construct_mat dl (dv_gvec d) k (o_dgx o) (o_inds o) garr te tm eps ds einv = Ok mat /\
    inc = gmode_include (o_inds o) te tm /\
    mapM (get_guided (List.length (dv_gvec d)) (gkl k) garr te tm eps) inc = Ok ms /\ numg = map md_size ms /\
    (o_numeig o <= nr mat)%nat /\ solved ik mat numg ind fs vs sy.

Definition dtab : list R * gtable * gtable := ([], [], []).
Definition tix (ik : nat) : nat := if interp_modes o then 0%nat else ik.

Lemma modes_excl : exact_modes o = true -> interp_modes o = true -> False.
Proof. unfold exact_modes, interp_modes. intros H1 H2. apply String.eqb_eq in H1, H2. rewrite H1 in H2. discriminate. Qed.

Lemma one_k_ok ik k s s' fs sy : one_k argsort eigh eigsh root dl d o eps ds einv refl angles (ik, k) s = (s', Ok (fs, sy)) ->
  List.length (g_numg s) = ik ->
  (exact_modes o = true -> List.length (g_tabs s) = ik) ->
  exists tabs inc numg indk vs ev od,
    g_tabs s' = g_tabs s ++ tabs /\ (exact_modes o = true -> List.length tabs = 1%nat) /\ (exact_modes o = false -> tabs = []) /\
    g_inc s' = g_inc s ++ [inc] /\ g_numg s' = g_numg s ++ [numg] /\ g_ind s' = g_ind s ++ [indk] /\ g_vecs s' = g_vecs s ++ [vs] /\
    g_k s' = g_k s /\ g_einv s' = g_einv s /\ g_even s' = g_even s ++ ev /\ g_odd s' = g_odd s ++ od /\
    (tix ik < List.length (g_tabs s'))%nat /\
    (o_symm o <> None -> (ik < List.length (g_ind s'))%nat) /\
    k_result ik k (nth (tix ik) (g_tabs s') dtab) inc numg (nth ik (g_ind s') []) fs vs sy.
Proof.
  intros H Hn Ht. unfold one_k in H.
  apply then_ok in H. destruct H as (mat & s1 & Hc & H).
  assert (HC : exists tabs garr te tm ms, g_tabs s1 = g_tabs s ++ tabs /\ (exact_modes o = true -> List.length tabs = 1%nat) /\ (exact_modes o = false -> tabs = []) /\
    (tix ik < List.length (g_tabs s1))%nat /\ nth (tix ik) (g_tabs s1) dtab = (garr, te, tm) /\
    (exact_modes o = true -> compute_guided root o eps ds (exact_grid k) = Ok (garr, te, tm)) /\
    construct_mat dl (dv_gvec d) k (o_dgx o) (o_inds o) garr te tm eps ds einv = Ok mat /\
    mapM (get_guided (List.length (dv_gvec d)) (gkl k) garr te tm eps) (gmode_include (o_inds o) te tm) = Ok ms /\
    g_inc s1 = g_inc s ++ [gmode_include (o_inds o) te tm] /\ g_numg s1 = g_numg s ++ [map md_size ms] /\ g_ind s1 = g_ind s ++ [map md_ind ms] /\
    g_vecs s1 = g_vecs s /\ g_k s1 = g_k s /\ g_einv s1 = g_einv s /\ g_even s1 = g_even s /\ g_odd s1 = g_odd s).
  { unfold construct in Hc. apply then_ok in Hc. destruct Hc as (u & s2 & H2 & Hc).
    apply then_ok in Hc. destruct Hc as ([[garr te] tm] & s3 & H3 & Hc).
    apply lift_ok in H3. destruct H3 as [-> H3].
    apply then_ok in Hc. destruct Hc as (mat' & s4 & H4 & Hc). apply lift_ok in H4. destruct H4 as [-> H4].
    apply then_ok in Hc. destruct Hc as (ms & s5 & H5 & Hc). apply lift_ok in H5. destruct H5 as [-> H5].
    apply then_ok in Hc. destruct Hc as (v & s6 & H6 & Hc). apply mod_ok in H6.
    apply ret_ok in Hc. destruct Hc as [-> <-].
    unfold tab_at in H3. fold (tix ik) in H3. apply (get_inv dtab) in H3. destruct H3 as [H3 H3'].
    destruct (exact_modes o) eqn:Ee.
    - apply then_ok in H2. destruct H2 as (t & s7 & H2 & H7). apply lift_ok in H2. destruct H2 as [-> H2]. apply mod_ok in H7.
      subst s2 s6. exists [t], garr, te, tm, ms. cbn in *.
      assert (Et : t = (garr, te, tm)).
      { assert (Ex : tix ik = ik). { unfold tix. destruct (interp_modes o) eqn:Ei; auto. exfalso. eapply modes_excl; eauto. }
        pose proof (Ht eq_refl) as Ht'. rewrite Ex, app_nth2, Ht', Nat.sub_diag in H3' by lia. symmetry. exact H3'. }
      rewrite Et in *. repeat match goal with |- _ /\ _ => split end; auto; try discriminate. 
    - apply ret_ok in H2. destruct H2 as [-> _]. subst s6. exists [], garr, te, tm, ms. cbn in *. rewrite app_nil_r.
      repeat match goal with |- _ /\ _ => split end; auto; try discriminate. }
  destruct HC as (tabs & garr & te & tm & ms & T1 & T2 & T3 & T4 & T5 & T6 & T7 & T8 & T9 & T10 & T11 & T12 & T13 & T14 & T15 & T16).
  destruct (Nat.ltb_spec (nr mat) (o_numeig o)) as [Hlt|Hle]; [discriminate H|].
  assert (Fin : forall vs s'' ev od, s'' = add_vecs vs s1 \/ (exists e q, s'' = add_vecs vs (add_counts e q s1) /\ ev = [e] /\ od = [q]) ->
    (s'' = add_vecs vs s1 -> ev = [] /\ od = []) ->
    (o_symm o <> None -> (ik < List.length (g_ind s''))%nat) ->
    solved ik mat (map md_size ms) (nth ik (g_ind s'') []) fs vs sy ->
    exists tabs inc numg indk vs ev od,
    g_tabs s'' = g_tabs s ++ tabs /\ (exact_modes o = true -> List.length tabs = 1%nat) /\ (exact_modes o = false -> tabs = []) /\
    g_inc s'' = g_inc s ++ [inc] /\ g_numg s'' = g_numg s ++ [numg] /\ g_ind s'' = g_ind s ++ [indk] /\ g_vecs s'' = g_vecs s ++ [vs] /\
    g_k s'' = g_k s /\ g_einv s'' = g_einv s /\ g_even s'' = g_even s ++ ev /\ g_odd s'' = g_odd s ++ od /\
    (tix ik < List.length (g_tabs s''))%nat /\
    (o_symm o <> None -> (ik < List.length (g_ind s''))%nat) /\
    k_result ik k (nth (tix ik) (g_tabs s'') dtab) inc numg (nth ik (g_ind s'') []) fs vs sy).
  { intros vs s'' ev od Hs'' Hev Hi Hsol.
    exists tabs, (gmode_include (o_inds o) te tm), (map md_size ms), (map md_ind ms), vs.
    assert (HK : forall ind, solved ik mat (map md_size ms) ind fs vs sy -> k_result ik k (nth (tix ik) (g_tabs s1) dtab) (gmode_include (o_inds o) te tm) (map md_size ms) ind fs vs sy).
    { intros ind Hso. unfold k_result. rewrite T5. split; [exact T6|]. exists mat, ms. auto 10. }
    destruct Hs'' as [E | (e & q & E & -> & ->)].
    - destruct (Hev E) as [-> ->]. exists [], []. subst s''. cbn in *. rewrite !app_nil_r, T12. auto 20.
    - exists [e], [q]. subst s''. cbn in *. rewrite T12, T15, T16. auto 20. }
  destruct (String.eqb_spec (o_solver o) "eigh") as [Es|Es].
  - destruct (o_symm o) as [y|] eqn:Ey.
    + apply then_ok in H. destruct H as (a & s2 & H2 & H). apply lift_ok in H2. destruct H2 as [-> H2].
      apply then_ok in H. destruct H as (m & s3 & H3 & H). apply lift_ok in H3. destruct H3 as [-> H3].
      apply then_ok in H. destruct H as (numg & s4 & H4 & H). apply lift_ok in H4. destruct H4 as [-> H4].
      apply then_ok in H. destruct H as (ind & s5 & H5 & H). apply lift_ok in H5. destruct H5 as [-> H5].
      apply then_ok in H. destruct H as (b & s6 & H6 & H). apply lift_ok in H6. destruct H6 as [-> H6].
      apply then_ok in H. destruct H as (u & s7 & H7 & H). apply mod_ok in H7.
      apply then_ok in H. destruct H as ([E O] & s8 & H8 & H). apply lift_ok in H8. destruct H8 as [-> H8].
      apply (get_inv []) in H4. destruct H4 as [H4 H4'].
      rewrite T10, app_nth2, Hn, Nat.sub_diag in H4' by lia. cbn in H4'. subst numg.
      apply (get_inv []) in H5. destruct H5 as [H5 H5'].
      assert (Hik : (ik < List.length (g_ind s7))%nat) by (subst s7; exact H5).
      assert (Gen : forall vs, s' = add_vecs vs s7 -> 
        (if String.eqb (lower y) "both" then solve_both argsort eigh o b E O = Ok (fs, vs, sy)
     else if String.eqb (lower y) "odd" then solve_one argsort eigh o b O (pad_above (sb_even b)) = Ok (fs, vs) /\ sy = repeat (-1)%Z (List.length fs)
     else solve_one argsort eigh o b E (pad_below (sb_odd b)) = Ok (fs, vs) /\ sy = repeat 1%Z (List.length fs)) ->
        solved ik mat (map md_size ms) (nth ik (g_ind s') []) fs vs sy).
      { intros vs Hs' Hv. right. right. split; [exact Es|]. exists y, a, m, b, E, O.
        assert (Ei : nth ik (g_ind s') [] = ind) by (subst s' s7; cbn; congruence).
        rewrite Ei. auto 10. }
      unfold is_low in H. rewrite Ey in H.
      destruct (String.eqb (lower y) "both") eqn:Eb.
      * apply then_ok in H. destruct H as ([[f vs] sy'] & s9 & H9 & H). apply lift_ok in H9. destruct H9 as [-> H9].
        apply then_ok in H. destruct H as (u' & s10 & H10 & H). apply mod_ok in H10.
        apply ret_ok in H. destruct H as [-> H]. injection H as <- <-.
        rewrite H10. apply (Fin vs _ [sb_even b] [sb_odd b]).
        -- right. exists (sb_even b), (sb_odd b). rewrite H7. auto.
        -- intros X. exfalso. rewrite H7 in X. apply (f_equal g_even) in X. cbn in X. apply (f_equal (@List.length nat)) in X.
           rewrite app_length in X. cbn in X. lia.
        -- intros _. exact Hik.
        -- rewrite <- H10. apply Gen; auto.
      * destruct (String.eqb (lower y) "odd") eqn:Eo.
        -- apply then_ok in H. destruct H as ([f vs] & s9 & H9 & H). apply lift_ok in H9. destruct H9 as [-> H9].
           apply then_ok in H. destruct H as (u' & s10 & H10 & H). apply mod_ok in H10.
           apply ret_ok in H. destruct H as [-> H]. injection H as -> ->. cbn [fst snd] in *.
           rewrite H10. apply (Fin vs _ [sb_even b] [sb_odd b]).
           ++ right. exists (sb_even b), (sb_odd b). rewrite H7. auto.
           ++ intros X. exfalso. rewrite H7 in X. apply (f_equal g_even) in X. cbn in X. apply (f_equal (@List.length nat)) in X.
              rewrite app_length in X. cbn in X. lia.
           ++ intros _. exact Hik.
           ++ rewrite <- H10. apply Gen; auto.
        -- apply then_ok in H. destruct H as ([f vs] & s9 & H9 & H). apply lift_ok in H9. destruct H9 as [-> H9].
           apply then_ok in H. destruct H as (u' & s10 & H10 & H). apply mod_ok in H10.
           apply ret_ok in H. destruct H as [-> H]. injection H as -> ->. cbn [fst snd] in *.
           rewrite H10. apply (Fin vs _ [sb_even b] [sb_odd b]).
           ++ right. exists (sb_even b), (sb_odd b). rewrite H7. auto.
           ++ intros X. exfalso. rewrite H7 in X. apply (f_equal g_even) in X. cbn in X. apply (f_equal (@List.length nat)) in X.
              rewrite app_length in X. cbn in X. lia.
           ++ intros _. exact Hik.
           ++ rewrite <- H10. apply Gen; auto.
    + apply then_ok in H. destruct H as ([f vs] & s2 & H2 & H). apply lift_ok in H2. destruct H2 as [-> H2].
      apply then_ok in H. destruct H as (u & s3 & H3 & H). apply mod_ok in H3.
      apply ret_ok in H. destruct H as [-> H]. injection H as -> ->. cbn [fst snd] in *.
      rewrite H3. apply (Fin vs _ [] []); auto; [intros Z; congruence|]. left. auto.
  - destruct (String.eqb_spec (o_solver o) "eigsh") as [Es2|Es2]; [|discriminate H].
    destruct (o_symm o) as [y|] eqn:Ey; [discriminate H|].
    apply then_ok in H. destruct H as ([f vs] & s2 & H2 & H). apply lift_ok in H2. destruct H2 as [-> H2].
    apply then_ok in H. destruct H as (u & s3 & H3 & H). apply mod_ok in H3.
    apply ret_ok in H. destruct H as [-> H]. injection H as -> ->. cbn [fst snd] in *.
    rewrite H3. apply (Fin vs _ [] []); auto; [intros Z; congruence|]. right. left. auto.
Qed.

Lemma app_nth_keep {A} (l m : list A) i dflt : (i < List.length l)%nat -> nth i (l ++ m) dflt = nth i l dflt.
Proof. apply app_nth1. Qed.

Lemma loop_ok ks : forall i s s' rows,
  foreach (one_k argsort eigh eigsh root dl d o eps ds einv refl angles) (combine (seq i (List.length ks)) ks) s = (s', Ok rows) ->
  List.length (g_numg s) = i -> List.length (g_inc s) = i -> List.length (g_vecs s) = i ->
  (exact_modes o = true -> List.length (g_tabs s) = i) ->
  List.length rows = List.length ks /\ g_k s' = g_k s /\ g_einv s' = g_einv s /\
  (exists l, g_numg s' = g_numg s ++ l /\ List.length l = List.length ks) /\
  (exists l, g_inc s' = g_inc s ++ l /\ List.length l = List.length ks) /\
  (exists l, g_vecs s' = g_vecs s ++ l /\ List.length l = List.length ks) /\
  (exists l, g_ind s' = g_ind s ++ l /\ List.length l = List.length ks) /\
  (exists l, g_tabs s' = g_tabs s ++ l /\ (exact_modes o = false -> l = [])) /\
  forall j k, nth_error ks j = Some k ->
    (tix (i + j) < List.length (g_tabs s'))%nat /\
    k_result (i + j) k (nth (tix (i + j)) (g_tabs s') dtab) (nth (i + j) (g_inc s') []) (nth (i + j) (g_numg s') [])
      (nth (i + j) (g_ind s') []) (fst (nth j rows ([], []))) (nth (i + j) (g_vecs s') []) (snd (nth j rows ([], []))).
Proof.
  induction ks as [|k ks IH]; intros i s s' rows H Hn Hc Hv Ht.
  - cbn in H. apply ret_ok in H. destruct H as [-> ->].
    repeat match goal with |- _ /\ _ => split end; auto; try (exists []; rewrite app_nil_r; auto).
    intros j k Hj. destruct j; discriminate.
  - cbn [List.length seq combine foreach] in H.
    apply then_ok in H. destruct H as ([f sy] & s1 & H1 & H).
    apply then_ok in H. destruct H as (bs & s2 & H2 & H). apply ret_ok in H. destruct H as [-> ->].
    destruct (one_k_ok _ _ _ _ _ _ H1 Hn Ht) as (tabs & inc & numg & indk & vs & ev & od & T1 & T2 & T3 & I1 & N1 & D1 & V1 & K1 & E1 & _ & _ & Tx & Di & Kr).
    destruct (IH (S i) s1 s2 bs H2) as (L2 & K2 & E2 & (ln & N2 & N2') & (li & I2 & I2') & (lv & V2 & V2') & (ld & D2 & D2') & (lt & T4 & T5) & Q).
    + rewrite N1, app_length. cbn. lia.
    + rewrite I1, app_length. cbn. lia.
    + rewrite V1, app_length. cbn. lia.
    + intros X. rewrite T1, app_length, (T2 X), (Ht X). lia.
    + split; [cbn; lia|]. split; [congruence|]. split; [congruence|].
      split; [exists (numg :: ln); rewrite N2, N1, <- app_assoc; cbn; auto|].
      split; [exists (inc :: li); rewrite I2, I1, <- app_assoc; cbn; auto|].
      split; [exists (vs :: lv); rewrite V2, V1, <- app_assoc; cbn; auto|].
      split; [exists (indk :: ld); rewrite D2, D1, <- app_assoc; cbn; auto|].
      split. { exists (tabs ++ lt). rewrite T4, T1, <- app_assoc. split; auto. intros X. rewrite (T3 X), (T5 X). reflexivity. }
      intros [|j] k0 Hj.
      * injection Hj as <-. rewrite Nat.add_0_r. cbn [nth fst snd]. split; [rewrite T4, app_length; lia|].
        rewrite T4, app_nth_keep by exact Tx.
        assert (Ea : nth i (g_inc s2) [] = inc).
        { rewrite I2, I1, app_nth_keep by (rewrite app_length; cbn; lia). rewrite app_nth2, Hc, Nat.sub_diag by lia. reflexivity. }
        assert (Eb : nth i (g_numg s2) [] = numg).
        { rewrite N2, N1, app_nth_keep by (rewrite app_length; cbn; lia). rewrite app_nth2, Hn, Nat.sub_diag by lia. reflexivity. }
        assert (Ec : nth i (g_vecs s2) [] = vs).
        { rewrite V2, V1, app_nth_keep by (rewrite app_length; cbn; lia). rewrite app_nth2, Hv, Nat.sub_diag by lia. reflexivity. }
        rewrite Ea, Eb, Ec.
        destruct (o_symm o) as [y|] eqn:Ey.
        -- rewrite D2, app_nth_keep by (apply Di; discriminate). exact Kr.
        -- unfold k_result in *. destruct (nth (tix i) (g_tabs s1) dtab) as [[garr te] tm].
           destruct Kr as [Ka (mat & ms & Kb & Kc & Kd & Ke & Kf & Kg)]. split; [exact Ka|]. exists mat, ms.
           repeat (split; [assumption|]). unfold solved in *. rewrite Ey in *.
           destruct Kg as [Kg|[Kg|(Kg & y & a & m & b & E & O & Z & _)]]; [left; exact Kg|right; left; exact Kg|discriminate].
      * cbn [nth]. replace (i + S j)%nat with (S i + j)%nat by lia. apply Q. exact Hj.
Qed.
End RunOk.

Section Top.
Variable argsort : list R -> list nat.
Variable eigh : nat -> cmat -> list R * cmat.
Variable eigsh : nat -> cmat -> nat -> R -> result (list R * cmat).
Variable inv : nat -> cmat -> cmat.
Variable root : (R -> R) -> R -> R -> R.
Variable dl : R.
Notation run' := (run argsort eigh eigsh inv root dl).

Definition interp_grid (d : dev) (o : opts) (ks : list (R * R)) : list R :=
  linspace0 (rmax0 (map (fun k => sqrt (fst k * fst k + snd k * snd k)) (dv_gvec d))
             + rmax0 (map (fun k => sqrt (fst k * fst k + snd k * snd k)) ks)) (o_npts o).

(** the state after a successful run *)
Lemma run_ok d o ks an s s' : run' d o ks an s = (s', Ok tt) ->
  exists refl eps einv,
    check d o an = Ok refl /\ eps_list d o = Ok eps /\
    einv = match g_einv s with Some e => e | None => build_einv inv d (o_only o) end /\
    g_einv s' = Some einv /\ g_k s' = ks /\
    List.length (g_freqs s') = List.length ks /\ List.length (g_vecs s') = List.length ks /\
    List.length (g_inc s') = List.length ks /\ List.length (g_numg s') = List.length ks /\
    (exists l, g_ind s' = g_ind s ++ l /\ List.length l = List.length ks) /\
    (exists sy, g_symms s' = Some sy /\ (o_symm o = None -> sy = []) /\ (o_symm o <> None -> List.length sy = List.length ks) /\
    forall ik k, nth_error ks ik = Some k -> exists garr te tm,
      (exact_modes o = true /\ compute_guided root o eps (d_list d) (exact_grid d o k) = Ok (garr, te, tm) \/
       interp_modes o = true /\ compute_guided root o eps (d_list d) (interp_grid d o ks) = Ok (garr, te, tm)) /\
      nth_error (g_tabs s') (tix o ik) = Some (garr, te, tm) /\
      k_result argsort eigh eigsh root dl d o eps (d_list d) einv refl an ik k (garr, te, tm)
        (nth ik (g_inc s') []) (nth ik (g_numg s') []) (nth ik (g_ind s') [])
        (nth ik (g_freqs s') []) (nth ik (g_vecs s') []) (if o_symm o then nth ik sy [] else [])).
Proof.
  intros H. unfold run in H.
  apply then_ok in H. destruct H as (u & s1 & H1 & H). apply mod_ok in H1.
  apply then_ok in H. destruct H as (refl & s2 & H2 & H). apply lift_ok in H2. destruct H2 as [-> H2].
  apply then_ok in H. destruct H as (eps & s3 & H3 & H). apply lift_ok in H3. destruct H3 as [-> H3].
  apply then_ok in H. destruct H as (u4 & s4 & H4 & H). apply mod_ok in H4.
  apply then_ok in H. destruct H as (u5 & s5 & H5 & H).
  apply then_ok in H. destruct H as (einv & s6 & H6 & H).
  apply then_ok in H. destruct H as (u7 & s7 & H7 & H). apply mod_ok in H7.
  apply then_ok in H. destruct H as (rows & s8 & H8 & H).
  apply then_ok in H. destruct H as (u9 & s9 & H9 & H). apply mod_ok in H9.
  assert (Ht5 : (interp_modes o = false -> s5 = s4) /\
    (interp_modes o = true -> exists t, s5 = add_tab t s4 /\ compute_guided root o eps (d_list d) (interp_grid d o ks) = Ok t)).
  { destruct (interp_modes o).
    - split; [discriminate|]. intros _. destruct ks as [|k0 ks']; [discriminate H5|].
      destruct (dv_gvec d) as [|g0 gs] eqn:Eg; [discriminate H5|]. rewrite <- Eg in H5.
      apply then_ok in H5. destruct H5 as (t & s10 & H10 & H5). apply lift_ok in H10. destruct H10 as [-> H10].
      apply mod_ok in H5. exists t. split; auto.
    - split; [|discriminate]. intros _. apply ret_ok in H5. apply H5. }
  assert (H6' : einv = match g_einv s5 with Some e => e | None => build_einv inv d (o_only o) end /\ g_einv s6 = Some einv /\
    g_tabs s6 = g_tabs s5 /\ g_k s6 = g_k s5 /\ g_numg s6 = g_numg s5 /\ g_inc s6 = g_inc s5 /\ g_ind s6 = g_ind s5).
  { unfold compute_eps_inv in H6. destruct (g_einv s5) eqn:E.
    - injection H6 as <- <-. auto 10.
    - injection H6 as <- <-. cbn. auto 10. }
  destruct H6' as (E1 & E2 & E3 & E4 & E5 & E6 & E7).
  assert (Es4 : g_einv s4 = g_einv s /\ g_tabs s4 = [] /\ g_k s4 = ks /\ g_numg s4 = [] /\ g_inc s4 = [] /\ g_ind s4 = g_ind s) by (subst s4 s1; cbn; auto 10).
  destruct Es4 as (F1 & F2 & F3 & F4 & F5 & F6).
  assert (Es5 : g_einv s5 = g_einv s4 /\ g_k s5 = g_k s4 /\ g_numg s5 = g_numg s4 /\ g_inc s5 = g_inc s4 /\ g_ind s5 = g_ind s4).
  { destruct (interp_modes o).
    - destruct (proj2 Ht5 eq_refl) as (t & -> & _). cbn. auto.
    - rewrite (proj1 Ht5 eq_refl). auto. }
  destruct Es5 as (G1 & G2 & G3 & G4 & G5).
  assert (Hx : exact_modes o = true -> g_tabs s7 = []).
  { intros X. subst s7. cbn. rewrite E3. destruct (interp_modes o) eqn:Ei; [exfalso; eapply modes_excl; eauto|].
    rewrite (proj1 Ht5 eq_refl). exact F2. }
  destruct (loop_ok argsort eigh eigsh root dl d o eps (d_list d) einv refl an ks 0 s7 s8 rows H8)
    as (L2 & K2 & E8 & (ln & N2 & N2') & (li & I2 & I2') & (lv & V2 & V2') & (ld & D2 & D2') & (lt & T4 & T5) & Q).
  { subst s7. cbn. rewrite E5, G3, F4. reflexivity. }
  { subst s7. cbn. rewrite E6, G4, F5. reflexivity. }
  { subst s7. reflexivity. }
  { intros X. rewrite (Hx X). reflexivity. }
  assert (Hfin : g_freqs s' = map fst rows /\ g_symms s' = Some (match o_symm o with None => [] | Some _ => map snd rows end) /\
    g_vecs s' = g_vecs s8 /\ g_einv s' = g_einv s8 /\ g_k s' = g_k s8 /\ g_tabs s' = g_tabs s8 /\ g_inc s' = g_inc s8 /\ g_numg s' = g_numg s8 /\ g_ind s' = g_ind s8).
  { destruct (o_im o).
    - unfold run_im_m in H. apply then_ok in H. destruct H as ([[im ub] rad] & s11 & H11 & H). apply lift_ok in H11. destruct H11 as [-> _].
      apply mod_ok in H. subst s' s9. cbn. auto 10.
    - apply ret_ok in H. destruct H as [-> _]. subst s9. cbn. auto 10. }
  destruct Hfin as (Z1 & Z2 & Z3 & Z4 & Z5 & Z6 & Z7 & Z8 & Z9).
  assert (Hr : forall j, (j < List.length ks)%nat -> nth j (g_freqs s') [] = fst (nth j rows ([], []))).
  { intros j Hj. rewrite Z1. rewrite (nth_indep _ [] (fst (@nil R, @nil Z))) by (rewrite map_length; lia). apply map_nth. }
  exists refl, eps, einv. split; [exact H2|]. split; [exact H3|]. split; [rewrite E1, G1, F1; reflexivity|].
  split; [rewrite Z4, E8; subst s7; exact E2|]. split; [rewrite Z5, K2; subst s7; cbn; rewrite E4, G2; exact F3|].
  split; [rewrite Z1, map_length; exact L2|].
  split; [rewrite Z3, V2, app_length; subst s7; cbn; lia|].
  split; [rewrite Z7, I2, app_length; subst s7; cbn; rewrite E6, G4, F5; cbn; lia|].
  split; [rewrite Z8, N2, app_length; subst s7; cbn; rewrite E5, G3, F4; cbn; lia|].
  split; [exists ld; split; [rewrite Z9, D2; subst s7; cbn; rewrite E7, G5, F6; reflexivity|exact D2']|].
  eexists. split; [exact Z2|]. split; [intros ->; reflexivity|].
  split. { intros X. destruct (o_symm o); [rewrite map_length; exact L2|congruence]. }
  intros ik k Hk.
  assert (Hlt : (ik < List.length ks)%nat) by (apply nth_error_Some; congruence).
  destruct (Q ik k Hk) as [Qt Qk]. cbn [Nat.add] in Qt, Qk.
  destruct (nth (tix o ik) (g_tabs s8) dtab) as [[garr te] tm] eqn:Et. exists garr, te, tm.
  rewrite Z6. split; [|split; [rewrite <- Et; apply nth_error_nth'; exact Qt|]].
  - destruct (exact_modes o) eqn:Ex.
    + left. split; auto. unfold k_result in Qk. apply Qk. exact Ex.
    + right. destruct (interp_modes o) eqn:Ei.
      * split; auto. destruct (proj2 Ht5 eq_refl) as (t & Hs5 & Hg). rewrite Hg. f_equal.
        rewrite T4, (T5 eq_refl), app_nil_r in Et. subst s7. cbn in Et. rewrite E3, Hs5 in Et. cbn in Et. rewrite F2 in Et.
        unfold tix in Et. rewrite Ei in Et. exact Et.
      * exfalso. rewrite T4, (T5 eq_refl), app_nil_r in Qt. subst s7. cbn in Qt. rewrite E3, (proj1 Ht5 eq_refl), F2 in Qt. cbn in Qt. lia.
  - rewrite Z7, Z8, Z9, Z3, (Hr ik Hlt).
    assert (Esy : (if o_symm o then nth ik (match o_symm o with None => [] | Some _ => map snd rows end) [] else []) = snd (nth ik rows ([], []))).
    { destruct (o_symm o) eqn:Ey.
      - rewrite (nth_indep _ [] (snd (@nil R, @nil Z))) by (rewrite map_length; lia). apply map_nth.
      - unfold k_result in Qk. destruct Qk as [_ (mat & ms & _ & _ & _ & _ & _ & So)]. unfold solved in So. rewrite Ey in So.
        destruct So as [(_ & _ & _ & ->)|[(_ & _ & _ & ->)|(_ & y & a & m & b & E & O & Zz & _)]]; auto; discriminate. }
    rewrite Esy. exact Qk.
Qed.
End Top.
