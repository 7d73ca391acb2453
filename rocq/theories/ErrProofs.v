(** Proofs for C125. *)
From Coq Require Import Lia Lra.
From Verif Require Import Py CBase LatticeModel PhcModel PhcSpec PhcProofs2 RecipModel SlabModel MatElModel SymModel RunModel ErrSpec.
Open Scope R_scope.
Open Scope list_scope.

Lemma loop_error area : forall l ly e,
  snd (add_shapes_loop area ly l) = Some e <-> In None l /\ e = ValueError.
Proof.
  induction l as [|[s|] l IH]; intros ly e; cbn [add_shapes_loop].
  - cbn. split; [discriminate|tauto].
  - rewrite IH. cbn. split; intros [H ->]; (split; [|reflexivity]); [right; auto|destruct H as [H|H]; [discriminate|auto]].
  - cbn. split; [intros H; injection H as <-; auto|intros [_ ->]; reflexivity].
Qed.

Lemma layer_error area ly a e :
  snd (layer_add_shape area ly a) = Some e <->
  (a = ShNotIterable /\ e = TypeError) \/ (exists l, a = ShMany l /\ In None l /\ e = ValueError).
Proof.
  destruct a as [s|l|]; unfold layer_add_shape.
  - cbn. split; [discriminate|]. intros [[H _]|(l & H & _)]; discriminate.
  - rewrite loop_error. split; [intros [H ->]; right; eauto|]. intros [[H _]|(l' & H & Hn & He)]; [discriminate|].
    injection H as <-. auto.
  - cbn. split; [intros H; injection H as <-; auto|]. intros [[_ ->]|(l & H & _)]; [reflexivity|discriminate].
Qed.

Lemma target_split P li c :
  match clad_target c with
  | Some (Ok _) => exists pos, target_pos (List.length (pc_layers P)) li c = Some pos
  | Some (Raise e) => e = ValueError /\ target_pos (List.length (pc_layers P)) li c = None /\ c <> CladNone /\
       (forall s, c = CladStr s -> s <> "l"%string /\ s <> "u"%string) /\ (forall n, c = CladInt n -> n <> 0%Z /\ n <> 1%Z)
  | None => c = CladNone
  end.
Proof.
  destruct c as [|n|s]; cbn; auto.
  - destruct n as [|[p|p|]|p]; cbn; eauto; (repeat split; auto; try discriminate); intros; try discriminate;
      match goal with H : CladInt _ = CladInt _ |- _ => injection H as <- end; discriminate.
  - destruct (String.eqb s "l") eqn:E1; [cbn; eauto|]. destruct (String.eqb s "u") eqn:E2; [cbn; eauto|].
    apply String.eqb_neq in E1, E2. split; [reflexivity|]. split; [reflexivity|]. split; [discriminate|].
    split; [intros s' H; injection H as <-; auto|intros; discriminate].
Qed.

Lemma shape_error P a li c pos e : target_pos (List.length (pc_layers P)) li c = Some pos ->
  ((a = ShNotIterable /\ e = TypeError) \/ (exists l, a = ShMany l /\ In None l /\ e = ValueError) <->
   edit_error P (OpShape a li c) e).
Proof.
  intros Hp. split.
  - intros [[-> ->]|(l & -> & Hn & ->)]; econstructor; eauto.
  - intros H. inversion H; subst; auto; try (right; eauto); exfalso.
    + cbn in Hp. apply String.eqb_neq in H4, H5. rewrite H4, H5 in Hp. discriminate.
    + cbn in Hp. destruct n as [|[p|p|]|p]; try discriminate; congruence.
    + cbn in Hp. destruct (li <? _)%Z; [discriminate|]. destruct (Z.leb_spec (Z.of_nat (List.length (pc_layers P))) li);
        [discriminate|lia].
    + cbn in Hp. destruct (Z.ltb_spec li (- Z.of_nat (List.length (pc_layers P)))); [discriminate|lia].
Qed.

Lemma edit_errors P o e : snd (step P o) = Some e <-> edit_error P o e.
Proof.
  destruct o as [d eb ty|q|a li c]; cbn [step].
  - unfold add_layer. destruct (String.eqb (lower ty) "shapes") eqn:E1.
    { apply String.eqb_eq in E1. cbn. split; [discriminate|]. intros H. inversion H; congruence. }
    destruct (String.eqb (lower ty) "freeform") eqn:E2; cbn.
    { apply String.eqb_eq in E2. split; [intros H; injection H as <-; constructor; auto|]. intros H. inversion H; congruence. }
    apply String.eqb_neq in E1, E2. split; [intros H; injection H as <-; constructor; auto|].
    intros H. inversion H; congruence.
  - unfold add_qw. unfold Rleb. destruct (Rle_dec (qw_z q) _) as [H1|H1]; cbn [orb].
    { cbn. split; [intros H; injection H as <-; constructor; lra|]. intros H. inversion H; reflexivity. }
    destruct (Rle_dec _ (qw_z q)) as [H2|H2]; cbn.
    { split; [intros H; injection H as <-; constructor; lra|]. intros H. inversion H; reflexivity. }
    split; [discriminate|]. intros H. inversion H; subst. exfalso. match goal with Hn : ~ _ |- _ => apply Hn end. lra.
  - pose proof (target_split P li c) as Hc. unfold phc_add_shape. destruct (clad_target c) as [[b|e']|].
    + destruct Hc as [pos Hp]. rewrite <- (shape_error P a li c pos e Hp).
      destruct b; match goal with |- context[layer_add_shape ?x ?y ?z] =>
        rewrite <- (layer_error x y z e); destruct (layer_add_shape x y z) as [ly r]; cbn; tauto end.
    + destruct Hc as (-> & Hp & Hn & Hs & Hi). cbn. split.
      * intros H; injection H as <-. destruct c as [|n|s]; [congruence|destruct (Hi n eq_refl); constructor; auto|].
        destruct (Hs s eq_refl); constructor; auto.
      * intros H. inversion H; subst; auto; congruence.
    + subst c. destruct (Z.leb_spec (Z.of_nat (List.length (pc_layers P))) li) as [Hl|Hl]; cbn [snd].
      { split; [intros H; injection H as <-; constructor; auto|]. intros H. inversion H; subst; auto; try lia;
          (match goal with Hp : target_pos _ _ _ = Some _ |- _ => cbn in Hp;
             destruct (li <? _)%Z; [discriminate|]; destruct (Z.leb_spec (Z.of_nat (List.length (pc_layers P))) li); [discriminate|lia] end). }
      unfold py_index. destruct (Z.leb_spec 0 li) as [H0|H0].
      * destruct (Z.ltb_spec li (Z.of_nat (List.length (pc_layers P)))) as [H1|H1]; [|lia].
        assert (Hp : target_pos (List.length (pc_layers P)) li CladNone = Some (Z.to_nat li)).
        { cbn. destruct (Z.ltb_spec li (- Z.of_nat (List.length (pc_layers P)))); [lia|].
          destruct (Z.leb_spec (Z.of_nat (List.length (pc_layers P))) li); [lia|]. destruct (Z.ltb_spec li 0); [lia|reflexivity]. }
        rewrite <- (shape_error P a li CladNone _ e Hp).
        destruct (nth_error (pc_layers P) (Z.to_nat li)) as [ly0|] eqn:En; [|apply nth_error_None in En; lia].
        match goal with |- context[layer_add_shape ?x ?y ?z] =>
          rewrite <- (layer_error x y z e); destruct (layer_add_shape x y z) as [ly r]; cbn; tauto end.
      * destruct (Z.leb_spec (- Z.of_nat (List.length (pc_layers P))) li) as [H1|H1].
        { assert (Hp : target_pos (List.length (pc_layers P)) li CladNone = Some (Z.to_nat (li + Z.of_nat (List.length (pc_layers P))))).
          { cbn. destruct (Z.ltb_spec li (- Z.of_nat (List.length (pc_layers P)))); [lia|].
            destruct (Z.leb_spec (Z.of_nat (List.length (pc_layers P))) li); [lia|]. destruct (Z.ltb_spec li 0); [reflexivity|lia]. }
          rewrite <- (shape_error P a li CladNone _ e Hp).
          destruct (nth_error (pc_layers P) _) as [ly0|] eqn:En; [|apply nth_error_None in En; lia].
          match goal with |- context[layer_add_shape ?x ?y ?z] =>
            rewrite <- (layer_error x y z e); destruct (layer_add_shape x y z) as [ly r]; cbn; tauto end. }
        cbn. split; [intros H; injection H as <-; constructor; auto|].
        intros H. inversion H; subst; auto; try lia;
          (match goal with Hp : target_pos _ _ _ = Some _ |- _ => cbn in Hp;
             destruct (Z.ltb_spec li (- Z.of_nat (List.length (pc_layers P)))); [discriminate|lia] end).
Qed.

Lemma map_errors L ly pts : layer_get_eps L ly pts = Raise ValueError <-> pts = [].
Proof. destruct pts; cbn; split; congruence. Qed.

Lemma empty_map P : phc_get_eps P [] = Ok [].
Proof.
  unfold phc_get_eps. cbn [map]. induction (regions P) as [|ly l IH]; cbn [get_eps_loop]; auto.
Qed.

(** ** A negative cut-off *)
Lemma norms_nonneg x l : In x (map (fun g : R * R => sqrt (fst g ^ 2 + snd g ^ 2)) l) -> 0 <= x.
Proof. intros H. apply in_map_iff in H. destruct H as (g & <- & _). apply sqrt_pos. Qed.

Lemma keep_none {A} : forall mask (l : list A), (forall b, In b mask -> b = false) -> keep mask l = [].
Proof.
  unfold keep. induction mask as [|b m IH]; intros [|x l] H; cbn [select]; auto.
  rewrite (H b) by (left; auto). apply IH. intros c Hc; apply H; right; auto.
Qed.

Lemma negative_gmax fuel L gmax : gmax < 0 -> recip_abs fuel L gmax = Some (Raise ValueError).
Proof.
  intros Hg. pose proof PI_RGT_0 as Hpi. unfold recip_abs.
  set (i1 := inds1_of _ _). set (i2 := inds2_of _ _). set (gv := gvec_of _ _ _ _).
  set (gn := map (fun g : R * R => sqrt (fst g ^ 2 + snd g ^ 2)) gv).
  assert (Hneg : gmax * 2 * PI < 0) by nra.
  assert (Hin : r_in (gmax * 2 * PI) gn = false).
  { unfold r_in. apply Bool.not_true_iff_false. intros H. apply existsb_exists in H. destruct H as (y & Hy & He).
    apply norms_nonneg in Hy. unfold Reqb in He. destruct (Req_EM_T _ y); [lra|discriminate]. }
  rewrite Hin. f_equal.
  match goal with |- context[keep ?m i1] => assert (Hk : forall b, In b m -> b = false) end.
  { intros b Hb. apply in_map_iff in Hb. destruct Hb as (y & <- & Hy). apply norms_nonneg in Hy.
    unfold Rleb. destruct (Rle_dec _ _); [nra|reflexivity]. }
  rewrite (keep_none _ i1 Hk). reflexivity.
Qed.

(** ** Options refused by run *)
Section RUN.
Variable argsort : list R -> list nat.
Variable eigh : nat -> cmat -> list R * cmat.
Variable eigsh : nat -> cmat -> nat -> R -> result (list R * cmat).
Variable inv : nat -> cmat -> cmat.
Variable root : (R -> R) -> R -> R -> R.
Variable dl : R.

Lemma refl_mats_error ty an e : refl_mats ty an = Raise e -> e = ValueError.
Proof. unfold refl_mats. destruct ty; try destruct (forallb _ an); congruence. Qed.

Lemma check_error d o an e : check d o an = Raise e -> e = ValueError.
Proof.
  unfold check. destruct (o_symm o) as [y|]; cbn [bind].
  - destruct (_ || _ || _)%bool; [|cbn; congruence]. destruct an as [|a an]; cbn [bind]; [congruence|].
    destruct (refl_mats _ _) eqn:E; cbn [bind].
    + destruct (dv_tbt d && o_only o)%bool; congruence.
    + apply refl_mats_error in E. congruence.
  - destruct (dv_tbt d && o_only o)%bool; congruence.
Qed.

Lemma bad_check d o an : bad_options d o an ->
  check d o an = Raise ValueError \/ ((exists r, check d o an = Ok r) /\ eps_list d o = Raise ValueError).
Proof.
  intros H. destruct (check d o an) as [r|e] eqn:E; [|left; f_equal; eapply check_error; eauto]. right. split; [eauto|].
  destruct H as [y Hy H1 H2 H3|y Hy Ha|Ht Ho|H1 H2 H3|H1 H2].
  - unfold check in E. rewrite Hy in E. apply String.eqb_neq in H1, H2, H3. rewrite H1, H2, H3 in E. discriminate.
  - unfold check in E. rewrite Hy in E. subst an. destruct (_ || _ || _)%bool; discriminate.
  - unfold check in E. rewrite Ht, Ho in E. cbn [andb] in E. destruct (o_symm o) as [y|]; cbn [bind] in E; [|discriminate].
    destruct (_ || _ || _)%bool; [|discriminate]. destruct an as [|a an]; cbn [bind] in E; [discriminate|].
    destruct (refl_mats _ _); discriminate.
  - unfold eps_list. apply String.eqb_neq in H1, H2, H3. rewrite H1, H2, H3. reflexivity.
  - unfold eps_list. rewrite H1, H2. reflexivity.
Qed.

Lemma bad_run d o ks an s : bad_options d o an ->
  run argsort eigh eigsh inv root dl d o ks an s = (start ks s, Raise ValueError).
Proof.
  intros H. unfold run, andthen at 1, modify at 1. unfold andthen at 1, lift at 1.
  destruct (bad_check d o an H) as [E|[[r E] E2]]; rewrite E; auto.
  unfold andthen at 1, lift at 1. rewrite E2. reflexivity.
Qed.

Lemma bad_options_run d o ks an s : bad_options d o an ->
  snd (run argsort eigh eigsh inv root dl d o ks an s) = Raise ValueError /\
  results (fst (run argsort eigh eigsh inv root dl d o ks an s)) = results s /\
  g_k (fst (run argsort eigh eigsh inv root dl d o ks an s)) = ks.
Proof. intros H. rewrite (bad_run d o ks an s H). auto. Qed.

(** ** A structure without layers *)
Lemma guided_empty pol g gs e1 e2 ds n step tol :
  guided_modes root pol (g :: gs) [e1; e2] ds n step tol = Raise ValueError.
Proof. reflexivity. Qed.

Lemma even_or_odd m l : In m l -> filter Nat.even l <> [] \/ filter Nat.odd l <> [].
Proof.
  intros H. destruct (Nat.even m) eqn:E.
  - left. intros F. assert (In m (filter Nat.even l)) by (apply filter_In; auto). rewrite F in *. contradiction.
  - right. intros F. assert (In m (filter Nat.odd l)) by (apply filter_In; unfold Nat.odd; rewrite E; auto).
    rewrite F in *. contradiction.
Qed.

Lemma shift_nil d l : l <> [] -> exists x t, shift_but_last d l = x :: t.
Proof. destruct l as [|x [|y t]]; cbn [shift_but_last]; intros H; [congruence| |]; eauto. Qed.

Lemma compute_guided_empty o e1 e2 ds garr : garr <> [] -> o_inds o <> [] ->
  compute_guided root o [e1; e2] ds garr = Raise ValueError.
Proof.
  intros Hg Hi. unfold compute_guided. destruct garr as [|g0 gs0]; [congruence|].
  destruct (shift_nil (o_dgabs o) (g0 :: gs0) ltac:(discriminate)) as (g & gs & ->). cbv zeta.
  assert (Hm : exists m, In m (o_inds o)) by (destruct (o_inds o); [congruence|eexists; left; eauto]). destruct Hm as [m Hm].
  unfold guided_table at 1. destruct (filter Nat.even (o_inds o)) as [|a t] eqn:E; [|rewrite guided_empty; reflexivity].
  cbn [bind]. unfold guided_table at 1. destruct (filter Nat.odd (o_inds o)) as [|a t] eqn:E2; [|rewrite guided_empty; reflexivity].
  destruct (even_or_odd m _ Hm); congruence.
Qed.

Lemma eps_no_layers d o : pc_layers (dv_phc d) = [] -> (forall l, dv_custom d = Some l -> List.length l = 2%nat) ->
  eps_list d o = Raise ValueError \/ exists e1 e2, eps_list d o = Ok [e1; e2].
Proof.
  intros H Hc. unfold eps_list, all_layers. rewrite H. cbn [app map].
  destruct (String.eqb (o_epseff o) "average"); [right; eauto|].
  destruct (String.eqb (o_epseff o) "background"); [right; eauto|].
  destruct (String.eqb (o_epseff o) "custom"); [|auto].
  destruct (dv_custom d) as [l|]; [|auto]. specialize (Hc l eq_refl).
  destruct l as [|a [|b [|]]]; try discriminate. right; eauto.
Qed.

Lemma sort_nonempty x l : r_sort (x :: l) <> [].
Proof.
  unfold r_sort. cbn [fold_right]. destruct (fold_right r_insert [] l) as [|y t]; cbn [r_insert]; [discriminate|].
  destruct (Rleb x y); discriminate.
Qed.

Lemma no_layers_run d o ks an s : pc_layers (dv_phc d) = [] ->
  (forall l, dv_custom d = Some l -> List.length l = 2%nat) ->
  ks <> [] -> dv_gvec d <> [] -> o_inds o <> [] ->
  (lower (o_compute o) = "exact"%string \/ lower (o_compute o) = "interp"%string /\ o_npts o <> 0%nat) ->
  snd (run argsort eigh eigsh inv root dl d o ks an s) = Raise ValueError.
Proof.
  intros Hl Hc Hk Hg Hi Ho. unfold run, andthen at 1, modify at 1. unfold andthen at 1, lift at 1.
  destruct (check d o an) as [r|e] eqn:E; [|apply check_error in E; subst e; reflexivity].
  unfold andthen at 1, lift at 1.
  destruct (eps_no_layers d o Hl Hc) as [E2|(e1 & e2 & E2)]; rewrite E2; [reflexivity|]. cbv zeta.
  unfold andthen at 1, modify at 1.
  destruct Ho as [Ho|[Ho Hn]].
  - unfold interp_modes. rewrite Ho. cbn [String.eqb Ascii.eqb Bool.eqb]. unfold andthen at 1, ret at 1.
    unfold andthen at 1. unfold compute_eps_inv.
    assert (Hfor : forall einv s', snd (foreach (one_k argsort eigh eigsh root dl d o [e1; e2] (d_list d) einv r an) (enum ks) s')
              = Raise ValueError).
    { intros einv s'. destruct ks as [|k0 kt]; [congruence|]. unfold enum. cbn [List.length seq combine foreach].
      unfold andthen at 1. cbn [one_k]. unfold andthen at 1. unfold construct at 1. unfold andthen at 1.
      unfold exact_modes. rewrite Ho. cbn [String.eqb Ascii.eqb Bool.eqb]. unfold andthen at 1, lift at 1.
      rewrite compute_guided_empty; auto. destruct (dv_gvec d) as [|g gs]; [congruence|]. cbn [List.length seq map]. apply sort_nonempty. }
    destruct (g_einv _) as [ei|]; cbn beta iota; unfold andthen at 1, modify at 1; unfold andthen at 1;
      match goal with |- context[foreach (one_k _ _ _ _ _ _ _ _ _ ?ei _ _) ?l ?x] => pose proof (Hfor ei x) as Hx; destruct (foreach (one_k argsort eigh eigsh root dl d o _ (d_list d) ei r an) l x) as [s1 q] end;
      cbn in Hx; subst q; reflexivity.
  - unfold interp_modes. rewrite Ho. cbn [String.eqb Ascii.eqb Bool.eqb]. unfold andthen at 1.
    destruct ks as [|k0 kt]; [congruence|]. destruct (dv_gvec d) as [|g gs]; [congruence|].
    unfold andthen at 1, lift at 1. rewrite compute_guided_empty; auto. unfold linspace0. destruct (o_npts o); [congruence|discriminate].
Qed.

(** ** An unknown way to compute the guided modes *)
Lemma unknown_compute d o ks an s : lower (o_compute o) <> "exact"%string -> lower (o_compute o) <> "interp"%string ->
  ~ bad_options d o an -> o_symm o = None -> ks <> [] -> o_inds o <> [] ->
  snd (run argsort eigh eigsh inv root dl d o ks an s) = Raise IndexError.
Proof.
  intros H1 H2 Hb Hsy Hk _.
  assert (Hr : exists r, check d o an = Ok r).
  { unfold check. rewrite Hsy. cbn [bind]. destruct (dv_tbt d) eqn:Q1, (o_only o) eqn:Q2; cbn [andb]; eauto.
    exfalso. apply Hb. apply BO_only; auto. }
  destruct Hr as [r E]. apply String.eqb_neq in H1, H2.
  unfold run, andthen at 1, modify at 1. unfold andthen at 1, lift at 1. rewrite E.
  unfold andthen at 1, lift at 1. destruct (eps_list d o) as [eps|e] eqn:E2.
  2:{ exfalso. apply Hb. unfold eps_list in E2.
      destruct (String.eqb (o_epseff o) "average") eqn:Q1; [discriminate|].
      destruct (String.eqb (o_epseff o) "background") eqn:Q2; [discriminate|].
      destruct (String.eqb (o_epseff o) "custom") eqn:Q3.
      - apply String.eqb_eq in Q3. destruct (dv_custom d) eqn:Q4; [discriminate|]. apply BO_custom; auto.
      - apply String.eqb_neq in Q1, Q2, Q3. apply BO_eps; auto. }
  cbv zeta. unfold andthen at 1, modify at 1. unfold interp_modes at 1. rewrite H2. unfold andthen at 1, ret at 1.
  unfold andthen at 1. unfold compute_eps_inv.
  assert (Hfor : forall einv s', g_tabs s' = [] ->
     snd (foreach (one_k argsort eigh eigsh root dl d o eps (d_list d) einv r an) (enum ks) s') = Raise IndexError).
  { intros einv s' Hs. destruct ks as [|k0 kt]; [congruence|]. unfold enum. cbn [List.length seq combine foreach].
    unfold andthen at 1. cbn [one_k]. unfold andthen at 1. unfold construct at 1. unfold andthen at 1.
    unfold exact_modes. rewrite H1. unfold ret at 1. unfold andthen at 1, lift at 1. unfold tab_at, interp_modes. rewrite H2, Hs. reflexivity. }
  destruct (g_einv _) as [ei|]; cbn beta iota; unfold andthen at 1, modify at 1; unfold andthen at 1;
    match goal with |- context[foreach (one_k _ _ _ _ _ _ _ _ _ ?ei _ _) ?l ?x] => pose proof (Hfor ei x eq_refl) as Hx; destruct (foreach (one_k argsort eigh eigsh root dl d o _ (d_list d) ei r an) l x) as [s1 q] end;
    cbn in Hx; subst q; reflexivity.
Qed.

(** ** What every accepted run satisfies *)
Lemma run_ok_first d o k ks an s : snd (run argsort eigh eigsh inv root dl d o (k :: ks) an s) = Ok tt ->
  exists eps einv refl s', check d o an = Ok refl /\ eps_list d o = Ok eps /\
    (exists r, snd (one_k argsort eigh eigsh root dl d o eps (d_list d) einv refl an (0%nat, k) s') = Ok r).
Proof.
  intros H. unfold run, andthen at 1, modify at 1 in H. unfold andthen at 1, lift at 1 in H.
  destruct (check d o an) as [refl|e] eqn:E; [|discriminate]. unfold andthen at 1, lift at 1 in H.
  destruct (eps_list d o) as [eps|e] eqn:E2; [|discriminate]. cbv zeta in H.
  unfold andthen at 1, modify at 1 in H. unfold andthen at 1 in H.
  match type of H with context[(if interp_modes o then ?a else ?b) ?x] => destruct ((if interp_modes o then a else b) x) as [s1 [[]|e]] end;
    [|discriminate].
  unfold andthen at 1 in H. destruct (compute_eps_inv inv d (o_only o) s1) as [s2 [einv|e]]; [|discriminate].
  unfold andthen at 1, modify at 1 in H. unfold andthen at 1 in H. unfold enum in H. cbn [List.length seq combine foreach] in H.
  unfold andthen at 1 in H.
  destruct (one_k argsort eigh eigsh root dl d o eps (d_list d) einv refl an (0%nat, k) (clear_vecs s2)) as [s3 [r|e]] eqn:E3; [|discriminate].
  exists eps, einv, refl, (clear_vecs s2). rewrite E3. cbn. eauto.
Qed.

Lemma one_k_solver d o eps ds einv refl an x s r :
  snd (one_k argsort eigh eigsh root dl d o eps ds einv refl an x s) = Ok r ->
  (o_solver o = "eigh"%string \/ o_solver o = "eigsh"%string /\ o_symm o = None) /\
  exists s' mat, construct root dl d o eps ds einv (fst x) (snd x) s = (s', Ok mat) /\ (o_numeig o <= nr mat)%nat.
Proof.
  destruct x as [ik k]. cbn [one_k fst snd]. unfold andthen at 1.
  destruct (construct root dl d o eps ds einv ik k s) as [s' [mat|e]]; [|discriminate].
  destruct (Nat.ltb_spec (nr mat) (o_numeig o)) as [Hl|Hl]; [discriminate|].
  intros H. split; [|eauto].
  destruct (String.eqb (o_solver o) "eigh") eqn:Q1; [apply String.eqb_eq in Q1; auto|].
  destruct (String.eqb (o_solver o) "eigsh") eqn:Q2; [|discriminate]. apply String.eqb_eq in Q2.
  destruct (o_symm o); [discriminate|]. auto.
Qed.

Lemma construct_inds d o eps ds einv ik k s s' mat :
  construct root dl d o eps ds einv ik k s = (s', Ok mat) -> o_inds o <> [].
Proof.
  intros H E. unfold construct, andthen at 1 in H.
  match type of H with context[(if exact_modes o then ?a else ?b) ?x] => destruct ((if exact_modes o then a else b) x) as [s1 [[]|e]] end;
    [|discriminate].
  unfold andthen at 1, lift at 1 in H. destruct (tab_at o ik s1) as [[[garr te] tm]|e]; [|discriminate].
  unfold andthen at 1, lift at 1 in H. unfold construct_mat in H. rewrite E in H. cbn in H. discriminate.
Qed.

Lemma accepted_run d o ks an s : snd (run argsort eigh eigsh inv root dl d o ks an s) = Ok tt -> ks <> [] ->
  dv_gvec d <> [] -> (forall l, dv_custom d = Some l -> List.length l = List.length (all_layers (dv_phc d))) ->
  (lower (o_compute o) = "exact"%string \/ lower (o_compute o) = "interp"%string) /\
  (o_solver o = "eigh"%string \/ o_solver o = "eigsh"%string /\ o_symm o = None) /\
  ~ bad_options d o an /\ o_inds o <> [] /\ pc_layers (dv_phc d) <> [].
Proof.
  intros H Hk Hg Hc. assert (Hb : ~ bad_options d o an).
  { intros Hb. rewrite bad_run in H by auto. discriminate. }
  destruct ks as [|k ks]; [congruence|].
  destruct (run_ok_first _ _ _ _ _ _ H) as (eps & einv & refl & s1 & _ & _ & r & Hr).
  destruct (one_k_solver _ _ _ _ _ _ _ _ _ _ Hr) as (Hs & s2 & mat & Hm & _).
  pose proof (construct_inds _ _ _ _ _ _ _ _ _ _ Hm) as Hi.
  assert (Hcomp : lower (o_compute o) = "exact"%string \/ lower (o_compute o) = "interp"%string).
  { destruct (String.eqb (lower (o_compute o)) "exact") eqn:Q1; [apply String.eqb_eq in Q1; auto|].
    destruct (String.eqb (lower (o_compute o)) "interp") eqn:Q2; [apply String.eqb_eq in Q2; auto|]. exfalso.
    unfold run, andthen at 1, modify at 1 in H. unfold andthen at 1, lift at 1 in H.
    destruct (check d o an) as [rf|e]; [|discriminate]. unfold andthen at 1, lift at 1 in H.
    destruct (eps_list d o) as [ep|e]; [|discriminate]. cbv zeta in H.
    unfold andthen at 1, modify at 1 in H. unfold andthen at 1, interp_modes at 1 in H. rewrite Q2 in H. unfold ret at 1 in H.
    unfold andthen at 1 in H. unfold compute_eps_inv in H.
    assert (Hfor : forall ei s', g_tabs s' = [] ->
     snd (foreach (one_k argsort eigh eigsh root dl d o ep (d_list d) ei rf an) (enum (k :: ks)) s') = Raise IndexError).
    { intros ei s' Hs'. unfold enum. cbn [List.length seq combine foreach].
      unfold andthen at 1. cbn [one_k]. unfold andthen at 1. unfold construct at 1. unfold andthen at 1.
      unfold exact_modes. rewrite Q1. unfold ret at 1. unfold andthen at 1, lift at 1. unfold tab_at, interp_modes. rewrite Q2, Hs'. reflexivity. }
    destruct (g_einv _) as [e0|]; cbn beta iota in H; unfold andthen at 1, modify at 1 in H; unfold andthen at 1 in H;
    match type of H with context[foreach (one_k _ _ _ _ _ _ _ _ _ ?ei _ _) ?l ?x] => pose proof (Hfor ei x eq_refl) as Hx;
      destruct (foreach (one_k argsort eigh eigsh root dl d o ep (d_list d) ei rf an) l x) as [s3 q] end;
    cbn in Hx; subst q; discriminate. }
  split; [auto|]. split; [auto|]. split; [auto|]. split; [auto|].
  intros Hl. destruct Hcomp as [Q|Q].
  - rewrite no_layers_run in H; auto; try discriminate. intros l Hl'. rewrite (Hc l Hl'). unfold all_layers. rewrite Hl. reflexivity.
  - destruct (o_npts o) eqn:En.
    + unfold run, andthen at 1, modify at 1 in H. unfold andthen at 1, lift at 1 in H.
      destruct (check d o an) as [rf|e]; [|discriminate]. unfold andthen at 1, lift at 1 in H.
      destruct (eps_list d o) as [ep|e]; [|discriminate]. cbv zeta in H.
      unfold andthen at 1, modify at 1 in H. unfold andthen at 1, interp_modes at 1 in H. rewrite Q in H.
      cbn [String.eqb Ascii.eqb Bool.eqb] in H. destruct (dv_gvec d) as [|g gs]; [congruence|].
      unfold andthen at 1, lift at 1 in H. rewrite En in H. discriminate.
    + rewrite no_layers_run in H; auto; try discriminate.
      * intros l Hl'. rewrite (Hc l Hl'). unfold all_layers. rewrite Hl. reflexivity.
      * right. split; auto. congruence.
Qed.
End RUN.
