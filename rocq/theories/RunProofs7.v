(** C45: what run() keeps from earlier runs, and what it does not; compute_im. *)
From Coq Require Import Permutation List.
From Verif Require Import Py CBase LatticeModel PhcModel SymModel SymSpec RecipModel SlabModel MatElModel MatElSpec MatElProofs2 MatElProofs3
  RadModel RadProofs RadProofs2 RunModel RunSpec RunProofs RunProofs2 RunProofs5.
Open Scope R_scope.
Open Scope list_scope.

(** from related states: the same result, and related states again if it is a success *)
Definition agree {A} (P Q : gst -> gst -> Prop) (m : act A) : Prop := forall s1 s2, P s1 s2 ->
  snd (m s1) = snd (m s2) /\ forall a, snd (m s1) = Ok a -> Q (fst (m s1)) (fst (m s2)).
Lemma agree_then {A B} (P Q T : gst -> gst -> Prop) (m : act A) (f : A -> act B) :
  agree P Q m -> (forall a, agree Q T (f a)) -> agree P T (andthen m f).
Proof.
  intros Hm Hf s1 s2 H. destruct (Hm s1 s2 H) as [H1 H2]. unfold andthen.
  destruct (m s1) as [t1 [a|e]], (m s2) as [t2 r2]; cbn [fst snd] in *; subst r2.
  - apply (Hf a). apply (H2 a). reflexivity.
  - split; [reflexivity|]. discriminate.
Qed.
Lemma agree_lift {A} P (r : result A) : agree P P (lift r).
Proof. intros s1 s2 H. split; auto. Qed.
Lemma agree_ret {A} P (a : A) : agree P P (ret a).
Proof. intros s1 s2 H. split; auto. Qed.
Lemma agree_fail {A} P Q e : agree P Q (fail e : act A).
Proof. intros s1 s2 H. split; [reflexivity|discriminate]. Qed.
Lemma agree_mod (P Q : gst -> gst -> Prop) f : (forall s1 s2, P s1 s2 -> Q (f s1) (f s2)) -> agree P Q (modify f).
Proof. intros H s1 s2 K. split; auto. intros a _. apply H. auto. Qed.
Lemma agree_read {A} (P : gst -> gst -> Prop) (f : gst -> result A) : (forall s1 s2, P s1 s2 -> f s1 = f s2) -> agree P P (fun s => lift (f s) s).
Proof. intros H s1 s2 K. cbn. split; auto. Qed.
Lemma agree_foreach {A B} P (f : A -> act B) l : (forall a, agree P P (f a)) -> agree P P (foreach f l).
Proof.
  intros H. induction l as [|a l IH]; [apply agree_ret|]. cbn [foreach].
  apply (agree_then P P P); auto. intros b. apply (agree_then P P P); auto. intros bs. apply agree_ret.
Qed.

Definition symmetric (o : opts) : bool := match o_symm o with None => false | Some _ => true end.

Section Hist.
Variable argsort : list R -> list nat.
Variable eigh : nat -> cmat -> list R * cmat.
Variable eigsh : nat -> cmat -> nat -> R -> result (list R * cmat).
Variable inv : nat -> cmat -> cmat.
Variable root : (R -> R) -> R -> R -> R.
Variable dl : R.
Notation run' := (run argsort eigh eigsh inv root dl).
Notation runs' := (runs argsort eigh eigsh inv root dl).
Variable d : dev.
Variable o : opts.
Notation sym := (symmetric o).

Definition rel0 (s1 s2 : gst) : Prop := (sym = true -> g_ind s1 = g_ind s2) /\
  (forall e, g_einv s1 = Some e -> e = build_einv inv d (o_only o)) /\ (forall e, g_einv s2 = Some e -> e = build_einv inv d (o_only o)).
Definition rel1 (s1 s2 : gst) : Prop := rel0 s1 s2 /\ g_numg s1 = g_numg s2 /\ g_inc s1 = g_inc s2 /\ g_k s1 = g_k s2.
Definition rel2 (s1 s2 : gst) : Prop := rel1 s1 s2 /\ g_tabs s1 = g_tabs s2.
Definition rel3 (s1 s2 : gst) : Prop := rel2 s1 s2 /\ g_vecs s1 = g_vecs s2 /\ g_even s1 = g_even s2 /\ g_odd s1 = g_odd s2.
Definition rel4 (s1 s2 : gst) : Prop := rel3 s1 s2 /\ g_freqs s1 = g_freqs s2 /\ g_symms s1 = g_symms s2.
Definition rel5 (s1 s2 : gst) : Prop := rel4 s1 s2 /\ (o_im o = true -> g_im s1 = g_im s2 /\ g_ub s1 = g_ub s2 /\ g_rad s1 = g_rad s2).

Ltac rel := unfold rel5, rel4, rel3, rel2, rel1, rel0 in *; intros; cbn in *;
  repeat match goal with H : _ /\ _ |- _ => destruct H end; repeat split; intros; auto; try congruence.

Lemma construct_agree eps ds einv ik k : agree rel3 rel3 (construct root dl d o eps ds einv ik k).
Proof.
  unfold construct. apply (agree_then rel3 rel3 rel3).
  { destruct (exact_modes o); [|apply agree_ret]. apply (agree_then rel3 rel3 rel3); [apply agree_lift|]. intros t. apply agree_mod. rel. }
  intros _. apply (agree_then rel3 rel3 rel3).
  { apply agree_read. unfold tab_at. rel. }
  intros [[garr te] tm]. apply (agree_then rel3 rel3 rel3); [apply agree_lift|]. intros mat.
  apply (agree_then rel3 rel3 rel3); [apply agree_lift|]. intros ms.
  apply (agree_then rel3 rel3 rel3); [apply agree_mod|intros _; apply agree_ret].
  rel. f_equal. auto.
Qed.
Lemma one_k_agree eps ds einv refl an x : agree rel3 rel3 (one_k argsort eigh eigsh root dl d o eps ds einv refl an x).
Proof.
  destruct x as [ik k]. unfold one_k. apply (agree_then rel3 rel3 rel3); [apply construct_agree|]. intros mat.
  destruct (Nat.ltb _ _); [apply agree_fail|].
  assert (AV : forall v, agree rel3 rel3 (modify (add_vecs v))) by (intros v; apply agree_mod; rel).
  destruct (String.eqb (o_solver o) "eigh").
  - destruct (o_symm o) as [y|] eqn:Ey.
    + assert (Hsym : sym = true) by (unfold symmetric; rewrite Ey; reflexivity).
      apply (agree_then rel3 rel3 rel3); [apply agree_lift|]. intros a.
      apply (agree_then rel3 rel3 rel3); [apply agree_lift|]. intros m.
      apply (agree_then rel3 rel3 rel3); [apply agree_read; rel|]. intros numg.
      apply (agree_then rel3 rel3 rel3).
      { apply agree_read. unfold rel3, rel2, rel1, rel0. intros s1 s2 H. destruct H as [[[[H _] _] _] _]. rewrite (H Hsym). reflexivity. }
      intros ind. apply (agree_then rel3 rel3 rel3); [apply agree_lift|]. intros b.
      apply (agree_then rel3 rel3 rel3); [apply agree_mod; rel|]. intros _.
      apply (agree_then rel3 rel3 rel3); [apply agree_lift|]. intros [E O].
      destruct (is_low o "both").
      * apply (agree_then rel3 rel3 rel3); [apply agree_lift|]. intros [[f vs] sy].
        apply (agree_then rel3 rel3 rel3); [apply AV|intros _; apply agree_ret].
      * destruct (is_low o "odd"); (apply (agree_then rel3 rel3 rel3); [apply agree_lift|]); intros r;
          (apply (agree_then rel3 rel3 rel3); [apply AV|intros _; apply agree_ret]).
    + apply (agree_then rel3 rel3 rel3); [apply agree_lift|]. intros r.
      apply (agree_then rel3 rel3 rel3); [apply AV|intros _; apply agree_ret].
  - destruct (String.eqb (o_solver o) "eigsh"); [|apply agree_fail]. destruct (o_symm o); [apply agree_fail|].
    apply (agree_then rel3 rel3 rel3); [apply agree_lift|]. intros r.
    apply (agree_then rel3 rel3 rel3); [apply AV|intros _; apply agree_ret].
Qed.
Lemma run_agree ks an : agree rel0 rel5 (run' d o ks an).
Proof.
  unfold run. apply (agree_then rel0 rel1 rel5); [apply agree_mod; rel|]. intros _.
  apply (agree_then rel1 rel1 rel5); [apply agree_lift|]. intros refl.
  apply (agree_then rel1 rel1 rel5); [apply agree_lift|]. intros eps.
  apply (agree_then rel1 rel2 rel5); [apply agree_mod; rel|]. intros _.
  apply (agree_then rel2 rel2 rel5).
  { destruct (interp_modes o); [|apply agree_ret]. destruct ks as [|k0 ks']; [apply agree_fail|]. destruct (dv_gvec d); [apply agree_fail|].
    apply (agree_then rel2 rel2 rel2); [apply agree_lift|]. intros t. apply agree_mod. rel. }
  intros _. apply (agree_then rel2 rel2 rel5).
  { intros s1 s2 H. unfold compute_eps_inv. pose proof H as [[[H1 [H2 H3]] _] _].
    destruct (g_einv s1) as [e1|] eqn:E1, (g_einv s2) as [e2|] eqn:E2; cbn [fst snd].
    - rewrite (H2 e1 eq_refl), (H3 e2 eq_refl). split; [reflexivity|]. intros _ _. auto.
    - rewrite (H2 e1 eq_refl). split; [reflexivity|]. intros _ _. rel.
    - rewrite (H3 e2 eq_refl). split; [reflexivity|]. intros _ _. rel.
    - split; [reflexivity|]. intros _ _. rel. }
  intros einv. apply (agree_then rel2 rel3 rel5); [apply agree_mod; rel|]. intros _.
  apply (agree_then rel3 rel3 rel5); [apply agree_foreach; intros; apply one_k_agree|]. intros rows.
  apply (agree_then rel3 rel4 rel5); [apply agree_mod; rel|]. intros _.
  destruct (o_im o) eqn:Ei.
  - unfold run_im_m. apply (agree_then rel4 rel4 rel5).
    + apply agree_read. intros s1 s2 H.
      assert (F : rad_at d o eps (d_list d) einv s1 = rad_at d o eps (d_list d) einv s2).
      { unfold rad_at, tab_at. unfold rel4, rel3, rel2, rel1 in H. repeat match goal with H : _ /\ _ |- _ => destruct H end.
        repeat match goal with E : _ s1 = _ s2 |- _ => rewrite E; clear E end. reflexivity. }
      rewrite F. destruct H as [_ [-> _]]. reflexivity.
    + intros [[im ub] rad]. apply agree_mod. unfold rel5. intros s1 s2 H. split; [rel|]. intros _. cbn. auto.
  - intros s1 s2 H. cbn. split; [reflexivity|]. intros _ _. unfold rel5. split; auto. congruence.
Qed.
End Hist.

Section Hist2.
Variable argsort : list R -> list nat.
Variable eigh : nat -> cmat -> list R * cmat.
Variable eigsh : nat -> cmat -> nat -> R -> result (list R * cmat).
Variable inv : nat -> cmat -> cmat.
Variable root : (R -> R) -> R -> R -> R.
Variable dl : R.
Notation run' := (run argsort eigh eigsh inv root dl).
Notation runs' := (runs argsort eigh eigsh inv root dl).
Variable d : dev.

(** what a computation never touches *)
Definition keeps {A B} (f : gst -> B) (m : act A) : Prop := forall s, f (fst (m s)) = f s.
Lemma keeps_then {A B D} (f : gst -> D) (m : act A) (g : A -> act B) : keeps f m -> (forall a, keeps f (g a)) -> keeps f (andthen m g).
Proof.
  intros Hm Hg s. unfold andthen. pose proof (Hm s) as E. destruct (m s) as [s1 [a|e]]; cbn in E |- *; [|auto]. rewrite Hg. auto.
Qed.
Lemma keeps_lift {A D} (f : gst -> D) (r : gst -> result A) : keeps f (fun s => lift (r s) s).
Proof. intros s. reflexivity. Qed.
Lemma keeps_mod {D} (f : gst -> D) u : (forall s, f (u s) = f s) -> keeps f (modify u).
Proof. intros H s. apply H. Qed.
Lemma keeps_foreach {A B D} (f : gst -> D) (m : A -> act B) l : (forall a, keeps f (m a)) -> keeps f (foreach m l).
Proof.
  intros H. induction l as [|a l IH]; [intros s; reflexivity|]. cbn [foreach]. apply keeps_then; auto. intros b.
  apply keeps_then; auto. intros bs s. reflexivity.
Qed.
Ltac kp := repeat first
  [ apply keeps_then; [|intros ?]
  | apply keeps_lift | (apply keeps_mod; reflexivity) | (intros ?s; reflexivity)
  | match goal with |- keeps _ (if ?b then _ else _) => destruct b
                  | |- keeps _ (match ?b with _ => _ end) => destruct b
                  | |- keeps _ (let (_, _) := ?b in _) => destruct b end ].
Lemma one_k_keeps {D} (f : gst -> D) o eps ds einv refl an x :
  (forall t s, f (add_tab t s) = f s) -> (forall a b c s, f (add_modes a b c s) = f s) -> (forall a b s, f (add_counts a b s) = f s) ->
  (forall a s, f (add_vecs a s) = f s) -> keeps f (one_k argsort eigh eigsh root dl d o eps ds einv refl an x).
Proof.
  intros H1 H2 H3 H4. destruct x as [ik k]. unfold one_k. apply keeps_then.
  - unfold construct. apply keeps_then.
    + destruct (exact_modes o); [|intros s; reflexivity]. apply keeps_then; [apply keeps_lift|]. intros t. apply keeps_mod. apply H1.
    + intros _. apply keeps_then; [apply keeps_lift|]. intros [[garr te] tm]. apply keeps_then; [apply keeps_lift|]. intros mat.
      apply keeps_then; [apply keeps_lift|]. intros ms. apply keeps_then; [apply keeps_mod; intros; apply H2|]. intros _ s. reflexivity.
  - intros mat.
    assert (AV : forall v, keeps f (modify (add_vecs v))) by (intros v; apply keeps_mod; auto).
    assert (AC : forall a b, keeps f (modify (add_counts a b))) by (intros; apply keeps_mod; auto).
    destruct (Nat.ltb _ _); [intros s; reflexivity|]. destruct (String.eqb (o_solver o) "eigh").
    + destruct (o_symm o); repeat (apply keeps_then; [first [apply keeps_lift|apply AV|apply AC]|intros ?]); try (intros ?s; reflexivity).
      match goal with |- keeps _ (let (_, _) := ?b in _) => destruct b end. destruct (is_low o "both"); [|destruct (is_low o "odd")];
      repeat (apply keeps_then; [first [apply keeps_lift|apply AV|apply AC]|intros ?]); try (intros ?s; reflexivity).
      match goal with |- keeps _ (let (_, _) := ?b in _) => destruct b as [[? ?] ?] end.
      repeat (apply keeps_then; [first [apply keeps_lift|apply AV|apply AC]|intros ?]); try (intros ?s; reflexivity).
    + destruct (String.eqb (o_solver o) "eigsh"); [|intros s; reflexivity]. destruct (o_symm o); [intros z; reflexivity|].
      repeat (apply keeps_then; [first [apply keeps_lift|apply AV|apply AC]|intros ?]); try (intros ?s; reflexivity).
Qed.

(** without compute_im the imaginary parts of an earlier run stay *)
Lemma im_kept o ks an s : o_im o = false -> g_im (fst (run' d o ks an s)) = g_im s /\ g_ub (fst (run' d o ks an s)) = g_ub s.
Proof.
  intros Hi. assert (G : forall (f : gst -> list (list R)), f = g_im \/ f = g_ub -> keeps f (run' d o ks an)).
  { intros f Hf. unfold run. rewrite Hi.
    apply keeps_then; [apply keeps_mod; destruct Hf; subst; reflexivity|]. intros _.
    apply keeps_then; [apply keeps_lift|]. intros refl. apply keeps_then; [apply keeps_lift|]. intros eps.
    apply keeps_then; [apply keeps_mod; destruct Hf; subst; reflexivity|]. intros _.
    apply keeps_then.
    { destruct (interp_modes o); [|intros z; reflexivity]. destruct ks; [intros z; reflexivity|]. destruct (dv_gvec d); [intros z; reflexivity|].
      apply keeps_then; [apply keeps_lift|]. intros t. apply keeps_mod. destruct Hf; subst; reflexivity. }
    intros _. apply keeps_then.
    { intros z. unfold compute_eps_inv. destruct (g_einv z); destruct Hf; subst; reflexivity. }
    intros einv. apply keeps_then; [apply keeps_mod; destruct Hf; subst; reflexivity|]. intros _.
    apply keeps_then; [apply keeps_foreach; intros; apply one_k_keeps; destruct Hf; subst; reflexivity|]. intros rows.
    apply keeps_then; [apply keeps_mod; destruct Hf; subst; reflexivity|]. intros _ z. reflexivity. }
  split; apply G; auto.
Qed.

(** the cached permittivities come from an earlier run *)
Lemma einv_step o ks an s : g_einv (fst (run' d o ks an s)) = g_einv s \/
  (g_einv s = None /\ g_einv (fst (run' d o ks an s)) = Some (build_einv inv d (o_only o)) /\ (dv_tbt d = true -> o_only o = false)).
Proof.
  set (P := fun t : gst => g_einv t = g_einv s \/
    (g_einv s = None /\ g_einv t = Some (build_einv inv d (o_only o)) /\ (dv_tbt d = true -> o_only o = false))).
  change (P (fst (run' d o ks an s))).
  unfold run. unfold andthen at 1. cbn [modify]. unfold andthen at 1. unfold lift at 1.
  destruct (check d o an) as [refl|] eqn:Ec; [|left; reflexivity].
  unfold andthen at 1. unfold lift at 1. destruct (eps_list d o) as [eps|]; [|left; reflexivity].
  unfold andthen at 1. cbn [modify]. unfold andthen at 1.
  set (s1 := clear_tabs (start ks s)).
  match goal with |- context [match ?m with (_, _) => _ end] => set (pre := m) end.
  assert (E1 : g_einv (fst pre) = g_einv s).
  { unfold pre. destruct (interp_modes o); [|reflexivity]. destruct ks; [reflexivity|]. destruct (dv_gvec d); [reflexivity|].
    unfold andthen, lift. destruct (compute_guided _ _ _ _ _); reflexivity. }
  destruct pre as [s2 [u|e]]; cbn [fst] in E1; [|left; exact E1]. unfold andthen at 1. unfold compute_eps_inv.
  assert (K : forall einv, keeps g_einv (do _ <- modify clear_vecs; do rows <- foreach (one_k argsort eigh eigsh root dl d o eps (d_list d) einv refl an) (enum ks);
    do _ <- modify (store (map fst rows) (match o_symm o with None => [] | Some _ => map snd rows end));
    if o_im o then run_im_m dl d o eps (d_list d) einv else ret tt)).
  { intros einv. apply keeps_then; [apply keeps_mod; reflexivity|]. intros _.
    apply keeps_then; [apply keeps_foreach; intros; apply one_k_keeps; reflexivity|]. intros rows.
    apply keeps_then; [apply keeps_mod; reflexivity|]. intros _. destruct (o_im o); [|intros z; reflexivity].
    unfold run_im_m. apply keeps_then; [apply keeps_lift|]. intros [[im ub] rad]. apply keeps_mod. reflexivity. }
  destruct (g_einv s2) as [e|] eqn:E2.
  - left. rewrite (K e s2). congruence.
  - right. split; [congruence|]. split.
    + rewrite (K (build_einv inv d (o_only o))). reflexivity.
    + intros Ht. unfold check in Ec. destruct (match o_symm o with None => _ | Some _ => _ end); [|discriminate].
      cbn [bind] in Ec. destruct (match o_symm o with None => _ | Some _ => _ end); [|discriminate]. cbn [bind] in Ec.
      rewrite Ht in Ec. destruct (o_only o); [discriminate|reflexivity].
Qed.
Definition ho (x : opts * list (R * R) * list R) : opts := fst (fst x).
Lemma einv_runs (ok : bool -> Prop) h : forall s, (forall x, In x h -> (dv_tbt d = true -> o_only (ho x) = false) -> ok (o_only (ho x))) ->
  (forall e, g_einv s = Some e -> exists b, ok b /\ e = build_einv inv d b) ->
  forall e, g_einv (runs' d h s) = Some e -> exists b, ok b /\ e = build_einv inv d b.
Proof.
  induction h as [|[[o ks] an] h IH]; intros s Hh Hs; [exact Hs|]. cbn [runs]. apply IH; [intros; apply Hh; [right; auto|auto]|].
  intros e He. destruct (einv_step o ks an s) as [E|(E1 & E2 & E3)]; [apply Hs; congruence|].
  rewrite E2 in He. injection He as <-. exists (o_only o). split; auto. apply (Hh (o, ks, an)); [left; auto|exact E3].
Qed.

Lemma C45_lem h o ks an : 
  (o_symm o = None \/ g_ind (runs' d h fresh) = []) ->
  (dv_tbt d = true \/ forall x, In x h -> o_only (ho x) = o_only o) ->
  let a := run' d o ks an (runs' d h fresh) in let b := run' d o ks an fresh in
  snd a = snd b /\ (snd a = Ok tt ->
    g_freqs (fst a) = g_freqs (fst b) /\ g_vecs (fst a) = g_vecs (fst b) /\ g_symms (fst a) = g_symms (fst b) /\
    g_inc (fst a) = g_inc (fst b) /\ g_numg (fst a) = g_numg (fst b) /\ g_tabs (fst a) = g_tabs (fst b) /\ g_k (fst a) = g_k (fst b) /\
    (o_im o = true -> g_im (fst a) = g_im (fst b) /\ g_ub (fst a) = g_ub (fst b) /\ g_rad (fst a) = g_rad (fst b))).
Proof.
  intros H1 H2. cbv zeta.
  destruct (Bool.bool_dec (dv_tbt d && o_only o) true) as [Hc|Hc].
  { (* the checks refuse the call *)
    assert (F2 : forall s, snd (run' d o ks an s) = match check d o an with Ok _ => Ok tt | Raise e => Raise e end \/ exists x, check d o an = Ok x).
    { intros s. unfold run, andthen, modify, lift. destruct (check d o an); [right; eauto|left; reflexivity]. }
    assert (F3 : exists e, check d o an = Raise e).
    { unfold check. destruct (match o_symm o with None => _ | Some _ => _ end); [|cbn; eauto]. cbn [bind].
      destruct (match o_symm o with None => _ | Some _ => _ end); [|cbn; eauto]. cbn [bind]. rewrite Hc. eauto. }
    destruct F3 as [e E]. rewrite E in F2.
    destruct (F2 (runs' d h fresh)) as [->|[x Hx]]; [|discriminate]. destruct (F2 fresh) as [->|[x Hx]]; [|discriminate].
    split; [reflexivity|discriminate]. }
  assert (Ht : dv_tbt d = true -> o_only o = false).
  { intros Ht. rewrite Ht in Hc. destruct (o_only o); [exfalso; apply Hc; reflexivity|reflexivity]. }
  assert (R : rel0 inv d o (runs' d h fresh) fresh).
  { split; [|split].
    - intros Hy. destruct H1 as [H1|H1]; [unfold symmetric in Hy; rewrite H1 in Hy; discriminate|]. rewrite H1. reflexivity.
    - intros e He. destruct (einv_runs (fun b => b = o_only o) h fresh) with (e := e) as (b & -> & ->); auto.
      + intros x Hx Hb. destruct H2 as [H2|H2]; [rewrite (Hb H2), (Ht H2); reflexivity|apply H2; auto].
      + intros e' He'. discriminate.
    - intros e He. discriminate. }
  destruct (run_agree argsort eigh eigsh inv root dl d o ks an _ _ R) as [A B]. split; [exact A|]. intros Hk. specialize (B tt Hk).
  unfold rel5, rel4, rel3, rel2, rel1 in B. repeat match goal with H : _ /\ _ |- _ => destruct H end. repeat (split; [assumption|]). assumption.
Qed.
End Hist2.
