(** Two guided-mode runs on moved crystals. *)
From Coq Require Import Permutation List.
From Verif Require Import Py CBase LatticeModel LatticeSpec PhcModel PhcSpec RecipModel RecipSpec SlabModel MatElModel SymModel RadModel RunModel RunSpec RunProofs RunProofs2 RunProofs5 PweSpec InvSpec InvProofs InvProofs3 GinvSpec GinvProofs GinvProofs2.
Open Scope R_scope.
Open Scope list_scope.

(** ** the matrices *)
Lemma related_layers rel d d' : devices_related rel d d' ->
  Forall2 (layers_related rel d d') (all_layers (dv_phc d)) (all_layers (dv_phc d')).
Proof. intros (_ & _ & _ & _ & L & M & U). unfold all_layers. constructor; [exact L|]. apply Forall2_app; [exact M|]. constructor; [exact U|constructor]. Qed.
Lemma each_all P d : each_layer P d -> Forall P (all_layers (dv_phc d)).
Proof. intros (L & M & U). unfold all_layers. constructor; [exact L|]. apply Forall_app. split; [exact M|]. constructor; [exact U|constructor]. Qed.
Lemma forall2_nth {A B} (R : A -> B -> Prop) l l' a b i : Forall2 R l l' -> R a b -> R (nth i l a) (nth i l' b).
Proof. intros F D. revert i. induction F as [|x y l l' H F IH]; intros [|i]; cbn [nth]; auto. Qed.
Lemma forall_nth {A} (P : A -> Prop) l a i : Forall P l -> P a -> P (nth i l a).
Proof. intros F D. revert i. induction F as [|x l H F IH]; intros [|i]; cbn [nth]; auto. Qed.
Lemma einv_moved inv only args gmax d d' t : inverts inv -> lattice_init args = Ok (cell d) -> independent (lt_a1 (cell d)) (lt_a2 (cell d)) -> 0 <= gmax ->
  waves_of (cell d) (dv_tbt d) gmax (dv_rc d) -> each_layer (layer_usable d) d -> each_layer (layer_usable d') d' -> crystal_moved t d d' ->
  let n := List.length (dv_gvec d) in exists u, (forall i, (i < n)%nat -> (u i * Cconj (u i))%C = RtoC 1) /\
  forall il i j, (i < n)%nat -> (j < n)%nat -> build_einv inv d' only il i j = (u i * build_einv inv d only il i j * Cconj (u j))%C.
Proof.
  intros HI HL Ha Hg W EU EU' CM n. pose proof (related_layers _ _ _ CM) as RL. pose proof CM as (E1 & E2 & E3 & _ & RC & _).
  pose proof (each_all _ _ EU) as AU. pose proof (each_all _ _ EU') as AU'.
  assert (HC : cell d' = cell d) by exact E1.
  assert (GV : dv_gvec d' = dv_gvec d) by (unfold dv_gvec; rewrite E3; reflexivity).
  destruct (dv_tbt d) eqn:Et.
  - exists (fun i => expi (- LatticeSpec.inner (nth i (dv_gvec d) (0, 0)) t)). split; [intros; apply expi_mod|]. intros il i j Hi Hj.
    unfold build_einv. rewrite E2, Et, HC, E3. unfold waves_of in W. unfold n, dv_gvec in *. rewrite W in *.
    destruct (forall2_nth _ _ _ _ _ il RL RC) as (_ & _ & _ & MV). destruct (forall_nth _ _ _ il AU (proj1 EU)) as (C1 & I1 & N1). destruct (forall_nth _ _ _ il AU' (proj1 EU')) as (C2 & I2 & N2).
    unfold transform, dv_gvec in *. rewrite E3 in N2. unfold cell in *. rewrite E1 in *. rewrite W in *.
    apply (tbt_einv_moved inv only args _ gmax _ _ t HI HL Ha Hg C1 C2 (N1 Et) (N2 E2) MV I1); auto.
  - exists (fun i => expi (LatticeSpec.inner (nth i (dv_gvec d) (0, 0)) t)). split; [intros; apply expi_mod|]. intros il i j Hi Hj.
    unfold build_einv. rewrite E2, Et, HC, E3. destruct W as (fuel & W). unfold n, dv_gvec in *.
    destruct (forall2_nth _ _ _ _ _ il RL RC) as (_ & _ & _ & MV). destruct (forall_nth _ _ _ il AU (proj1 EU)) as (C1 & I1 & N1). destruct (forall_nth _ _ _ il AU' (proj1 EU')) as (C2 & I2 & N2).
    unfold transform, dv_gvec in *. unfold cell in *. rewrite E1 in *.
    apply (abs_einv_moved inv only args _ gmax fuel (dv_rc d) _ _ t HI HL Ha Hg W C1 C2 MV I1); auto.
Qed.

(** ** two methods side by side *)
Section Side.
Variable e e' : nat -> cmat.
Definition agree (s s' : gst) : Prop := g_freqs s' = g_freqs s /\ g_tabs s' = g_tabs s /\
  ((g_einv s = None /\ g_einv s' = None) \/ (g_einv s = Some e /\ g_einv s' = Some e')).
Definition sim {A} (RA : A -> A -> Prop) (m m' : act A) : Prop := forall s s', agree s s' ->
  agree (fst (m s)) (fst (m' s')) /\
  match snd (m s), snd (m' s') with Ok a, Ok a' => RA a a' | Raise e, Raise e' => e = e' | _, _ => False end.
Lemma sim_then {A B} (RA : A -> A -> Prop) (RB : B -> B -> Prop) m m' f f' : sim RA m m' -> (forall a a', RA a a' -> sim RB (f a) (f' a')) -> sim RB (andthen m f) (andthen m' f').
Proof.
  intros H K s s' I. unfold andthen. pose proof (H s s' I) as (I1 & R). destruct (m s) as [s1 [a|x]], (m' s') as [s2 [a'|x']]; cbn [fst snd] in *; try contradiction.
  - apply (K a a' R); auto.
  - auto.
Qed.
Lemma sim_ret {A} (RA : A -> A -> Prop) a a' : RA a a' -> sim RA (ret a) (ret a').
Proof. intros H s s' I. split; auto. Qed.
Lemma sim_lift {A} (RA : A -> A -> Prop) r r' : match r, r' with Ok a, Ok a' => RA a a' | Raise e, Raise e' => e = e' | _, _ => False end -> sim RA (lift r) (lift r').
Proof. intros H s s' I. split; auto. Qed.
Lemma sim_same {A} (r : result A) : sim eq (lift r) (lift r).
Proof. apply sim_lift. destruct r; auto. Qed.
Lemma sim_mod f f' : (forall s s', agree s s' -> agree (f s) (f' s')) -> sim eq (modify f) (modify f').
Proof. intros H s s' I. split; cbn; auto. Qed.
Lemma sim_fail {A} (RA : A -> A -> Prop) x : sim RA (fail x) (fail x).
Proof. intros s s' I. split; cbn; auto. Qed.
Lemma sim_each {A B} (RB : B -> B -> Prop) (f f' : A -> act B) l : (forall a, sim RB (f a) (f' a)) -> sim (Forall2 RB) (foreach f l) (foreach f' l).
Proof.
  intros H. induction l as [|a l IH]; [apply sim_ret; constructor|]. cbn [foreach]. eapply sim_then; [apply H|]. intros b b' Hb. eapply sim_then; [apply IH|].
  intros bs bs' Hbs. apply sim_ret. constructor; auto.
Qed.
Definition simw (b : bool) {A} (m m' : act A) : Prop := forall s s', agree s s' ->
  g_freqs (fst (m' s')) = g_freqs (fst (m s)) /\ (b = true -> snd (m' s') = snd (m s)).
Lemma simw_then {A B} (RA : A -> A -> Prop) b (m m' : act A) (f f' : A -> act B) : sim RA m m' -> (forall a a', RA a a' -> simw b (f a) (f' a')) -> simw b (andthen m f) (andthen m' f').
Proof.
  intros H K s s' I. unfold andthen. pose proof (H s s' I) as (I1 & R). destruct (m s) as [s1 [a|x]], (m' s') as [s2 [a'|x']]; cbn [fst snd] in *; try contradiction.
  - apply (K a a' R); auto.
  - split; [apply I1|]. congruence.
Qed.
End Side.

Section Sim.
Variable argsort : list R -> list nat.
Variable eigh : nat -> cmat -> list R * cmat.
Variable eigsh : nat -> cmat -> nat -> R -> result (list R * cmat).
Variable inv : nat -> cmat -> cmat.
Variable root : (R -> R) -> R -> R -> R.
Variable dl : R.
Variable e0 e0' : nat -> cmat.
Hypothesis He : diagonalises eigh.
Hypothesis Hs : eigh_ascending eigh.

Definition same_spectrum (a b : arr2) : Prop := nr b = nr a /\ fst (eigh (nr a) (plus_eye b)) = fst (eigh (nr a) (plus_eye a)).
Lemma arel_spectrum u n w a b : (forall i, (i < n)%nat -> (u i * Cconj (u i))%C = RtoC 1) -> (forall x, In x w -> (x < n)%nat) -> arel u w w a b ->
  herm a -> herm b -> same_spectrum a b.
Proof.
  intros U Hw (N1 & N2 & N3 & N4 & E) (Sa & Ha) (Sb & Hb). split; [congruence|].
  set (N := List.length w) in *. assert (UN : forall i, (i < N)%nat -> (ph u w i * Cconj (ph u w i))%C = RtoC 1) by (intros i Hi; apply U; apply Hw; apply nth_In; auto).
  assert (PE : forall m i j, (forall i j, (i < N)%nat -> (j < N)%nat -> ent m i j = Cconj (ent m j i)) -> (i < N)%nat -> (j < N)%nat -> plus_eye m i j = Cconj (plus_eye m j i)).
  { intros m i j Hm Hi Hj. unfold plus_eye. rewrite Hm, (Nat.eqb_sym j i) by auto. destruct (Nat.eqb i j); unfold Cconj, Cplus, RtoC; cbn; f_equal; ring. }
  rewrite N1 in *. apply (spectrum_twist eigh He Hs N _ _ (fun i => i) (ph u w) (perm_id N) UN).
  - intros; apply PE; auto.
  - intros; apply PE; auto. intros. apply Hb; congruence.
  - intros i j Hi Hj. unfold plus_eye. rewrite E by auto. destruct (Nat.eqb_spec i j) as [->|_]; [|ring].
    transitivity (ph u w j * ent a j j * Cconj (ph u w j) + ph u w j * Cconj (ph u w j))%C; [rewrite UN by auto; ring|ring].
Qed.
Lemma construct_sim u d d' o eps ds einv einv' ik k : dv_gvec d' = dv_gvec d -> let n := List.length (dv_gvec d) in
  (forall i, (i < n)%nat -> (u i * Cconj (u i))%C = RtoC 1) ->
  (forall il i j, (i < n)%nat -> (j < n)%nat -> einv' il i j = (u i * einv il i j * Cconj (u j))%C) ->
  sim e0 e0' same_spectrum (construct root dl d o eps ds einv ik k) (construct root dl d' o eps ds einv' ik k).
Proof.
  intros G n U E. unfold construct. rewrite G. eapply (sim_then e0 e0' eq).
  { destruct (exact_modes o); [|apply sim_ret; auto]. eapply (sim_then e0 e0' eq); [apply sim_same|]. intros t _ <-. apply sim_mod. intros s s' (A1 & A2 & A3). repeat split; cbn; auto. rewrite A2. reflexivity. }
  intros _ _ _. eapply (sim_then e0 e0' eq).
  { intros s s' A. split; [exact A|]. destruct A as (_ & A2 & _). unfold lift, tab_at. rewrite A2. cbn. destruct (SymModel.get _ _); auto. }
  intros [[garr te] tm] _ <-. eapply (sim_then e0 e0' same_spectrum).
  { apply sim_lift. pose proof (construct_rel u dl (dv_gvec d) k (o_dgx o) (o_inds o) garr te tm eps ds einv einv' U E) as CR.
    destruct (construct_mat dl _ _ _ _ _ _ _ _ _ einv) as [a|] eqn:Ea; destruct (construct_mat dl _ _ _ _ _ _ _ _ _ einv') as [b|] eqn:Eb; auto.
    destruct CR as (w & Hw & AR). eapply (arel_spectrum u n w); eauto; eapply construct_herm; eauto. }
  intros a b S. eapply (sim_then e0 e0' eq); [apply sim_same|]. intros ms _ <-. eapply (sim_then e0 e0' eq); [apply sim_mod; intros s s' (A1 & A2 & A3); repeat split; cbn; auto|].
  intros _ _ _. apply sim_ret. exact S.
Qed.
Lemma one_k_sim u d d' o eps ds einv einv' refl an x : o_solver o = "eigh"%string -> o_symm o = None -> dv_gvec d' = dv_gvec d -> let n := List.length (dv_gvec d) in
  (forall i, (i < n)%nat -> (u i * Cconj (u i))%C = RtoC 1) ->
  (forall il i j, (i < n)%nat -> (j < n)%nat -> einv' il i j = (u i * einv il i j * Cconj (u j))%C) ->
  sim e0 e0' eq (one_k argsort eigh eigsh root dl d o eps ds einv refl an x) (one_k argsort eigh eigsh root dl d' o eps ds einv' refl an x).
Proof.
  intros So Sy G n U E. destruct x as [ik k]. unfold one_k. eapply (sim_then e0 e0' same_spectrum); [apply (construct_sim u); auto|].
  intros a b (N & S). rewrite N. destruct (Nat.ltb _ _); [apply sim_fail|]. rewrite So, Sy. cbn [String.eqb Ascii.eqb Bool.eqb]. 
  eapply (sim_then e0 e0' (fun r r' => fst r' = fst r)).
  { apply sim_lift. apply (plain_same argsort eigh o a b (nr a)); auto. }
  intros r r' Er. eapply (sim_then e0 e0' eq); [apply sim_mod; intros s s' (A1 & A2 & A3); repeat split; cbn; auto|]. intros _ _ _. apply sim_ret. rewrite Er. reflexivity.
Qed.
Lemma forall2_eq {A} (l l' : list A) : Forall2 eq l l' -> l' = l.
Proof. induction 1; congruence. Qed.
End Sim.
(** the frequencies, and whether there are any *)
Lemma run_moved argsort eigh eigsh inv root dl u d d' o ks an s : diagonalises eigh -> eigh_ascending eigh -> o_solver o = "eigh"%string -> o_symm o = None -> g_einv s = None ->
  dv_gvec d' = dv_gvec d -> dv_tbt d' = dv_tbt d -> eps_list d' o = eps_list d o -> d_list d' = d_list d -> let n := List.length (dv_gvec d) in
  (forall i, (i < n)%nat -> (u i * Cconj (u i))%C = RtoC 1) ->
  (forall il i j, (i < n)%nat -> (j < n)%nat -> build_einv inv d' (o_only o) il i j = (u i * build_einv inv d (o_only o) il i j * Cconj (u j))%C) ->
  let r := run argsort eigh eigsh inv root dl d o ks an s in let r' := run argsort eigh eigsh inv root dl d' o ks an s in
  g_freqs (fst r') = g_freqs (fst r) /\ (o_im o = false -> snd r' = snd r).
Proof.
  intros He Hs So Sy Ni G Tb Ep Ds n U E r r'. unfold r, r', run. rewrite Ep, Ds.
  assert (CK : check d' o an = check d o an) by (unfold check; rewrite Sy, Tb; reflexivity). rewrite CK, G.
  set (e := build_einv inv d (o_only o)) in *. set (e' := build_einv inv d' (o_only o)) in *.
  assert (M : forall f : gst -> gst, (forall s s', agree e e' s s' -> agree e e' (f s) (f s')) -> sim e e' eq (modify f) (modify f)) by (intros; apply sim_mod; auto).
  cut (forall b, (b = true -> o_im o = false) -> simw e e' b (run argsort eigh eigsh inv root dl d o ks an) (run argsort eigh eigsh inv root dl d' o ks an)).
  { intros W. split.
    - destruct (W false ltac:(discriminate) s s) as (F & _); [repeat split; auto|]. revert F. unfold run. rewrite Ep, Ds, CK, G. auto.
    - intros IM. destruct (W true ltac:(auto) s s) as (_ & F); [repeat split; auto|]. specialize (F eq_refl). revert F. unfold run. rewrite Ep, Ds, CK, G. auto. }
  intros b Hb. unfold run. rewrite Ep, Ds, CK, G.
  eapply (simw_then e e' eq); [apply M; intros x y (A1 & A2 & A3); repeat split; cbn; auto|]. intros _ _ _.
  eapply (simw_then e e' eq); [apply sim_same|]. intros refl _ <-.
  eapply (simw_then e e' eq); [apply sim_same|]. intros eps _ <-.
  eapply (simw_then e e' eq); [apply M; intros x y (A1 & A2 & A3); repeat split; cbn; auto|]. intros _ _ _.
  eapply (simw_then e e' eq).
  { destruct (interp_modes o); [|apply sim_ret; auto]. destruct ks as [|k ks]; [apply sim_fail|]. destruct (dv_gvec d) as [|g gs]; [apply sim_fail|].
    eapply (sim_then e e' eq); [apply sim_same|]. intros t _ <-. apply M. intros x y (A1 & A2 & A3). repeat split; cbn; auto. rewrite A2. reflexivity. }
  intros _ _ _. eapply (simw_then e e' (fun a a' => a = e /\ a' = e')).
  { intros x y (A1 & A2 & A3). unfold compute_eps_inv. fold e e'. destruct A3 as [(-> & ->)|(B1 & B2)].
    - cbn. repeat split; cbn; auto.
    - rewrite B1, B2. cbn. repeat split; cbn; auto. }
  intros a a' (-> & ->). eapply (simw_then e e' eq); [apply M; intros x y (A1 & A2 & A3); repeat split; cbn; auto|]. intros _ _ _.
  eapply (simw_then e e' (Forall2 eq)).
  { apply sim_each. intros x. apply (one_k_sim argsort eigh eigsh root dl e e' He Hs u); auto. }
  intros rows rows' F. apply forall2_eq in F. subst rows'.
  eapply (simw_then e e' eq); [apply M; intros x y (A1 & A2 & A3); repeat split; cbn; auto|]. intros _ _ _.
  destruct (o_im o) eqn:Ei.
  - destruct b; [specialize (Hb eq_refl); discriminate|]. intros x y (A1 & _). split; [|discriminate]. unfold run_im_m.
    assert (K : forall (m : act (list (list R) * list (list R) * list (list rad_res))) z, fst (m z) = z -> g_freqs (fst (andthen m (fun rows => let '(im, ub, rad) := rows in modify (store_im im ub rad)) z)) = g_freqs z).
    { intros m z Hz. unfold andthen. destruct (m z) as [z' [[[im ub] rad]|]]; cbn in *; subst; reflexivity. }
    rewrite !K by reflexivity. exact A1.
  - intros x y (A1 & _). split; auto.
Qed.
