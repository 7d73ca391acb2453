(** Guided-mode runs along k-points turned by a symmetry of the crystal. *)
From Coq Require Import Permutation List.
From Verif Require Import Py CBase LatticeModel LatticeSpec PhcModel PhcSpec RecipModel RecipSpec SlabModel MatElModel SymModel RadModel RunModel RunSpec RunProofs RunProofs2 RunProofs5 RunProofs11 MatElSpec MatElProofs PweSpec PweProofs2 InvSpec InvProofs InvProofs3.
From Verif Require Import GinvSpec GinvProofs GinvProofs2 GinvProofs3 GinvProofs6 GinvProofs7.
Open Scope R_scope.
Open Scope list_scope.

(** the inverse permittivity is only looked at below n *)
Definition cut (n : nat) (f : nat -> cmat) : nat -> cmat := fun il i j => if (Nat.ltb i n && Nat.ltb j n)%bool then f il i j else RtoC 0.
Lemma cut_in n f il i j : (i < n)%nat -> (j < n)%nat -> cut n f il i j = f il i j.
Proof. intros Hi Hj. unfold cut. apply Nat.ltb_lt in Hi, Hj. rewrite Hi, Hj. reflexivity. Qed.
Lemma one_one : (RtoC 1 * Cconj (RtoC 1))%C = RtoC 1.
Proof. rewrite Cconj_R. ring. Qed.
Lemma construct_cut gvec k dgx inds garr te tm eps ds einv : let n := List.length gvec in
  match construct_mat 0 gvec k dgx inds garr te tm eps ds einv, construct_mat 0 gvec k dgx inds garr te tm eps ds (cut n einv) with
  | Ok a, Ok b => nr b = nr a /\ forall i j, (i < nr a)%nat -> (j < nr a)%nat -> ent b i j = ent a i j
  | Raise x, Raise y => x = y
  | _, _ => False
  end.
Proof.
  intros n. pose proof (construct_rel (fun _ => RtoC 1) 0 gvec k dgx inds garr te tm eps ds einv (cut n einv) (fun _ _ => one_one)) as R. fold n in R.
  specialize (R ltac:(intros il i j Hi Hj; rewrite cut_in by auto; rewrite Cconj_R; ring)).
  destruct (construct_mat 0 gvec k dgx inds garr te tm eps ds einv), (construct_mat 0 gvec k dgx inds garr te tm eps ds (cut n einv)); auto.
  destruct R as (w & _ & N1 & N2 & _ & _ & E). split; [congruence|]. rewrite N1. intros i j Hi Hj. rewrite E by auto. unfold ph. rewrite Cconj_R. ring.
Qed.
Lemma matrix_moved gvec k k' dgx M sg einv inds garr te tm eps ds : let n := List.length gvec in
  linear_isometry M -> perm_on n sg -> (forall i, (i < n)%nat -> nth i gvec (0, 0) = M (nth (sg i) gvec (0, 0))) ->
  (fst k' + dgx, snd k') = M (fst k + dgx, snd k) ->
  (forall il i j, (i < n)%nat -> (j < n)%nat -> einv il i j = Cconj (einv il j i)) ->
  (forall il i j, (i < n)%nat -> (j < n)%nat -> einv il i j = einv il (sg i) (sg j)) ->
  match construct_mat 0 gvec k dgx inds garr te tm eps ds einv, construct_mat 0 gvec k' dgx inds garr te tm eps ds einv with
  | Ok a, Ok b => twisted a b
  | Raise x, Raise y => x = y
  | _, _ => False
  end.
Proof.
  intros n HM P E K Hh Hi. destruct (iso_cross M HM) as (e & Ee & He).
  assert (SB : forall i, (i < n)%nat -> (sg i < n)%nat) by apply P.
  pose proof (construct_cut gvec k dgx inds garr te tm eps ds einv) as C1. pose proof (construct_cut gvec k' dgx inds garr te tm eps ds einv) as C2. fold n in C1, C2. cbv zeta in C1, C2.
  assert (MM : match construct_mat 0 gvec k dgx inds garr te tm eps ds (cut n einv), construct_mat 0 gvec k' dgx inds garr te tm eps ds (cut n einv) with
    | Ok a, Ok b => twisted a b | Raise x, Raise y => x = y | _, _ => False end).
  { eapply (matrix_moved0 gvec k k' dgx M sg HM P E K e He); eauto.
    - intros il i j Hi' Hj'. fold n in Hi', Hj'. rewrite !cut_in by auto. apply Hi; auto.
    - intros il i j. unfold cut. rewrite (andb_comm (Nat.ltb j n)). destruct (Nat.ltb_spec i n), (Nat.ltb_spec j n); cbn [andb]; try (rewrite Cconj_R; reflexivity). apply Hh; auto. }
  destruct (construct_mat 0 gvec k dgx inds garr te tm eps ds einv) as [a|], (construct_mat 0 gvec k dgx inds garr te tm eps ds (cut n einv)) as [a'|]; try contradiction;
  destruct (construct_mat 0 gvec k' dgx inds garr te tm eps ds einv) as [b|], (construct_mat 0 gvec k' dgx inds garr te tm eps ds (cut n einv)) as [b'|]; try contradiction; try congruence.
  destruct C1 as (N1 & E1), C2 as (N2 & E2), MM as (N3 & tau & u & T & U & TE). rewrite N1 in *. split; [congruence|]. exists tau, u. split; [exact T|]. split; [exact U|].
  intros i j Hi' Hj'. rewrite <- E2 by congruence. rewrite TE by auto. rewrite E1 by (apply T; auto). reflexivity.
Qed.
Lemma twisted_spectrum eigh a b : diagonalises eigh -> eigh_ascending eigh -> herm a -> herm b -> twisted a b -> same_spectrum eigh a b.
Proof.
  intros He Hs (Sa & Ha) (Sb & Hb) (N & tau & u & T & U & TE). split; [exact N|]. set (n := nr a) in *.
  assert (PE : forall m i j, (forall i j, (i < n)%nat -> (j < n)%nat -> ent m i j = Cconj (ent m j i)) -> (i < n)%nat -> (j < n)%nat -> plus_eye m i j = Cconj (plus_eye m j i)).
  { intros m i j Hm Hi Hj. unfold plus_eye. rewrite Hm, (Nat.eqb_sym j i) by auto. destruct (Nat.eqb i j); unfold Cconj, Cplus, RtoC; cbn; f_equal; ring. }
  apply (spectrum_twist eigh He Hs n _ _ tau u T U).
  - intros; apply PE; auto.
  - intros; apply PE; auto. intros. apply Hb; congruence.
  - intros i j Hi Hj. unfold plus_eye. rewrite TE by auto. destruct (Nat.eqb_spec i j) as [->|Nij].
    + rewrite Nat.eqb_refl. transitivity (u j * ent a (tau j) (tau j) * Cconj (u j) + u j * Cconj (u j))%C; [rewrite U by auto; ring|ring].
    + destruct (Nat.eqb_spec (tau i) (tau j)) as [Q|_]; [exfalso; apply Nij; apply T; auto|ring].
Qed.

(** ** the table of guided modes is the same *)
Lemma lengths_perm gvec k k' dgx M sg : let n := List.length gvec in linear_isometry M -> perm_on n sg ->
  (forall i, (i < n)%nat -> nth i gvec (0, 0) = M (nth (sg i) gvec (0, 0))) -> (fst k' + dgx, snd k') = M (fst k + dgx, snd k) ->
  r_sort (map (gk_len (gk_data gvec k' dgx)) (seq 0 n)) = r_sort (map (gk_len (gk_data gvec k dgx)) (seq 0 n)).
Proof.
  intros n HM P E K. apply asc_unique; [|apply asc_ascending, r_sort_asc|apply asc_ascending, r_sort_asc].
  eapply perm_trans; [apply r_sort_perm|]. eapply perm_trans; [|apply Permutation_sym, r_sort_perm].
  rewrite (map_ext_in _ (fun i => gk_len (gk_data gvec k dgx) (sg i))).
  2: { intros i Hi. apply in_seq in Hi. apply (gkl_moved gvec k k' dgx M sg HM E K). lia. }
  rewrite <- (map_map sg). apply Permutation_map. apply perm_list. exact P.
Qed.
Lemma iso_length M k : linear_isometry M -> sqrt (fst (M k) * fst (M k) + snd (M k) * snd (M k)) = sqrt (fst k * fst k + snd k * snd k).
Proof. intros [_ I]. pose proof (I k k) as H. unfold LatticeSpec.inner in H. rewrite H. reflexivity. Qed.

(** ** the run *)
Lemma sim_each2 e e' {A A' B} (RA : A -> A' -> Prop) (RB : B -> B -> Prop) (f : A -> act B) (f' : A' -> act B) l l' : Forall2 RA l l' ->
  (forall a a', RA a a' -> sim e e' RB (f a) (f' a')) -> sim e e' (Forall2 RB) (foreach f l) (foreach f' l').
Proof.
  intros F H. induction F as [|a a' l l' Ha F IH]; [apply sim_ret; constructor|]. cbn [foreach]. eapply sim_then; [apply H; auto|]. intros b b' Hb. eapply sim_then; [apply IH|].
  intros bs bs' Hbs. apply sim_ret. constructor; auto.
Qed.
Section Turn.
Variable argsort : list R -> list nat.
Variable eigh : nat -> cmat -> list R * cmat.
Variable eigsh : nat -> cmat -> nat -> R -> result (list R * cmat).
Variable inv : nat -> cmat -> cmat.
Variable root : (R -> R) -> R -> R -> R.
Hypothesis He : diagonalises eigh.
Hypothesis Hs : eigh_ascending eigh.
Variables (d : dev) (o : opts) (M : R * R -> R * R) (sg : nat -> nat).
Let n := List.length (dv_gvec d).
Hypothesis HM : linear_isometry M.
Hypothesis P : perm_on n sg.
Hypothesis E : forall i, (i < n)%nat -> nth i (dv_gvec d) (0, 0) = M (nth (sg i) (dv_gvec d) (0, 0)).
Definition turned (k k' : R * R) : Prop := (fst k' + o_dgx o, snd k') = M (fst k + o_dgx o, snd k).
Let e := build_einv inv d (o_only o).
Hypothesis Eh : forall il i j, (i < n)%nat -> (j < n)%nat -> e il i j = Cconj (e il j i).
Hypothesis Ei : forall il i j, (i < n)%nat -> (j < n)%nat -> e il i j = e il (sg i) (sg j).
Lemma construct_turn eps ds ik k k' : turned k k' -> sim e e (same_spectrum eigh) (construct root 0 d o eps ds e ik k) (construct root 0 d o eps ds e ik k').
Proof.
  intros KK. unfold construct. eapply (sim_then e e eq).
  { destruct (exact_modes o); [|apply sim_ret; auto]. rewrite (lengths_perm (dv_gvec d) k k' (o_dgx o) M sg HM P E KK).
    eapply (sim_then e e eq); [apply sim_same|]. intros t _ <-. apply sim_mod. intros s s' (A1 & A2 & A3). repeat split; cbn; auto. rewrite A2. reflexivity. }
  intros _ _ _. eapply (sim_then e e eq).
  { intros s s' A. split; [exact A|]. destruct A as (_ & A2 & _). unfold lift, tab_at. rewrite A2. cbn. destruct (SymModel.get _ _); auto. }
  intros [[garr te] tm] _ <-. eapply (sim_then e e (same_spectrum eigh)).
  { apply sim_lift. pose proof (matrix_moved (dv_gvec d) k k' (o_dgx o) M sg e (o_inds o) garr te tm eps ds HM P E KK Eh Ei) as CR.
    destruct (construct_mat 0 (dv_gvec d) k _ _ _ _ _ _ _ _) as [a|] eqn:Ea; destruct (construct_mat 0 (dv_gvec d) k' _ _ _ _ _ _ _ _) as [b|] eqn:Eb; auto.
    apply twisted_spectrum; auto; eapply construct_herm; eauto. }
  intros a b S. eapply (sim_then e e (fun _ _ => True)).
  { apply sim_lift. assert (X : forall l, match mapM (get_guided (List.length (dv_gvec d)) (gk_len (gk_data (dv_gvec d) k (o_dgx o))) garr te tm eps) l,
      mapM (get_guided (List.length (dv_gvec d)) (gk_len (gk_data (dv_gvec d) k' (o_dgx o))) garr te tm eps) l with Ok _, Ok _ => True | Raise x, Raise y => x = y | _, _ => False end).
    { induction l as [|m l IH]; [exact I|]. cbn [mapM]. pose proof (guided_moved (dv_gvec d) k k' (o_dgx o) M sg HM P E KK garr te tm eps m) as G.
      destruct (get_guided _ _ _ _ _ _ m), (get_guided _ (gk_len (gk_data _ k' _)) _ _ _ _ m); cbn [bind]; try contradiction; auto.
      destruct (mapM _ l), (mapM (get_guided _ (gk_len (gk_data _ k' _)) _ _ _ _) l); cbn [bind]; auto. }
    apply X. }
  intros ms ms' _. eapply (sim_then e e eq); [apply sim_mod; intros s s' (A1 & A2 & A3); repeat split; cbn; auto|].
  intros _ _ _. apply sim_ret. exact S.
Qed.
Lemma one_k_turn eps ds refl an ik k k' : turned k k' -> o_solver o = "eigh"%string -> o_symm o = None ->
  sim e e eq (one_k argsort eigh eigsh root 0 d o eps ds e refl an (ik, k)) (one_k argsort eigh eigsh root 0 d o eps ds e refl an (ik, k')).
Proof.
  intros KK So Sy. unfold one_k. eapply (sim_then e e (same_spectrum eigh)); [apply construct_turn; exact KK|].
  intros a b (N & S). rewrite N. destruct (Nat.ltb _ _); [apply sim_fail|]. rewrite So, Sy. cbn [String.eqb Ascii.eqb Bool.eqb].
  eapply (sim_then e e (fun r r' => fst r' = fst r)).
  { apply sim_lift. apply (plain_same argsort eigh o a b (nr a)); auto. }
  intros r r' Er. eapply (sim_then e e eq); [apply sim_mod; intros s s' (A1 & A2 & A3); repeat split; cbn; auto|]. intros _ _ _. apply sim_ret. rewrite Er. reflexivity.
Qed.
Lemma run_turn ks ks' an s : Forall2 turned ks ks' -> (interp_modes o = true -> map (fun k => sqrt (fst k * fst k + snd k * snd k)) ks' = map (fun k => sqrt (fst k * fst k + snd k * snd k)) ks) -> o_solver o = "eigh"%string -> o_symm o = None -> g_einv s = None ->
  let r := run argsort eigh eigsh inv root 0 d o ks an s in let r' := run argsort eigh eigsh inv root 0 d o ks' an s in
  g_freqs (fst r') = g_freqs (fst r) /\ (o_im o = false -> snd r' = snd r).
Proof.
  intros TK KM So Sy Ni.
  assert (Mo : forall f : gst -> gst, (forall s s', agree e e s s' -> agree e e (f s) (f s')) -> sim e e eq (modify f) (modify f)) by (intros; apply sim_mod; auto).
  cut (forall b, (b = true -> o_im o = false) -> simw e e b (run argsort eigh eigsh inv root 0 d o ks an) (run argsort eigh eigsh inv root 0 d o ks' an)).
  { intros W. split.
    - destruct (W false ltac:(discriminate) s s) as (F & _); [repeat split; auto|]. exact F.
    - intros IM. destruct (W true ltac:(auto) s s) as (_ & F); [repeat split; auto|]. exact (F eq_refl). }
  intros b Hb. unfold run.
  eapply (simw_then e e eq); [apply sim_mod; intros x y (A1 & A2 & A3); repeat split; cbn; auto|]. intros _ _ _.
  eapply (simw_then e e eq); [apply sim_same|]. intros refl _ <-.
  eapply (simw_then e e eq); [apply sim_same|]. intros eps _ <-.
  eapply (simw_then e e eq); [apply Mo; intros x y (A1 & A2 & A3); repeat split; cbn; auto|]. intros _ _ _.
  eapply (simw_then e e eq).
  { destruct (interp_modes o); [|apply sim_ret; auto]. rewrite (KM eq_refl).
    destruct TK as [|k k' ks ks' Hk TK]; [apply sim_fail|]. destruct (dv_gvec d) as [|g gs]; [apply sim_fail|].
    eapply (sim_then e e eq); [apply sim_same|]. intros t _ <-. apply Mo. intros x y (A1 & A2 & A3). repeat split; cbn; auto. rewrite A2. reflexivity. }
  intros _ _ _. eapply (simw_then e e (fun a a' => a = e /\ a' = e)).
  { intros x y (A1 & A2 & A3). unfold compute_eps_inv. fold e. destruct A3 as [(-> & ->)|(B1 & B2)].
    - cbn. repeat split; cbn; auto.
    - rewrite B1, B2. cbn. repeat split; cbn; auto. }
  intros a a' (-> & ->). eapply (simw_then e e eq); [apply Mo; intros x y (A1 & A2 & A3); repeat split; cbn; auto|]. intros _ _ _.
  eapply (simw_then e e (Forall2 eq)).
  { apply (sim_each2 e e (fun x x' => fst x' = fst x /\ turned (snd x) (snd x'))).
    - unfold enum. assert (G : forall i, Forall2 (fun x x' : nat * (R * R) => fst x' = fst x /\ turned (snd x) (snd x')) (combine (seq i (List.length ks)) ks) (combine (seq i (List.length ks')) ks')).
      { clear - TK. induction TK as [|k k' ks ks' Hk TK IH]; intros i; cbn [List.length seq combine]; constructor; auto. }
      apply G.
    - intros [ik k] [ik' k'] (Q1 & Q2). cbn [fst snd] in Q1, Q2. subst. apply one_k_turn; auto. }
  intros rows rows' F. apply forall2_eq in F. subst rows'.
  eapply (simw_then e e eq); [apply Mo; intros x y (A1 & A2 & A3); repeat split; cbn; auto|]. intros _ _ _.
  destruct (o_im o) eqn:Eim.
  - destruct b; [specialize (Hb eq_refl); discriminate|]. intros x y (A1 & _). split; [|discriminate]. unfold run_im_m.
    assert (KK : forall (m : act (list (list R) * list (list R) * list (list rad_res))) z, fst (m z) = z -> g_freqs (fst (andthen m (fun rows => let '(im, ub, rad) := rows in modify (store_im im ub rad)) z)) = g_freqs z).
    { intros m z Hz. unfold andthen. destruct (m z) as [z' [[[im ub] rad]|]]; cbn in *; subst; reflexivity. }
    rewrite !KK by reflexivity. exact A1.
  - intros x y (A1 & _). split; auto.
Qed.
End Turn.
