(** compute_im after a run; stale mode lists; a concrete run (C45, C83). *)
From Coq Require Import Permutation List.
From Verif Require Import Py CBase LatticeModel PhcModel SymModel SymSpec RecipModel SlabModel MatElModel MatElSpec MatElProofs MatElProofs2 MatElProofs3
  RadModel RadProofs RadProofs2 RadProofs3 RunModel RunSpec RunProofs RunProofs2 RunProofs5 RunProofs7.
Open Scope R_scope.
Open Scope list_scope.

Lemma mapM_pair {A B} (f : A -> result B) l r : mapM f l = Ok r -> mapM (fun m => let* g := f m in Ok (m, g)) l = Ok (combine l r).
Proof.
  revert r. induction l as [|a l IH]; intros r H; cbn [mapM] in *.
  - injection H as <-. reflexivity.
  - destruct (f a) as [y|]; [|discriminate]. cbn [bind] in *. destruct (mapM f l) as [t|] eqn:E; [|discriminate]. injection H as <-.
    rewrite (IH t eq_refl). reflexivity.
Qed.
Lemma combine_snd {A B} (l : list A) (r : list B) : List.length l = List.length r -> map snd (combine l r) = r.
Proof. revert r. induction l as [|a l IH]; intros [|b r] H; try discriminate; auto. cbn. f_equal. apply IH. simpl in H. lia. Qed.
Lemma construct_size dl gvec k dgx inds garr te tm eps ds einv M ms :
  construct_mat dl gvec k dgx inds garr te tm eps ds einv = Ok M ->
  mapM (get_guided (List.length gvec) (gk_len (gk_data gvec k dgx)) garr te tm eps) (gmode_include inds te tm) = Ok ms ->
  nr M = list_sum (map md_size ms).
Proof.
  unfold construct_mat. intros H Hm. rewrite (mapM_pair _ _ _ Hm) in H.
  destruct (gmode_include inds te tm) as [|m l]; [discriminate|]. cbn [bind] in H.
  assert (Ne : combine (m :: l) ms <> []).
  { cbn [mapM] in Hm. destruct (get_guided _ _ _ _ _ _ m); [|discriminate]. cbn [bind] in Hm. destruct (mapM _ l); [|discriminate]. injection Hm as <-. discriminate. }
  destruct (assembled (mat_block dl eps ds einv (gk_data gvec k dgx)) (bl_nr dl eps ds einv _) (bl_nc dl eps ds einv _) dgm _ Ne) as [M' [E1 [E2 _]]].
  rewrite H in E1. injection E1 as <-. rewrite E2. unfold sizes. f_equal.
  rewrite <- (map_map snd md_size). rewrite combine_snd; [reflexivity|]. symmetry. apply (mapM_ok_length _ _ _ Hm).
Qed.
Lemma mapM_forall2 {A B} (f : A -> result B) l r : mapM f l = Ok r -> Forall2 (fun a b => f a = Ok b) l r.
Proof.
  revert r. induction l as [|a l IH]; intros r H; cbn [mapM] in *.
  - injection H as <-. constructor.
  - destruct (f a) as [y|] eqn:E; [|discriminate]. cbn [bind] in *. destruct (mapM f l) as [t|]; [|discriminate]. injection H as <-.
    constructor; auto.
Qed.

Definition with_im (o : opts) (b : bool) : opts :=
  Opts (o_compute o) (o_inds o) (o_npts o) (o_step o) (o_tol o) (o_numeig o) b (o_solver o) (o_sigma o) (o_epseff o) (o_symm o) (o_thr o) (o_dgx o) (o_dgabs o) (o_sparse o) (o_only o).

Section Im.
Variable argsort : list R -> list nat.
Variable eigh : nat -> cmat -> list R * cmat.
Variable eigsh : nat -> cmat -> nat -> R -> result (list R * cmat).
Variable inv : nat -> cmat -> cmat.
Variable root : (R -> R) -> R -> R -> R.
Variable dl : R.
Notation run' := (run argsort eigh eigsh inv root dl).

Lemma stale_modes d o ks an s s' : o_symm o <> None -> run' d o ks an s = (s', Ok tt) ->
  forall ik, (ik < List.length ks)%nat -> (ik < List.length (g_ind s))%nat ->
  nth ik (g_ind s') [] = nth ik (g_ind s) [] /\
  (List.length (o_inds o) <= List.length (nth ik (g_ind s) []))%nat.
Proof.
  intros Hy H ik Hk Hi.
  destruct (run_ok argsort eigh eigsh inv root dl d o ks an s s' H)
    as (refl & eps & einv & H1 & H2 & H3 & H4 & H5 & H6 & H7 & HI & HN & (l & HD & _) & sy & H8 & H9 & H9' & Q).
  assert (E : nth ik (g_ind s') [] = nth ik (g_ind s) []) by (rewrite HD; apply app_nth1; auto).
  split; auto. rewrite <- E.
  destruct (nth_error ks ik) as [k|] eqn:Ek; [|apply nth_error_None in Ek; lia].
  destruct (Q ik k Ek) as (garr & te & tm & _ & _ & T3). unfold k_result in T3. destruct T3 as [_ (mat & ms & _ & _ & _ & _ & _ & So)].
  destruct So as [(_ & Z & _)|[(_ & Z & _)|(_ & y & a & m & b & E' & O & _ & _ & _ & Bb & _)]]; [congruence|congruence|].
  apply (basis_needs d o m _ _ b Bb).
Qed.

(** compute_im only appends run_im *)
Lemma run_then_im d o ks an s s' : o_im o = false -> run' d o ks an s = (s', Ok tt) ->
  exists eps einv, eps_list d o = Ok eps /\ g_einv s' = Some einv /\
    run' d (with_im o true) ks an s = run_im_m dl d o eps (d_list d) einv s'.
Proof.
  intros Hi H. 
  destruct (run_ok argsort eigh eigsh inv root dl d o ks an s s' H) as (refl' & eps' & einv' & _ & He & _ & Hv & _).
  exists eps', einv'. split; auto. split; auto.
  unfold run in H |- *. cbn [with_im o_im]. 
  apply then_ok in H. destruct H as (u & s1 & H1 & H). unfold andthen at 1. rewrite H1.
  apply then_ok in H. destruct H as (refl & s2 & H2 & H). unfold andthen at 1. change (check d (with_im o true) an) with (check d o an). rewrite H2.
  apply then_ok in H. destruct H as (eps & s3 & H3 & H). unfold andthen at 1. change (eps_list d (with_im o true)) with (eps_list d o). rewrite H3.
  assert (eps' = eps) by (apply lift_ok in H3; destruct H3; congruence). subst eps'.
  apply then_ok in H. destruct H as (u4 & s4 & H4 & H). unfold andthen at 1. rewrite H4.
  apply then_ok in H. destruct H as (u5 & s5 & H5 & H). unfold andthen at 1.
  match goal with |- match ?m with (_, _) => _ end = _ => assert (E5 : m = (s5, Ok u5)) by exact H5; rewrite E5 end. clear E5.
  apply then_ok in H. destruct H as (einv & s6 & H6 & H). unfold andthen at 1. 
  change (o_only (with_im o true)) with (o_only o). rewrite H6.
  apply then_ok in H. destruct H as (u7 & s7 & H7 & H). unfold andthen at 1. rewrite H7.
  apply then_ok in H. destruct H as (rows & s8 & H8 & H). unfold andthen at 1.
  match goal with |- match ?m with (_, _) => _ end = _ => assert (E5 : m = (s8, Ok rows)) by exact H8; rewrite E5 end. clear E5.
  apply then_ok in H. destruct H as (u9 & s9 & H9 & H). unfold andthen at 1. change (o_symm (with_im o true)) with (o_symm o). rewrite H9.
  rewrite Hi in H. apply ret_ok in H. destruct H as [-> _].
  assert (einv = einv').
  { apply mod_ok in H9. subst s9. cbn in Hv.
    assert (K : keeps g_einv (foreach (one_k argsort eigh eigsh root dl d o eps (d_list d) einv refl an) (enum ks)))
      by (apply keeps_foreach; intros; apply one_k_keeps; reflexivity).
    specialize (K s7). rewrite H8 in K. cbn in K. rewrite K in Hv. apply mod_ok in H7. subst s7. cbn in Hv.
    unfold compute_eps_inv in H6. destruct (g_einv s5) as [e5|] eqn:E5.
    - injection H6 as <- <-. congruence.
    - injection H6 as <- <-. cbn in Hv. congruence. }
  subst einv'. reflexivity.
Qed.

Hypothesis Hs : sorts argsort.
Hypothesis He : diagonalises eigh.

Lemma eps_len d o eps : (o_epseff o = "custom"%string -> forall l, dv_custom d = Some l -> List.length l = List.length (all_layers (dv_phc d))) ->
  eps_list d o = Ok eps -> (List.length (d_list d) + 2 = List.length eps)%nat.
Proof.
  unfold eps_list, d_list. intros Hc. assert (L : (List.length (all_layers (dv_phc d)) = List.length (pc_layers (dv_phc d)) + 2)%nat).
  { unfold all_layers. cbn. rewrite app_length. cbn. lia. }
  destruct (String.eqb (o_epseff o) "average"); [intros H; replace eps with (map ly_epsavg (all_layers (dv_phc d))) by congruence; rewrite (map_length ly_epsavg), map_length; lia|].
  destruct (String.eqb (o_epseff o) "background"); [intros H; replace eps with (map ly_epsb (all_layers (dv_phc d))) by congruence; rewrite (map_length ly_epsb), map_length; lia|].
  destruct (String.eqb_spec (o_epseff o) "custom"); [|discriminate]. destruct (dv_custom d) as [l|]; [|discriminate].
  intros H. injection H as <-. rewrite map_length, (Hc e l eq_refl). lia.
Qed.

Lemma im_total d o ks an s s' : o_im o = false -> o_solver o = "eigh"%string -> o_symm o = None ->
  (0 < o_numeig o)%nat -> ks <> [] -> pc_layers (dv_phc d) <> [] ->
  (o_epseff o = "custom"%string -> forall l, dv_custom d = Some l -> List.length l = List.length (all_layers (dv_phc d))) ->
  run' d o ks an s = (s', Ok tt) ->
  exists s2, run' d (with_im o true) ks an s = (s2, Ok tt) /\
    g_freqs s2 = g_freqs s' /\ g_vecs s2 = g_vecs s' /\
    List.length (g_im s2) = List.length ks /\ List.length (g_ub s2) = List.length ks /\
    forall ik, (ik < List.length ks)%nat -> (o_numeig o <= List.length (nth ik (g_im s2) []))%nat.
Proof.
  intros Hi Hsol Hsym Hn Hk Hl Hc H.
  destruct (run_then_im d o ks an s s' Hi H) as (eps & einv & E1 & E2 & E3).
  pose proof (eps_len d o eps Hc E1) as El.
  assert (Hd : d_list d <> []) by (unfold d_list; destruct (pc_layers (dv_phc d)); [contradiction|discriminate]).
  destruct (run_ok argsort eigh eigsh inv root dl d o ks an s s' H)
    as (refl & eps' & einv' & H1 & H2 & H3 & H4 & H5 & H6 & H7 & HI & HN & _ & sy & H8 & H9 & H9' & Q).
  rewrite E1 in H2. injection H2 as <-. rewrite E2 in H4. injection H4 as <-.
  set (env := fun ik => let k := nth ik ks (0, 0) in let '(garr, te, tm) := nth (tix o ik) (g_tabs s') dtab in
    RadEnv (dv_gvec d) k (o_dgx o) eps (d_list d) einv (ly_epsavg (pc_clad_l (dv_phc d))) (ly_epsavg (pc_clad_u (dv_phc d)))
        (get_guided (List.length (dv_gvec d)) (gk_len (gk_data (dv_gvec d) k (o_dgx o))) garr te tm eps) (nth ik (g_inc s') []) (nth ik (g_numg s') [])).
  assert (RA : forall ik, (ik < List.length ks)%nat -> rad_at d o eps (d_list d) einv s' ik = Ok (env ik, nth ik (g_freqs s') [], nth ik (g_vecs s') [])).
  { intros ik Hik. unfold rad_at.
    rewrite (get_ok [] (g_freqs s') ik) by lia. cbn [bind]. rewrite (get_ok [] (g_vecs s') ik) by lia. cbn [bind].
    rewrite H5, (get_ok (0, 0) ks ik) by lia. cbn [bind]. rewrite (get_ok [] (g_inc s') ik) by lia. cbn [bind].
    rewrite (get_ok [] (g_numg s') ik) by lia. cbn [bind]. unfold tab_at, SymModel.get. 
    destruct (Q ik (nth ik ks (0, 0)) (nth_error_nth' _ _ Hik)) as (garr & te & tm & _ & T2 & _).
    unfold env. unfold tix in T2 |- *. rewrite T2. rewrite (nth_error_nth _ _ dtab T2). reflexivity. }
  assert (RO : forall ik i, (ik < List.length ks)%nat -> (i < o_numeig o)%nat -> exists f v r,
     nth_error (nth ik (g_freqs s') []) i = Some f /\ nth_error (nth ik (g_vecs s') []) i = Some v /\ rad_one dl (env ik) f v = Ok r).
  { intros ik i Hik Hin. destruct (Q ik (nth ik ks (0, 0)) (nth_error_nth' _ _ Hik)) as (garr & te & tm & _ & T2 & T3).
    unfold k_result in T3. destruct T3 as [_ (mat & ms & K1 & K2 & K3 & K4 & K5 & K6)].
    destruct K6 as [(_ & _ & P & _)|[(Z & _)|(_ & y & a & m & b & E & O & Z & _)]]; [|congruence|congruence].
    destruct (plain_ok argsort eigh Hs He o mat (construct_herm _ _ _ _ _ _ _ _ _ _ _ _ K1) K5) as (ls & V & idx & fs & vs & P1 & P2 & P3).
    rewrite P in P1. injection P1 as E4 E5. destruct P2 as (R1 & R2 & R3 & R4 & R5). destruct P3 as (N1 & _).
    assert (L1 : List.length (nth ik (g_freqs s') []) = o_numeig o) by (rewrite E4, R2, map_length; exact N1).
    assert (L2 : List.length (nth ik (g_vecs s') []) = o_numeig o) by (rewrite E5, R4; exact N1).
    destruct (rad_one_ok dl (env ik) (nth i (nth ik (g_freqs s') []) 0) (nth i (nth ik (g_vecs s') []) (0%nat, fun _ => RtoC 0))) as [r Hr].
    - unfold env. rewrite (nth_error_nth _ _ dtab T2). exists ms. cbn [re_inc re_get re_numg].
      split; [|split; [exact K4|]].
      + rewrite K2. apply mapM_forall2. rewrite K2 in K3. exact K3.
      + rewrite E5. rewrite (proj1 (R5 i ltac:(lia))). rewrite K2 in K3. symmetry. 
        symmetry. apply (construct_size _ _ _ _ _ _ _ _ _ _ _ _ _ K1 K3).
    - unfold env. destruct (nth (tix o ik) (g_tabs s') dtab) as [[? ?] ?]. exact El.
    - unfold env. destruct (nth (tix o ik) (g_tabs s') dtab) as [[? ?] ?]. exact Hd.
    - exists (nth i (nth ik (g_freqs s') []) 0), (nth i (nth ik (g_vecs s') []) (0%nat, fun _ => RtoC 0)), r.
      split; [apply nth_error_nth'; lia|]. split; [apply nth_error_nth'; lia|]. exact Hr. }
  set (envs := map (fun ik => (env ik, nth ik (g_freqs s') [], nth ik (g_vecs s') [])) (seq 0 (List.length ks))).
  assert (M1 : mapM (rad_at d o eps (d_list d) einv s') (seq 0 (List.length (g_freqs s'))) = Ok envs).
  { rewrite H6. unfold envs. assert (G : forall l, (forall i, In i l -> (i < List.length ks)%nat) ->
      mapM (rad_at d o eps (d_list d) einv s') l = Ok (map (fun ik => (env ik, nth ik (g_freqs s') [], nth ik (g_vecs s') [])) l)).
    { induction l as [|a l IH]; intros Hin; [reflexivity|]. cbn [mapM map]. rewrite RA by (apply Hin; left; auto). cbn [bind].
      rewrite IH by (intros; apply Hin; right; auto). reflexivity. }
    apply G. intros i Hin. apply in_seq in Hin. lia. }
  assert (Rim : exists im ub rad, run_im dl (o_numeig o) envs = Ok (im, ub, rad)).
  { unfold run_im. destruct envs as [|e0 envs0] eqn:Ee.
    { exfalso. assert (X : List.length envs = List.length ks) by (unfold envs; rewrite map_length, seq_length; auto). rewrite Ee in X. destruct ks; [contradiction|discriminate]. }
    rewrite <- Ee. 
    destruct (mapM_all_ok (fun x : rad_env * list R * list evect => let '(e, fs, vs) := x in compute_rad_sp dl e (o_numeig o) fs vs (seq 0 (o_numeig o))) envs) as [rows Hr].
    { intros x Hx. unfold envs in Hx. apply in_map_iff in Hx. destruct Hx as (ik & <- & Hik). apply in_seq in Hik.
      unfold compute_rad_sp, rad_components.
      destruct (o_numeig o) as [|n] eqn:En; [lia|]. rewrite <- En. 
      assert (X : existsb (fun i => Nat.leb (o_numeig o) i) (seq 0 (o_numeig o)) = false).
      { apply Bool.not_true_iff_false. intros X. apply existsb_exists in X. destruct X as (z & Z1 & Z2). apply in_seq in Z1. apply Nat.leb_le in Z2. lia. }
      rewrite X.
      destruct (mapM_all_ok (fun im => match nth_error (nth ik (g_freqs s') []) im, nth_error (nth ik (g_vecs s') []) im with
                         | Some f, Some v => rad_one dl (env ik) f v
                         | _, _ => Raise IndexError end) (seq 0 (o_numeig o))) as [rs Hrs].
      { intros i Hin. apply in_seq in Hin. destruct (RO ik i) as (f & v & r & F1 & F2 & F3); [lia|lia|]. rewrite F1, F2. eauto. }
      destruct (seq 0 (o_numeig o)) as [|z zs] eqn:Es; [rewrite En in Es; discriminate|]. rewrite Hrs. cbn [bind]. eauto. }
    rewrite Hr. cbn [bind]. eauto. }
  destruct Rim as (im & ub & rad & Rim).
  exists (store_im im ub rad s'). split; [|split; [reflexivity|split; [reflexivity|]]].
  - rewrite E3. unfold run_im_m, andthen. cbn [lift]. destruct (g_freqs s') as [|f0 fr] eqn:Ef.
    { destruct ks; [contradiction|discriminate]. }
    rewrite <- Ef in *. unfold lift. rewrite M1. cbn [bind]. rewrite Rim. reflexivity.
  - destruct (run_im_in dl (o_numeig o) envs im ub rad Rim) as (I1 & I2 & _ & I3). unfold envs in I1, I2. rewrite map_length, seq_length in I1, I2.
    cbn [store_im g_im g_ub]. split; [auto|]. split; [auto|]. intros ik Hik.
    destruct (I3 ik (env ik) (nth ik (g_freqs s') []) (nth ik (g_vecs s') []) (o_numeig o - 1)%nat) as (f & v & r & _ & _ & _ & Z & _); [|lia|].
    + unfold envs. rewrite (nth_error_map_lt _ _ _ _ (nth_error_seq0 _ _ Hik)). reflexivity.
    + assert (Y : (o_numeig o - 1 < List.length (nth ik im []))%nat) by (apply nth_error_Some; congruence). lia.
Qed.
End Im.
