(** Shapes drawn in another unit cell: the solvers and the map of the permittivity. *)
From Coq Require Import List FunctionalExtensionality.
From Verif Require Import Py CBase LatticeModel LatticeSpec LatticeProofs PhcModel PhcSpec PhcProofs PhcProofs4 RecipModel RecipSpec ShapesSpec ShapesModel ShapesProofs3 MatElModel RunModel PweModel ExcModel.
From Verif Require Import InvSpec GinvSpec ImgSpec ImgProofs.
Open Scope R_scope.
Open Scope list_scope.

Lemma f2len {A B} (R : A -> B -> Prop) l l' : Forall2 R l l' -> List.length l = List.length l'.
Proof. induction 1; cbn; auto. Qed.
Lemma redrawn_layers P P' : crystal_redrawn P P' -> Forall2 (redrawn (pc_lattice P)) (all_layers P) (all_layers P').
Proof. intros (_ & Hl & Hu & F). unfold all_layers. constructor; auto. apply Forall2_app; auto. Qed.
Lemma field_same {A} L (f : layer -> A) l l' : (forall x y, redrawn L x y -> f y = f x) -> Forall2 (redrawn L) l l' -> map f l' = map f l.
Proof. intros H F. induction F as [|x y l l' Hx F IH]; cbn [map]; [reflexivity|]. rewrite IH, (H x y Hx). reflexivity. Qed.
Lemma nth_redrawn L l l' d d' : Forall2 (redrawn L) l l' -> redrawn L d d' -> forall i, redrawn L (nth i l d) (nth i l' d').
Proof. intros F Hd. induction F as [|x y l l' Hx F IH]; intros [|i]; cbn [nth]; auto. Qed.

Lemma build_same inv args d d' only gmax : lattice_init args = Ok (cell d) -> independent (lt_a1 (cell d)) (lt_a2 (cell d)) ->
  waves_of (cell d) (dv_tbt d) gmax (dv_rc d) -> crystal_redrawn (dv_phc d) (dv_phc d') -> dv_tbt d' = dv_tbt d -> dv_rc d' = dv_rc d ->
  build_einv inv d' only = build_einv inv d only.
Proof.
  intros HL Hi W H Et Er. apply functional_extensionality. intros il. unfold build_einv. pose proof H as (El & Hc & _). unfold cell in *. rewrite El, Et, Er. cbv zeta.
  apply (einv_same (pc_lattice (dv_phc d)) inv only).
  - intros g Hg. apply (redrawn_ft args (pc_lattice (dv_phc d)) HL Hi); auto. apply nth_redrawn; auto. apply redrawn_layers; auto.
  - intros g I. apply (rec_waves (pc_lattice (dv_phc d)) (dv_tbt d) gmax (dv_rc d) g W I).
Qed.
Lemma gme_same argsort eigh eigsh inv root dl args gmax d d' o ks an s : lattice_init args = Ok (cell d) -> independent (lt_a1 (cell d)) (lt_a2 (cell d)) ->
  waves_of (cell d) (dv_tbt d) gmax (dv_rc d) -> crystal_redrawn (dv_phc d) (dv_phc d') -> dv_tbt d' = dv_tbt d -> dv_rc d' = dv_rc d -> dv_custom d' = dv_custom d ->
  run argsort eigh eigsh inv root dl d' o ks an s = run argsort eigh eigsh inv root dl d o ks an s.
Proof.
  intros HL Hi W H Et Er Ec. pose proof (fun only => build_same inv args d d' only gmax HL Hi W H Et Er) as B.
  pose proof (redrawn_layers _ _ H) as FL.
  assert (EL : eps_list d' o = eps_list d o).
  { unfold eps_list. rewrite Ec. rewrite (field_same _ ly_epsavg _ _ (fun x y Hx => proj1 (proj2 (proj2 (proj2 (proj2 Hx))))) FL), (field_same _ ly_epsb _ _ (fun x y Hx => proj1 (proj2 (proj2 (proj2 Hx)))) FL). reflexivity. }
  destruct H as (El & Hl & Hu & F).
  assert (DL : d_list d' = d_list d).
  { unfold d_list. apply (field_same _ ly_d _ _ (fun x y Hx => proj1 (proj2 (proj2 Hx))) F). }
  assert (CI : forall only, compute_eps_inv inv d' only = compute_eps_inv inv d only).
  { intros only. unfold compute_eps_inv. rewrite B. reflexivity. }
  assert (CK : check d' o an = check d o an) by (unfold check, cell; rewrite El, Et; reflexivity).
  assert (GV : dv_gvec d' = dv_gvec d) by (unfold dv_gvec; rewrite Er; reflexivity).
  assert (ON : one_k argsort eigh eigsh root dl d' o = one_k argsort eigh eigsh root dl d o) by (unfold one_k, construct, symm_basis; rewrite GV; reflexivity).
  assert (RA : run_im_m dl d' o = run_im_m dl d o).
  { unfold run_im_m, rad_at. rewrite GV. destruct Hl as (_ & _ & _ & _ & E1 & _). destruct Hu as (_ & _ & _ & _ & E2 & _). rewrite E1, E2. reflexivity. }
  unfold run. rewrite CK, EL, DL, CI, GV, ON, RA. reflexivity.
Qed.

(** PlaneWaveExp *)
Lemma pwe_same argsort eigh inv args L ly ly' gmax e ks pol m : lattice_init args = Ok L -> independent (lt_a1 L) (lt_a2 L) -> redrawn L ly ly' ->
  let r := pwe_run argsort eigh inv (pwe_init L ly gmax e) ks pol m in let r' := pwe_run argsort eigh inv (pwe_init L ly' gmax e) ks pol m in
  snd r' = snd r /\ pw_freqs (fst r') = pw_freqs (fst r) /\ pw_vecs (fst r') = pw_vecs (fst r) /\ pw_einv (fst r') = pw_einv (fst r) /\
  pw_T1 (fst r') = pw_T1 (fst r) /\ pw_T2 (fst r') = pw_T2 (fst r).
Proof.
  intros HL Hi H. cbv zeta.
  assert (W : forall g, In g (rc_g (recip_tbt L gmax)) -> rec L g) by (intros g; apply rec_tbt).
  assert (T1 : pwe_T1 L ly' (recip_tbt L gmax) = pwe_T1 L ly (recip_tbt L gmax)).
  { unfold pwe_T1. apply map_ext_in. intros g I. apply (redrawn_ft args L HL Hi); auto. eapply rec_G1, I; auto. }
  assert (T2 : pwe_T2 L ly' (recip_tbt L gmax) = pwe_T2 L ly (recip_tbt L gmax)).
  { unfold pwe_T2. apply map_ext_in. intros g I. apply (redrawn_ft args L HL Hi); auto. eapply rec_G2, I; auto. }
  unfold pwe_run, pwe_init. cbn [pw_lat pw_layer pw_rc pw_epseff pw_einv pw_freqs pw_vecs]. rewrite T1, T2.
  assert (LO : forall l e1 e2 a b c x y z w u p n ei ks fs vs, pwe_loop argsort eigh (Pwe L ly' e2 (recip_tbt L gmax) a b c x y z w u) p n ei ks fs vs = pwe_loop argsort eigh (Pwe L l e1 (recip_tbt L gmax) a b c x y z w u) p n ei ks fs vs).
  { intros. revert fs vs. induction ks0 as [|k t IH]; intros fs vs; cbn [pwe_loop]; [reflexivity|].
    change (pwe_one argsort eigh (Pwe L ly' e2 (recip_tbt L gmax) a b c x y z w u) p n ei k) with (pwe_one argsort eigh (Pwe L l e1 (recip_tbt L gmax) a b c x y z w u) p n ei k).
    destruct (pwe_one _ _ _ _ _ _ _) as [[]|]; auto. }
  set (e' := match e with None => ly_epsb ly' | _ => _ end). set (e0 := match e with None => ly_epsb ly | _ => _ end).
  match goal with |- context [inv ?n (pwe_eps_mat (Pwe L ly' e' ?rc ?a ?b ?c ?x ?y ?z ?w ?u))] =>
    change (inv n (pwe_eps_mat (Pwe L ly' e' rc a b c x y z w u))) with (inv n (pwe_eps_mat (Pwe L ly e0 rc a b c x y z w u))) end.
  rewrite (LO ly e0). destruct (pwe_loop _ _ _ _ _ _ _ _ _) as [vs [fs|er]]; cbn [fst snd pw_freqs pw_vecs pw_einv pw_T1 pw_T2]; repeat split; reflexivity.
Qed.

(** ExcitonSchroedEq *)
Lemma lind_same L P P' z : redrawn L (pc_clad_l P) (pc_clad_l P') -> Forall2 (redrawn L) (pc_layers P) (pc_layers P') -> z_to_lind P' z = z_to_lind P z.
Proof.
  intros (_ & E & _) F. unfold z_to_lind. rewrite E. rewrite <- (f2len _ _ _ F).
  assert (Z : forall zm n, z_loop z zm n (pc_layers P') = z_loop z zm n (pc_layers P)); [|rewrite Z; reflexivity].
  induction F as [|x y l l' Hx F IH]; intros zm n; cbn [z_loop]; [reflexivity|]. destruct Hx as (_ & Ez & _). rewrite Ez, IH. reflexivity.
Qed.
(** the same object but for the layer it refers to *)
Definition with_layer (ly : layer) (s : exc) : exc :=
  Exc (ex_lat s) ly (ex_z s) (ex_V s) (ex_a s) (ex_M s) (ex_E0 s) (ex_loss s) (ex_osc s) (ex_abs s) (ex_rc s)
      (ex_T1 s) (ex_T2 s) (ex_T1u s) (ex_G1u s) (ex_pot s) (ex_numeig s) (ex_k s) (ex_eners s) (ex_vecs s).
Lemma exc_init_same args fuel P P' z V a M E0 loss osc gmax tr : lattice_init args = Ok (pc_lattice P) -> independent (lt_a1 (pc_lattice P)) (lt_a2 (pc_lattice P)) ->
  crystal_redrawn P P' ->
  match exc_init fuel P z V a M E0 loss osc gmax tr with
  | Some (Ok s) => exists ly', exc_init fuel P' z V a M E0 loss osc gmax tr = Some (Ok (with_layer ly' s))
  | x => exc_init fuel P' z V a M E0 loss osc gmax tr = x
  end.
Proof.
  intros HL Hi (El & Hl & Hu & F). unfold exc_init. rewrite (lind_same _ P P' z Hl F), <- (f2len _ _ _ F), El. cbv zeta.
  destruct (_ || _)%bool; [reflexivity|]. set (i := (z_to_lind P z - 1)%nat).
  assert (NE : match nth_error (pc_layers P) i with Some ly => exists ly', nth_error (pc_layers P') i = Some ly' /\ redrawn (pc_lattice P) ly ly' | None => nth_error (pc_layers P') i = None end).
  { clearbody i. revert i. induction F as [|x y l l' Hx F IH]; intros [|i]; cbn [nth_error]; [reflexivity..|exists y; auto|apply IH]. }
  destruct (nth_error (pc_layers P) i) as [ly|]; [|rewrite NE; reflexivity]. destruct NE as (ly' & -> & R).
  assert (X : forall gs, (forall g, In g gs -> rec (pc_lattice P) g) -> layer_exc_ft (lt_ec_area (pc_lattice P)) ly' V gs = layer_exc_ft (lt_ec_area (pc_lattice P)) ly V gs).
  { intros gs Hg. unfold layer_exc_ft. apply (exc_ft_same args (pc_lattice P) HL Hi); auto. apply R. }
  destruct (check_osc osc) as [os|]; [|reflexivity]. destruct (String.eqb tr "tbt").
  - assert (PT : pot_tbt (pc_lattice P) ly' V (recip_tbt (pc_lattice P) gmax) = pot_tbt (pc_lattice P) ly V (recip_tbt (pc_lattice P) gmax)).
    { unfold pot_tbt. rewrite (X (G1_of _)) by (intros g I; eapply rec_G1, I; intros h; apply rec_tbt). rewrite (X (G2_of _ _ _)) by (intros g I; eapply rec_G2, I; intros h; apply rec_tbt). reflexivity. }
    rewrite PT. destruct (pot_tbt (pc_lattice P) ly V (recip_tbt (pc_lattice P) gmax)) as [[t1 t2]|]; cbn; [exists ly'; reflexivity|reflexivity].
  - destruct (String.eqb tr "abs"); [|reflexivity]. destruct (recip_abs _ _ _) as [[rc|]|]; [|reflexivity..].
    assert (PA : pot_abs (pc_lattice P) ly' V rc = pot_abs (pc_lattice P) ly V rc).
    { unfold pot_abs. cbv zeta. rewrite (X (gvec_of _ _ _ _)) by (intros g I; apply rec_gvec in I; exact I). reflexivity. }
    cbn. rewrite PA. destruct (pot_abs (pc_lattice P) ly V rc) as [[[tu gu] t1]|]; cbn; [exists ly'; reflexivity|reflexivity].
Qed.
Lemma exc_run_layer argsort eigh ly' s ks m : exc_run argsort eigh (with_layer ly' s) ks m =
  (with_layer ly' (fst (exc_run argsort eigh s ks m)), snd (exc_run argsort eigh s ks m)).
Proof.
  unfold exc_run. change (pot_matrix (with_layer ly' s)) with (pot_matrix s). cbv zeta.
  assert (LO : forall fs vs, exc_loop argsort eigh (with_layer ly' s) m (pot_matrix s) ks fs vs = exc_loop argsort eigh s m (pot_matrix s) ks fs vs).
  { induction ks as [|k t IH]; intros fs vs; cbn [exc_loop]; [reflexivity|].
    change (exc_one argsort eigh (with_layer ly' s) m (pot_matrix s) k) with (exc_one argsort eigh s m (pot_matrix s) k). destruct (exc_one _ _ _ _ _ _) as [[]|]; auto. }
  rewrite LO. destruct (exc_loop _ _ _ _ _ _ _ _) as [vs [fs|er]]; reflexivity.
Qed.
