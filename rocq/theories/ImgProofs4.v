(** Shapes drawn in another unit cell: polaritons, and the map when the images searched suffice. *)
From Coq Require Import List.
From Verif Require Import Py CBase LatticeModel LatticeSpec PhcModel PhcSpec PhcProofs PhcProofs2 PhcProofs3 PhcProofs4 RunModel ExcModel PolModel.
From Verif Require Import ImgSpec ImgProofs ImgProofs2 ImgProofs3.
Open Scope R_scope.
Open Scope list_scope.

Definition but_layer (s s' : exc) : Prop := exists ly', s' = with_layer ly' s.
Section Pol.
Variable argsort : list R -> list nat.
Variable eigh : nat -> cmat -> list R * cmat.
Lemma wells_init args fuel P P' gmax tr : lattice_init args = Ok (pc_lattice P) -> independent (lt_a1 (pc_lattice P)) (lt_a2 (pc_lattice P)) -> crystal_redrawn P P' ->
  forall qs, match init_wells fuel P gmax tr qs with
  | Some (Ok ws) => exists ws', init_wells fuel P' gmax tr qs = Some (Ok ws') /\ Forall2 but_layer ws ws'
  | x => init_wells fuel P' gmax tr qs = x
  end.
Proof.
  intros HL Hi H. induction qs as [|q t IH]; cbn [init_wells]; [exists []; split; constructor|].
  pose proof (exc_init_same args fuel P P' (qw_z q) (qw_V q) (qw_a q) (qw_M q) (qw_E0 q) (qw_loss q) (OscList (qw_osc q)) gmax tr HL Hi H) as X.
  destruct (exc_init fuel P (qw_z q) _ _ _ _ _ _ _ _) as [[s|]|]; [|rewrite X; reflexivity..]. destruct X as (ly' & ->).
  destruct (init_wells fuel P gmax tr t) as [[ws|]|]; [|rewrite IH; reflexivity..]. destruct IH as (ws' & -> & F). cbn.
  eexists. split; [reflexivity|]. constructor; auto. exists ly'. reflexivity.
Qed.
Lemma wells_run ks m ws ws' : Forall2 but_layer ws ws' ->
  Forall2 but_layer (fst (run_wells argsort eigh ws ks m)) (fst (run_wells argsort eigh ws' ks m)) /\
  snd (run_wells argsort eigh ws' ks m) = snd (run_wells argsort eigh ws ks m).
Proof.
  intros F. induction F as [|s s' ws ws' (ly' & ->) F (IH1 & IH2)]; cbn [run_wells]; [split; [constructor|reflexivity]|].
  rewrite exc_run_layer. destruct (exc_run argsort eigh s ks m) as [s1 [[]|e]]; cbn [fst snd].
  - destruct (run_wells argsort eigh ws ks m) as [t1 r1], (run_wells argsort eigh ws' ks m) as [t2 r2]. cbn [fst snd] in *. split; auto. constructor; auto. exists ly'. reflexivity.
  - split; [|reflexivity]. constructor; auto. exists ly'. reflexivity.
Qed.
Lemma mapM_but_layer {A} (f : exc -> result A) ws ws' : (forall s ly', f (with_layer ly' s) = f s) -> Forall2 but_layer ws ws' -> mapM f ws' = mapM f ws.
Proof. intros H F. induction F as [|s s' ws ws' (ly' & ->) F IH]; cbn [mapM]; [reflexivity|]. rewrite H, IH. reflexivity. Qed.
Lemma construct_but_layer a p M ws ws' kind : Forall2 but_layer ws ws' -> PolModel.construct a p M ws' kind = PolModel.construct a p M ws kind.
Proof.
  intros F. unfold PolModel.construct. rewrite (mapM_but_layer (fun s => C_D a p M s kind) ws ws') by (auto || reflexivity).
  rewrite (mapM_but_layer (fun s => eners_at s kind) ws ws') by (auto || reflexivity). rewrite (f2len _ _ _ F). reflexivity.
Qed.
End Pol.
Lemma k_loop_but_layer eig linsolve a p M ws ws' : Forall2 but_layer ws ws' -> forall kinds acc mat, k_loop eig linsolve a p M ws' kinds acc mat = k_loop eig linsolve a p M ws kinds acc mat.
Proof.
  intros F. induction kinds as [|k t IH]; intros acc mat; cbn [k_loop]; [reflexivity|]. rewrite (construct_but_layer a p M ws ws' k F), <- (f2len _ _ _ F).
  destruct (PolModel.construct _ _ _ _ _) as [A|]; [|reflexivity]. cbn. destruct (solve_k _ _ _ _ _) as [r|]; [|reflexivity]. cbn. apply IH.
Qed.
Lemma pol_same eig cargsort argsort eigh args fuel P P' gmax tr gme_run : lattice_init args = Ok (pc_lattice P) -> independent (lt_a1 (pc_lattice P)) (lt_a2 (pc_lattice P)) ->
  crystal_redrawn P P' -> pc_qws P' = pc_qws P ->
  match pol_init fuel P gmax tr with
  | Some (Ok o) => exists o', pol_init fuel P' gmax tr = Some (Ok o') /\
      forall ks m, snd (pol_run eig cargsort argsort eigh gme_run o' ks m) = snd (pol_run eig cargsort argsort eigh gme_run o ks m)
  | x => pol_init fuel P' gmax tr = x
  end.
Proof.
  intros HL Hi H Eq. unfold pol_init. rewrite Eq. destruct (pc_qws P) as [|q qs] eqn:EQ; [reflexivity|]. rewrite <- EQ in *. clear q qs EQ.
  pose proof (wells_init args fuel P P' gmax tr HL Hi H (pc_qws P)) as X.
  destruct (init_wells fuel P gmax tr (pc_qws P)) as [[ws|]|]; [|rewrite X; reflexivity..]. destruct X as (ws' & -> & F). cbn [bind].
  assert (EA : map ex_a ws' = map ex_a ws).
  { clear -F. induction F as [|s s' ws ws' (ly' & ->) F IH]; cbn [map]; [reflexivity|]. rewrite IH. reflexivity. }
  assert (FB : forall a0, forallb (fun s => Rltb (Rabs (ex_a s - a0)) (1 / 10 ^ 15)) ws' = forallb (fun s => Rltb (Rabs (ex_a s - a0)) (1 / 10 ^ 15)) ws).
  { clear -F. intros a0. induction F as [|s s' ws ws' (ly' & ->) F IH]; cbn [forallb]; [reflexivity|]. rewrite IH. reflexivity. }
  cbv zeta. cbn. rewrite EA, FB. destruct (forallb _ ws); [|reflexivity].
  eexists. split; [reflexivity|]. intros ks m. unfold pol_run. destruct (gme_run ks) as [p|]; [|reflexivity]. cbn [po_exc po_a].
  destruct (wells_run argsort eigh ks m ws ws' F) as (F2 & E2). destruct (run_wells argsort eigh ws ks m) as [v r], (run_wells argsort eigh ws' ks m) as [v' r']. cbn [fst snd] in *. subst r'.
  destruct r; [|reflexivity]. cbn. rewrite (k_loop_but_layer _ _ _ _ _ v v' F2). reflexivity.
Qed.
(** the map, when the images searched reach every cover *)
Lemma map_reach L ly ly' pts vs vs' : redrawn L ly ly' ->
  (forall p s, In p pts -> In s (ly_shapes ly) \/ In s (ly_shapes ly') -> covers_any L s p -> covers L (nmax_of L pts) s p) ->
  layer_get_eps L ly pts = Ok vs -> layer_get_eps L ly' pts = Ok vs' -> vs' = vs.
Proof.
  intros R W E E'. destruct pts as [|p0 pts0]; [discriminate|]. set (pts := p0 :: pts0) in *.
  assert (Lv : List.length vs = List.length pts /\ List.length vs' = List.length pts).
  { unfold layer_get_eps in E, E'. unfold pts in E, E'. injection E as <-. injection E' as <-. unfold pts; cbn [List.length map]; rewrite ?map_length; auto. }
  destruct Lv as (L1 & L2). apply (nth_ext _ _ 0 0); [lia|]. intros j Hj.
  assert (Ep : nth_error pts j = Some (nth j pts (0, 0))) by (apply nth_error_nth'; lia).
  assert (Ev : nth_error vs j = Some (nth j vs 0)) by (apply nth_error_nth'; lia).
  assert (Ev' : nth_error vs' j = Some (nth j vs' 0)) by (apply nth_error_nth'; lia).
  assert (Ip : In (nth j pts (0, 0)) pts) by (apply nth_In; lia).
  pose proof (layer_value L ly pts vs j _ _ E Ep Ev) as V. pose proof (layer_value L ly' pts vs' j _ _ E' Ep Ev') as V'.
  destruct R as (_ & _ & _ & Eb & _ & F). rewrite Eb in V'.
  apply (last_wins_ext _ (fun s => covers_any L s (nth j pts (0, 0)))) in V; [|intros s Hs; split; [intros C; exists (nmax_of L pts); exact C|apply W; auto]].
  apply (last_wins_ext _ (fun s => covers_any L s (nth j pts (0, 0)))) in V'; [|intros s Hs; split; [intros C; exists (nmax_of L pts); exact C|apply W; auto]].
  apply (last_wins_image L _ _ _ _ _ F) in V'. eapply last_wins_fun; eauto.
Qed.
