(** Proofs about structure as a whole. *)
From Verif Require Import Py CBase LatticeModel PhcModel RecipModel ExcModel PweModel PolModel VizModel Viz3Model LatticeSpec PhcSpec VizSpec Viz3Spec
  PhcProofs PhcProofs3 VizProofs2 VizProofs3 Viz3Proofs.
Open Scope R_scope.
Open Scope list_scope.

Lemma set_title_snd {A} (Q : A -> Prop) (ts : list (option title * A)) i t : Forall (fun x => Q (snd x)) ts -> Forall (fun x => Q (snd x)) (set_title ts i t).
Proof.
  intros H. unfold set_title. destruct (nth_error ts i) as [[o x]|] eqn:E; [|exact H].
  assert (Hx : Q x) by (apply nth_error_In in E; rewrite Forall_forall in H; exact (H _ E)). clear E o.
  revert i. induction H as [|y ts Hy H IH]; intros i; [destruct i; constructor|]. destruct i as [|i]; cbn [PhcModel.set_nth]; constructor; auto.
Qed.
Lemma panels_all {A B} (Q : A -> Prop) (draw : B -> result A) c n ls : forall k ts r, panels draw c n k ls ts = Ok r ->
  Forall (fun x => Q (snd x)) ts -> (forall ly im, In ly ls -> draw ly = Ok im -> Q im) -> Forall (fun x => Q (snd x)) r.
Proof.
  induction ls as [|ly t IH]; intros k ts r H Ht Hq; cbn [panels] in H; [inversion H; subst; exact Ht|].
  apply bind_ok in H. destruct H as (im & Hd & H). apply (IH _ _ _ H); [|intros; apply (Hq ly0); [right|]; assumption].
  assert (F : Forall (fun x => Q (snd x)) (ts ++ [(None, im)])) by (apply Forall_app; split; [exact Ht|constructor; [apply (Hq ly); [left; reflexivity|exact Hd]|constructor]]).
  unfold put_title. destruct c; [|now apply set_title_snd]. destruct (_ && _)%bool; [now apply set_title_snd|]. destruct (Nat.eqb _ _); [now repeat apply set_title_snd|exact F].
Qed.
Lemma exc_init_z fuel P z V a M E0 loss osc gmax tr s : exc_init fuel P z V a M E0 loss osc gmax tr = Some (Ok s) -> ex_z s = z.
Proof.
  unfold exc_init. destruct (_ || _)%bool; [discriminate|]. destruct (nth_error _ _) as [ly|]; [|discriminate].
  destruct (check_osc osc) as [os|e]; [|discriminate]. destruct (String.eqb tr "tbt").
  - intros H. inversion H as [H1]. apply bind_ok in H1. destruct H1 as ([t1 t2] & _ & H1). inversion H1. reflexivity.
  - destruct (String.eqb tr "abs"); [|discriminate]. destruct (recip_abs _ _ _) as [r|]; [|discriminate]. intros H. inversion H as [H1].
    apply bind_ok in H1. destruct H1 as (rc & _ & H1). apply bind_ok in H1. destruct H1 as ([x t1] & _ & H1). inversion H1. reflexivity.
Qed.
Lemma wells_z fuel P gmax tr qs : forall ws, init_wells fuel P gmax tr qs = Some (Ok ws) -> map ex_z ws = map qw_z qs.
Proof.
  induction qs as [|q t IH]; intros ws H; cbn [init_wells] in H; [inversion H; reflexivity|].
  destruct (exc_init _ _ _ _ _ _ _ _ _ _ _) as [[s|e]|] eqn:E; try discriminate. destruct (init_wells fuel P gmax tr t) as [r|]; [|discriminate].
  inversion H as [H1]. apply bind_ok in H1. destruct H1 as (ss & -> & H1). inversion H1; subst. cbn [map]. rewrite (exc_init_z _ _ _ _ _ _ _ _ _ _ _ _ E), (IH ss eq_refl). reflexivity.
Qed.
Lemma pol_z fuel P gmax tr o : pol_init fuel P gmax tr = Some (Ok o) -> map ex_z (po_exc o) = map qw_z (pc_qws P).
Proof.
  unfold pol_init. destruct (pc_qws P) as [|q qs] eqn:Eq; [discriminate|]. rewrite <- Eq. destruct (init_wells fuel P gmax tr (pc_qws P)) as [r|] eqn:E; [|discriminate].
  intros H. inversion H as [H1]. apply bind_ok in H1. destruct H1 as (ws & -> & H1). destruct (forallb _ _); inversion H1; subst. cbn [po_exc]. apply (wells_z fuel P gmax tr). exact E.
Qed.

Section All.
Context (L : lattice) (el eu : R) (ops : list op).
Let P := run_ops (phc_init L el eu) ops.
Hypotheses (Hd : Forall (fun d => 0 < d) (thicknesses ops)) (Ht : total (thicknesses ops) + 1 < 10 ^ 10) (Hne : thicknesses ops <> [])
  (Hi : independent (lt_a1 L) (lt_a2 L)).
Lemma structure_good s zs Nx Ny Nz cladding g xy xz yz : target s = Some (P, zs) -> zs = map qw_z (pc_qws P) ->
  (2 <= Nx)%nat -> (2 <= Ny)%nat -> (2 <= Nz)%nat -> (xy || xz || yz)%bool = true ->
  exists p1 p2 p3, structure s Nx Ny Nz cladding g g xy xz yz = Ok (p1 ++ p2 ++ p3) /\
    (if xz then exists p, p1 = [p] /\ pn_title p = PTxz /\ good_section P (fun p => (fst p, 0, snd p)) Nx Nz p else p1 = []) /\
    (if yz then exists p, p2 = [p] /\ pn_title p = PTyz /\ good_section P (fun p => (0, fst p, snd p)) Ny Nz p else p2 = []) /\
    (if xy then exists ts, structure_xy P Nx Ny cladding = Ok ts /\ map (fun p => (pn_title p, pn_im p)) p3 = map (fun t => (PTxy (fst t), snd t)) ts /\
       Forall in_colours p3 else p3 = []).
Proof.
  intros Hs Hz Hx Hy Hzz Ha. pose proof (pos_nonneg _ Hd) as Hd'. unfold structure. rewrite Hs. subst zs.
  pose proof (lattice_is L el eu ops) as HL. fold P in HL. rewrite HL.
  destruct (window L 2 2) as (X & Y & _ & _ & HG & _). rewrite HG. cbn [bind].
  destruct (zgrid_ok L el eu ops 2 Hd' Hne) as [HZ T0]. fold P in HZ. rewrite HZ. cbn [bind]. rewrite xorb_nilpotent, Ha. cbn [negb].
  destruct (xz_good L el eu ops Hd' Ht Hne Hi Nx Nz _ _ Hx Hzz HG) as (a1 & i1 & E1 & G1). fold P in E1, G1.
  destruct (yz_good L el eu ops Hd' Ht Hne Hi Ny Nz _ _ Hy Hzz HG) as (a2 & i2 & E2 & G2). fold P in E2, G2.
  assert (SX : exists ts, structure_xy P Nx Ny cladding = Ok ts).
  { destruct cladding.
    - destruct (structure_clad L el eu ops Nx Ny Hd ltac:(lra) Hne Hi ltac:(lia) ltac:(lia)) as (ps & E & _). eauto.
    - destruct (structure_plain L el eu ops Nx Ny Hd ltac:(lra) Hne Hi ltac:(lia) ltac:(lia)) as (ps & E & _). eauto. }
  destruct SX as [ts ES]. pose proof ES as ES'. unfold structure_xy in ES'. rewrite HZ in ES'. cbn [bind] in ES'.
  assert (HC : Forall (fun t => forall j i e, entry (im_rows (snd t)) j i = Some e -> fst (get_eps_bounds P) <= e <= snd (get_eps_bounds P)) ts).
  { assert (ES2 : panels (fun ly => let* r := eps_xy P ((ly_zmax ly + ly_zmin ly) / 2) Nx Ny in Ok (snd r)) cladding (List.length (shown_layers P cladding)) 0 (shown_layers P cladding) [] = Ok ts)
      by (destruct (shown_layers P cladding); [discriminate|exact ES']).
    apply (panels_all (fun im => forall j i e, entry (im_rows im) j i = Some e -> fst (get_eps_bounds P) <= e <= snd (get_eps_bounds P)) _ _ _ _ _ _ _ ES2); [constructor|].
    intros ly im Hin Hdr. apply bind_ok in Hdr. destruct Hdr as ([a im'] & Hdr & H0). inversion H0; subst im'. cbn [snd].
    unfold eps_xy in Hdr. rewrite HL in Hdr. destruct (window L Nx Ny) as (X' & Y' & _ & _ & HG' & _). rewrite HG' in Hdr. cbn [bind] in Hdr.
    apply (section_bounds L el eu ops _ _ _ _ _ Hdr); [|exact Hd']. intros p _. cbn [snd].
    assert (Hin' : In ly (pc_clad_l P :: pc_layers P ++ [pc_clad_u P])).
    { destruct cladding; cbn [shown_layers] in Hin; [exact Hin|]. right. apply in_app_iff. left. exact Hin. }
    pose proof (mid_inside L el eu ops ly Hd ltac:(lra) Hin') as M. unfold mid in M.
    assert (- 10 ^ 10 <= ly_zmin ly /\ ly_zmax ly <= 10 ^ 10) as [B1 B2]; [|lra].
    pose proof (Geo_reach L el eu ops) as G. fold P in G. assert (T10 : 0 < 10 ^ 10) by (apply pow_lt; lra).
    cbn [In] in Hin'. rewrite in_app_iff in Hin'. destruct Hin' as [<-|[Hl|[<-|[]]]].
    - destruct G as (_ & G & _). unfold zinfo in G. inversion G as [[F1 F2 F3]]. lra.
    - apply In_nth_error in Hl. destruct Hl as [k Hk]. destruct (Geo_layer _ _ _ _ G Hk) as (d & Hdn & F1 & F2 & _).
      destruct (total_firstn _ _ Hd d Hdn) as [F3 Hp]. rewrite F1, F2.
      assert (N1 : 0 <= total (firstn k (thicknesses ops))) by (apply total_nonneg; apply Forall_forall; intros x Hx'; rewrite Forall_forall in Hd'; apply Hd'; rewrite <- (firstn_skipn k (thicknesses ops)); apply in_app_iff; left; exact Hx').
      assert (N2 : total (firstn (S k) (thicknesses ops)) <= total (thicknesses ops)).
      { rewrite <- (firstn_skipn (S k) (thicknesses ops)) at 2. rewrite total_app. assert (0 <= total (skipn (S k) (thicknesses ops))); [|lra].
        apply total_nonneg; apply Forall_forall; intros x Hx'; rewrite Forall_forall in Hd'; apply Hd'; rewrite <- (firstn_skipn (S k) (thicknesses ops)); apply in_app_iff; right; exact Hx'. }
      lra.
    - destruct G as (_ & _ & F1 & F2). rewrite F1, F2. lra. }
  assert (N0 : shown_layers P cladding <> []) by (destruct (shown_layers P cladding); [discriminate ES'|discriminate]).
  assert (E3 : panels (fun ly => let* r := eps_xy P ((ly_zmax ly + ly_zmin ly) / 2) Nx Ny in Ok (snd r)) cladding (List.length (shown_layers P cladding)) 0 (shown_layers P cladding) [] = Ok ts)
      by (destruct (shown_layers P cladding); [discriminate|exact ES']).
  exists (if xz then [Panel PTxz i1 (map (fun z => (z, (nth 0 (linspace (- X) X 2) 0, nth 1 (linspace (- X) X 2) 0))) (map qw_z (pc_qws P))) (get_eps_bounds P)] else []),
    (if yz then [Panel PTyz i2 (map (fun z => (z, (nth 0 (linspace (- Y) Y 2) 0, nth 1 (linspace (- Y) Y 2) 0))) (map qw_z (pc_qws P))) (get_eps_bounds P)] else []),
    (if xy then map (fun t => Panel (PTxy (fst t)) (snd t) [] (get_eps_bounds P)) ts else []).
  rewrite E1, E2. split.
  - rewrite E3. destruct (shown_layers P cladding); [contradiction|]. destruct xz, yz, xy; reflexivity.
  - split; [destruct xz; [eauto|reflexivity]|]. split; [destruct yz; [eauto|reflexivity]|]. destruct xy; [|reflexivity].
    exists ts. split; [exact ES|]. split; [rewrite map_map; reflexivity|]. apply Forall_forall. intros p Hp. apply in_map_iff in Hp. destruct Hp as (t & <- & Htt).
    rewrite Forall_forall in HC. unfold in_colours. cbn [pn_im pn_clim]. exact (HC t Htt).
Qed.
End All.
