(** C144, C145: the panels of structure and the markers of reciprocal. *)
From Verif Require Import Py CBase LatticeModel PhcModel RecipModel ExcModel PweModel PolModel VizModel Viz3Model LatticeSpec PhcSpec VizSpec Viz3Spec
  LatticeProofs PolProofs3 Viz3Proofs Viz3Proofs2 Viz3Proofs3.
Open Scope R_scope.
Open Scope list_scope.

(** C144.  structure of a GuidedModeExp shows none of the quantum wells of its
    crystal. *)
Theorem C144_wells_refuted : exists L P ps p, lattice_init (LatName "square") = Ok L /\ P = toy_phc L 1 [1] /\ pc_qws P <> [] /\
  structure (DGme P) 2 2 2 false false false false true false = Ok ps /\ In p ps /\ ~ draws_wells P p.
Proof.
  destruct (lattice_init (LatName "square")) as [L|e] eqn:HL; [|discriminate]. pose proof (named_independent _ _ HL) as Hi.
  exists L, (toy_phc L 1 [1]).
  assert (Q : pc_qws (toy_phc L 1 [1]) = [toy_qw 1 1]) by (rewrite toy_form; reflexivity).
  assert (Hd : Forall (fun d => 0 <= d) (thicknesses (OpLayer 1 12 "shapes" :: map (fun o => OpQW (toy_qw 1 o)) [1]))) by (cbn; repeat constructor; lra).
  destruct (VizProofs2.xz_shows L 1 1 _ 0 2 2 Hd Hi ltac:(lia) ltac:(lia) ltac:(discriminate)) as (a & im & E & _).
  change (run_ops _ _) with (toy_phc L 1 [1]) in E.
  exists [Panel PTxz im [] (get_eps_bounds (toy_phc L 1 [1]))], (Panel PTxz im [] (get_eps_bounds (toy_phc L 1 [1]))).
  split; [reflexivity|]. split; [reflexivity|]. split; [rewrite Q; discriminate|]. split; [|split; [left; reflexivity|]].
  - unfold structure. cbn [target]. rewrite E. rewrite toy_form. cbn [toy_base shown_layers pc_layers pc_lattice]. destruct (VizProofs2.window L 2 2) as (X & Y & _ & _ & -> & _). reflexivity.
  - unfold draws_wells. cbn [pn_im pn_lines]. destruct (im_extent im) as [[[l r] b] t]. intros [H _]. specialize (H (toy_qw 1 1)). rewrite Q in H. destruct (H (or_introl eq_refl)) as [[] _].
Qed.
Print Assumptions C144_wells_refuted.
(** Of a PhotCryst or a HopfieldPol the vertical panels show the planes y = 0 and
    x = 0, with every well as a line across the panel inside the stack; the layers
    are those of C124; no value exceeds the colour limits. *)
Theorem C144_panels_partial : forall L el eu ops s Nx Ny Nz cladding g xy xz yz, let P := run_ops (phc_init L el eu) ops in
  Forall (fun d => 0 < d) (thicknesses ops) -> total (thicknesses ops) + 1 < 10 ^ 10 -> thicknesses ops <> [] -> independent (lt_a1 L) (lt_a2 L) ->
  (s = DPhc P \/ exists fuel gmax tr o, pol_init fuel P gmax tr = Some (Ok o) /\ s = DPol P (po_exc o)) ->
  (2 <= Nx)%nat -> (2 <= Ny)%nat -> (2 <= Nz)%nat -> (xy || xz || yz)%bool = true ->
  exists p1 p2 p3, structure s Nx Ny Nz cladding g g xy xz yz = Ok (p1 ++ p2 ++ p3) /\
    (if xz then exists p, p1 = [p] /\ pn_title p = PTxz /\ good_section P (fun p => (fst p, 0, snd p)) Nx Nz p else p1 = []) /\
    (if yz then exists p, p2 = [p] /\ pn_title p = PTyz /\ good_section P (fun p => (0, fst p, snd p)) Ny Nz p else p2 = []) /\
    (if xy then exists ts, structure_xy P Nx Ny cladding = Ok ts /\ map (fun p => (pn_title p, pn_im p)) p3 = map (fun t => (PTxy (fst t), snd t)) ts /\
       Forall in_colours p3 else p3 = []).
Proof.
  intros L el eu ops s Nx Ny Nz cladding g xy xz yz P Hd Ht Hne Hi Hs Hx Hy Hz Ha.
  destruct Hs as [-> | (fuel & gmax & tr & o & Ho & ->)]; eapply (structure_good L el eu ops Hd Ht Hne Hi); try eassumption; try reflexivity. eapply pol_z. exact Ho.
Qed.
Print Assumptions C144_panels_partial.
(** What is refused. *)
Theorem C144_errors_partial : forall s Nx Ny Nz cladding gs fg xy xz yz,
  structure DOther Nx Ny Nz cladding gs fg xy xz yz = Raise ValueError /\
  (forall P zs, target s = Some (P, zs) -> pc_layers P = [] -> structure s Nx Ny Nz cladding gs fg xy xz yz = Raise IndexError) /\
  (forall P zs, target s = Some (P, zs) -> pc_layers P <> [] -> gs <> fg \/ (xy || xz || yz)%bool = false -> structure s Nx Ny Nz cladding gs fg xy xz yz = Raise ValueError).
Proof.
  intros s Nx Ny Nz cladding gs fg xy xz yz. split; [reflexivity|]. split.
  - intros P zs E H. unfold structure. rewrite E. unfold shown_layers, z_grid. rewrite H. destruct cladding; [|reflexivity].
    destruct (VizProofs2.window (pc_lattice P) 2 2) as (X & Y & _ & _ & -> & _). reflexivity.
  - intros P zs E H C. unfold structure. rewrite E. destruct (VizProofs2.window (pc_lattice P) 2 2) as (X & Y & _ & _ & -> & _). unfold shown_layers, z_grid.
    destruct (pc_layers P) as [|ly t]; [contradiction|]. cbn [app bind]. destruct cladding; (destruct C as [C|C]; [destruct gs, fg; try contradiction; reflexivity|rewrite C; destruct (xorb gs fg); reflexivity]).
Qed.
Print Assumptions C144_errors_partial.
Example C144_case : exists L o, lattice_init (LatName "square") = Ok L /\ independent (lt_a1 L) (lt_a2 L) /\ let P := toy_phc L 1 [1; 2] in
  pol_init 0 P 0 "tbt" = Some (Ok o) /\ map ex_z (po_exc o) = [1/2; 1/2] /\ P = run_ops (phc_init L 1 1) (OpLayer 1 12 "shapes" :: map (fun o => OpQW (toy_qw 1 o)) [1; 2]) /\
  total (thicknesses (OpLayer 1 12 "shapes" :: map (fun o => OpQW (toy_qw 1 o)) [1; 2])) + 1 < 10 ^ 10.
Proof.
  destruct (lattice_init (LatName "square")) as [L|e] eqn:HL; [|discriminate]. destruct (toy_init L 1 HL 1 [2]) as (ws & E & _).
  exists L, (Pol ws 1). split; [reflexivity|]. split; [apply (named_independent _ _ HL)|]. cbv zeta. split; [exact E|]. split; [rewrite (pol_z _ _ _ _ _ E), toy_form; reflexivity|].
  split; [reflexivity|]. match goal with |- ?t + 1 < _ => change t with (1 + 0) end. simpl. lra.
Qed.

(** C145.  reciprocal of a HopfieldPol that has not been run raises. *)
Theorem C145_polariton_refuted : exists L o, lattice_init (LatName "square") = Ok L /\ pol_init 0 (toy_phc L 1 [1]) 0 "tbt" = Some (Ok o) /\ reciprocal (new_pol o) = Raise AttributeError.
Proof.
  destruct (lattice_init (LatName "square")) as [L|e] eqn:HL; [|discriminate]. destruct (toy_init L 1 HL 1 []) as (ws & E & _). exists L, (Pol ws 1). auto.
Qed.
Print Assumptions C145_polariton_refuted.
(** Otherwise the markers are distinct reciprocal lattice vectors, symmetric about
    the one at the origin. *)
Theorem C145_markers_partial : forall args L gmax e, lattice_init args = Ok L -> independent (lt_a1 L) (lt_a2 L) -> 0 <= gmax ->
  (e = EGme (recip_tbt L gmax) \/ (exists fuel rc, recip_abs fuel L gmax = Some (Ok rc) /\ (e = EGme rc \/ e = ran_pol rc)) \/
   e = ran_pol (recip_tbt L gmax) \/ (exists ly ee, e = EPwe (pwe_init L ly gmax ee)) \/
   exists fuel P z V a M E0 loss osc tr s, pc_lattice P = L /\ exc_init fuel P z V a M E0 loss osc gmax tr = Some (Ok s) /\ e = EExc s) ->
  exists ps, reciprocal e = Ok ps /\ lattice_markers (lt_b1 L) (lt_b2 L) ps.
Proof. exact markers. Qed.
Print Assumptions C145_markers_partial.
Example C145_case : exists L s, lattice_init (LatName "square") = Ok L /\ independent (lt_a1 L) (lt_a2 L) /\
  exc_init 0 (toy_phc L 1 [1]) (1/2) 0 1 1 1 0 (OscList [1; 0; 0]) 0 "tbt" = Some (Ok s) /\ pc_lattice (toy_phc L 1 [1]) = L.
Proof.
  destruct (lattice_init (LatName "square")) as [L|e] eqn:HL; [|discriminate]. destruct (toy_well L 1 HL 1 [toy_qw 1 1]) as (s & E & _). exists L, s.
  split; [reflexivity|]. split; [apply (named_independent _ _ HL)|]. rewrite toy_form. split; [exact E|reflexivity].
Qed.
