(** Drawings of layers, potentials, polariton bands and field sections: C126 to C128. *)
From Coq Require Import Ascii.
From Verif Require Import Py LatticeModel LatticeSpec CBase PhcModel PhcSpec RecipModel RecipSpec SlabModel MatElModel FieldsSpec FieldsModel ExcSpec ExcModel RecipProofs5 PolModel MiscModel MiscSpec VizModel VizSpec Viz2Model Viz2Spec Viz2Proofs Viz2Proofs2 Viz2Proofs3.
Open Scope string_scope.
Open Scope list_scope.
Open Scope R_scope.

(** ** C126: the bands of polaritons *)

(** The documented "vmax value for the quality factor colormap" Q_clip is not the upper
    end of the scale. *)
Theorem C126_clip_refuted : forall P a ks en eim fr m Q_clip ku, ks <> [] -> List.length en = List.length ks -> (0 < m)%nat -> Forall (fun r => List.length r = m) en -> Q_clip <> 10 ^ 4 ->
  exists pts col vmax rest, pol_bands P a ks (Some en) eim fr true false Q_clip false (10 ^ 2) (10 ^ 4) ku = Ok (PQuality pts col (10 ^ 2) vmax :: rest) /\ vmax <> Q_clip.
Proof. exact clip_ignored. Qed.
Print Assumptions C126_clip_refuted.
(** What holds: one marker per polariton at its energy, coloured by Q or by the fraction
    with Q_min and Q_max as scale, a light cone that contains exactly the polaritons
    that radiate, and axes that contain all markers. *)
Theorem C126_markers_partial : forall P a ks en eim fr m, ks <> [] -> List.length en = List.length ks -> (0 < m)%nat -> Forall (fun r => List.length r = m) en ->
  forall q fraction Qc Qmin Qmax ku, let X0 := fst (calculate_x ks m ku) in
  (exists x t, pol_bands P a ks (Some en) eim fr q fraction Qc false Qmin Qmax ku = Ok [drawn en eim fr q fraction Qmin Qmax (dots X0 en); PLimits x t] /\
    ((forall e, In e (List.concat en) -> 0 <= e) -> in_axes x t (dots X0 en))) /\
  (0 < a -> 0 < ly_epsavg (pc_clad_l P) -> 0 < ly_epsavg (pc_clad_u P) ->
    exists low top x t, pol_bands P a ks (Some en) eim fr q fraction Qc true Qmin Qmax ku = Ok [drawn en eim fr q fraction Qmin Qmax (dots X0 en); PCone low top; PLimits x t] /\
      100 <= top /\ cone_of_energies P a ks X0 en low top /\ ((forall e, In e (List.concat en) -> 0 <= e) -> in_axes x t (dots X0 en))).
Proof. exact (fun P a ks en eim fr m H1 H2 H3 H4 q fraction Qc Qmin Qmax ku => conj (pol_nocone P a ks en eim fr m H1 H2 H3 H4 q fraction Qc Qmin Qmax ku) (pol_cone P a ks en eim fr m H1 H2 H3 H4 q fraction Qc Qmin Qmax ku)). Qed.
Print Assumptions C126_markers_partial.
(** before run: an empty list has no shape *)
Theorem C126_before_run : forall P a ks eim fr q fraction Qc cone Qmin Qmax ku, pol_bands P a ks None eim fr q fraction Qc cone Qmin Qmax ku = Raise AttributeError.
Proof. exact pol_before_run. Qed.
Print Assumptions C126_before_run.
Example C126_case : let ks := [(0, 0); (1, 0)] in let en := [[1.4; 1.5; 1.6]; [1.3; 1.5; 1.7]] in
  ks <> [] /\ List.length en = List.length ks /\ (0 < 3)%nat /\ Forall (fun r => List.length r = 3%nat) en /\ (forall e, In e (List.concat en) -> 0 <= e) /\
  dots (fst (calculate_x ks 3 false)) en = [(0, 1.4); (0, 1.5); (0, 1.6); (1, 1.3); (1, 1.5); (1, 1.7)].
Proof.
  intros ks en. split; [discriminate|]. split; [reflexivity|]. split; [lia|]. split; [repeat constructor|]. split.
  - intros e H. cbn in H. repeat (destruct H as [<-|H]; [lra|]). contradiction.
  - unfold dots. cbn. reflexivity.
Qed.

(** ** C127: single layers and potentials *)

(** The picture of the potential of a well that fills half of the cell has pixels
    outside of its colour scale 0 to |V|. *)
Theorem C127_scale_refuted : exists L fuel s, lattice_init (LatName "square") = Ok L /\
  exc_init fuel (stripe_phc L) (1/2) 1 1 1 0 0 OscNone (6/5) "abs" = Some (Ok s) /\
  exists im c, viz_pot_ft (Some s) 1 1 false false = Ok (im, c) /\ ~ in_scale im c.
Proof. exact pot_out_of_scale. Qed.
Print Assumptions C127_scale_refuted.
(** With truncate_g = 'tbt' there is no picture. *)
Theorem C127_tbt_refuted : forall fuel P z V a M E0 loss osc gmax s args Nx Ny, exc_init fuel P z V a M E0 loss osc gmax "tbt" = Some (Ok s) ->
  lattice_init args = Ok (pc_lattice P) -> independent (lt_a1 (pc_lattice P)) (lt_a2 (pc_lattice P)) -> 0 <= gmax ->
  viz_pot_ft (Some s) Nx Ny false false = Raise IndexError.
Proof. exact pot_tbt_raises. Qed.
Print Assumptions C127_tbt_refuted.
(** With figure and gridspec given an undefined name is read; one alone is refused, like
    anything that is not an exciton solver. *)
Theorem C127_figure_refuted : forall s Nx Ny, viz_pot_ft None Nx Ny false false = Raise ValueError /\ viz_pot_ft (Some s) Nx Ny true true = Raise NameError /\
  viz_pot_ft (Some s) Nx Ny true false = Raise ValueError /\ viz_pot_ft (Some s) Nx Ny false true = Raise ValueError.
Proof. exact pot_args. Qed.
Print Assumptions C127_figure_refuted.
(** What holds for 'abs': every pixel is the real part of the truncated Fourier series. *)
Theorem C127_potential_partial : forall fuel P z V a M E0 loss osc gmax s args pot Nx Ny, exc_init fuel P z V a M E0 loss osc gmax "abs" = Some (Ok s) ->
  lattice_init args = Ok (pc_lattice P) -> independent (lt_a1 (pc_lattice P)) (lt_a2 (pc_lattice P)) -> 0 <= gmax ->
  conj_symmetric pot -> transform_of (lt_ec_area (pc_lattice P)) (ex_layer s) V (rc_g (ex_rc s)) pot -> (0 < Nx)%nat -> (0 < Ny)%nat ->
  exists im ds, viz_pot_ft (Some s) Nx Ny false false = Ok (im, (0, Rabs V)) /\
    NoDup ds /\ (forall D, In D ds <-> difference (rc_g (ex_rc s)) D) /\
    shows_function (fun x y => fst (series (map (fun D => (pot D, D)) ds) x y)) Nx Ny im.
Proof. exact pot_drawn. Qed.
Print Assumptions C127_potential_partial.
(** viz.eps shows the layer. *)
Theorem C127_layer : forall L ly Nx Ny, (independent (lt_a1 L) (lt_a2 L) -> (0 < Nx)%nat -> (0 < Ny)%nat ->
    exists im, viz_eps L ly Nx Ny = Ok im /\ shows_layer L ly Nx Ny im /\
      ((2 <= Nx)%nat -> (2 <= Ny)%nat -> exists X Y, xy_grid L 2 2 PerNone = Ok ([- X; X], [- Y; Y]) /\ im_extent im = (- X, X, - Y, Y))) /\
  ((Nx = 0 \/ Ny = 0)%nat -> viz_eps L ly Nx Ny = Raise ValueError).
Proof. exact (fun L ly Nx Ny => conj (eps_layer L ly Nx Ny) (eps_empty L ly Nx Ny)). Qed.
Print Assumptions C127_layer.
Example C127_case : exists L im, lattice_init (LatName "square") = Ok L /\ viz_eps L (stripe_layer L) 3 2 = Ok im /\ List.length (im_rows im) = 2%nat.
Proof.
  destruct (lattice_init (LatName "square")) as [L|] eqn:HL; [|discriminate]. exists L.
  destruct (eps_layer L (stripe_layer L) 3 2) as (im & E & (H & _) & _); [|lia|lia|eauto].
  destruct (square_area L HL) as (_ & Ha & _). exact Ha.
Qed.

(** ** C128: the three field sections are sections of one field *)
Theorem C128_sections : forall P eps d ng einv ms evec omega gvec field component,
  (lower field = "h" \/ lower field = "d" \/ lower field = "e") -> (forall c, letter c component -> c = "x"%char \/ c = "y"%char \/ c = "z"%char) ->
  forall xo yo zo Nx Ny Nz dst, (zo <> None \/ pc_layers P <> []) -> let F := ft_field_xy P eps d ng einv ms evec omega in exists xg yg zg,
  (forall z, exists f, field_xy_on P F gvec z xo yo Nx Ny field component = Ok (f, xg, yg)) /\
  (forall y, exists f, field_xz_on P F gvec y xo zo Nx Nz dst field component = Ok (f, xg, zg)) /\
  (forall x, exists f, field_yz_on P F gvec x yo zo Ny Nz dst field component = Ok (f, yg, zg)) /\
  (forall i j l x y z f1 f2 f3 c, nth_error xg i = Some x -> nth_error yg j = Some y -> nth_error zg l = Some z -> letter c component ->
     field_xy_on P F gvec z xo yo Nx Ny field component = Ok (f1, xg, yg) ->
     field_xz_on P F gvec y xo zo Nx Nz dst field component = Ok (f2, xg, zg) ->
     field_yz_on P F gvec x yo zo Ny Nz dst field component = Ok (f3, yg, zg) ->
     exists a1 a2 a3 v, In (c, a1) f1 /\ In (c, a2) f2 /\ In (c, a3) f3 /\
       nth_error a1 (j * List.length xg + i) = Some v /\ entry a2 l i = Some v /\ entry a3 l j = Some v).
Proof. exact (fun P eps d ng einv ms evec omega gvec field component Hf Hc xo yo zo Nx Ny Nz dst Hz => sections_agree P eps d ng einv ms evec omega gvec field component Hf Hc xo yo zo Nx Ny Nz dst Hz). Qed.
Print Assumptions C128_sections.
(** and viz.field draws the vertical ones, times the Bloch factor if asked to *)
Theorem C128_drawn : forall P eps d ng einv ms evec omega gvec field component,
  (lower field = "h" \/ lower field = "d" \/ lower field = "e") -> (forall c, letter c component -> c = "x"%char \/ c = "y"%char \/ c = "z"%char) ->
  forall N Nz dst kx ky periodic v p, pc_layers P <> [] -> (0 < N)%nat -> (0 < Nz)%nat -> lower v = val_name p -> lower component = component -> NoDup (letters component) ->
  let F := ft_field_xy P eps d ng einv ms evec omega in
  (forall y, exists fi xg zg ds, field_xz_on P F gvec y None None N Nz dst field component = Ok (fi, xg, zg) /\ viz_field false None (Some y) None kx ky periodic v component xg zg fi = Ok ds /\
    List.length ds = List.length (letters component) /\
    forall m c f, nth_error (letters component) m = Some c -> In (c, f) fi ->
      exists pic, nth_error ds m = Some pic /\ shows_wave p (if periodic then 0 else kx) (if periodic then 0 else ky) (fun u _ => (u, y)) xg zg f pic) /\
  (forall x, exists fi yg zg ds, field_yz_on P F gvec x None None N Nz dst field component = Ok (fi, yg, zg) /\ viz_field false (Some x) None None kx ky periodic v component yg zg fi = Ok ds /\
    List.length ds = List.length (letters component) /\
    forall m c f, nth_error (letters component) m = Some c -> In (c, f) fi ->
      exists pic, nth_error ds m = Some pic /\ shows_wave p (if periodic then 0 else kx) (if periodic then 0 else ky) (fun u _ => (x, u)) yg zg f pic).
Proof.
  exact (fun P eps d ng einv ms evec omega gvec field component Hf Hc N Nz dst kx ky periodic v p H1 H2 H3 H4 H5 H6 =>
    conj (fun y => section_xz P eps d ng einv ms evec omega gvec field component Hf Hc y N Nz dst kx ky periodic v p H1 H2 H3 H4 H5 H6)
         (fun x => section_yz P eps d ng einv ms evec omega gvec field component Hf Hc x N Nz dst kx ky periodic v p H1 H2 H3 H4 H5 H6)).
Qed.
Print Assumptions C128_drawn.
Example C128_case : (lower "E" = "h" \/ lower "E" = "d" \/ lower "E" = "e") /\ (forall c, letter c "xz" -> c = "x"%char \/ c = "y"%char \/ c = "z"%char) /\
  lower "xz" = "xz" /\ NoDup (letters "xz") /\ pc_layers (run_ops (phc_init (mkLattice LSquare (1, 0) (0, 1) (1, 0) (0, 1) 1 1) 1 1) [OpLayer 1 4 "shapes"]) <> [].
Proof.
  split; [auto|]. split; [intros c [<-|[<-|[]]]; auto|]. split; [reflexivity|]. split; [repeat constructor; cbn; intuition discriminate|discriminate].
Qed.
