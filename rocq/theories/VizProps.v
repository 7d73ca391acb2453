(** Texts and drawings: C119 to C124. *)
From Coq Require Import Ascii.
From Verif Require Import Py LatticeModel LatticeSpec CBase PhcModel PhcSpec PolModel MiscModel MiscSpec MiscProps VizModel VizSpec VizProofs VizProofs2 VizProofs3 VizProofs4 VizProofs5 VizProofs6.
Open Scope string_scope.
Open Scope list_scope.
Open Scope R_scope.

(** ** C119: the text of a crystal lists what it contains, in readable units *)

(** One ellipse anywhere makes repr(phc) fail. *)
Theorem C119_ellipse_refuted : forall fixed sci arr dec str, exists L layers qws,
  repr_phc fixed sci arr dec str L layers qws = Raise NameError.
Proof.
  intros. exists (mkLattice LSquare (1, 0) (0, 1) (2 * PI, 0) (0, 2 * PI) 1 1), [VLayer 1 1 [VEllipse 1 0 0 1 2 0]], [].
  apply repr_fails. do 2 eexists. split; [now left|]. split; [now left|]. unfold is_ellipse. eauto 8.
Qed.
Print Assumptions C119_ellipse_refuted.
Theorem C119_fails_iff : forall fixed sci arr dec str L layers qws,
  (exists t, repr_phc fixed sci arr dec str L layers qws = Ok t) <-> forall ly s, In ly layers -> In s (vl_shapes ly) -> ~ is_ellipse s.
Proof. exact repr_iff. Qed.
Print Assumptions C119_fails_iff.
(** Without ellipses: the lattice, then every layer with its number and its shapes in order,
    then every well with its number, one per line.  Whatever the number formats. *)
Theorem C119_text_partial : forall fixed sci arr dec str L layers qws,
  (forall ly s, In ly layers -> In s (vl_shapes ly) -> ~ is_ellipse s) ->
  exists body, List.length body = List.length layers /\
    (forall i ly t, nth_error layers i = Some ly -> nth_error body i = Some t ->
       exists ts, Forall2 (fun s u => shape_says fixed arr dec s = Some u) (vl_shapes ly) ts /\
         t = match ts with [] => (layer_head fixed ly ++ ")")%string | _ => String.concat nl ((layer_head fixed ly ++ ",")%string :: ts ++ [")"%string]) end) /\
    repr_phc fixed sci arr dec str L layers qws =
      Ok (String.concat nl (["PhotonicCrystal("; lattice_says fixed L] ++ numbered dec 0 body ++ numbered dec 0 (map (well_says fixed sci str) qws)) ++
          match layers, qws with [], [] => ")" | _, _ => nl ++ ")" end)%string.
Proof. exact repr_text. Qed.
Print Assumptions C119_text_partial.
Example C119_text_case : let ly := VLayer 12 (1 / 2) [VCircle 1 0 0 (1 / 4); VPoly 1 []] in
  forall s, In s (vl_shapes ly) -> ~ is_ellipse s.
Proof. cbn. intros s [<-|[<-|[]]] (e & x & y & rx & ry & phi & H); discriminate. Qed.
(** The exciton solver prints its losses in units that are wrong by 1000. *)
Theorem C119_units_refuted : forall gmax a M E0 loss z V, loss <> 0 -> ~ prints (exc_fields gmax a M E0 loss z V) "loss" loss.
Proof. exact loss_unit. Qed.
Print Assumptions C119_units_refuted.
Theorem C119_units_partial : (forall gmax a M E0 loss z V, let f := exc_fields gmax a M E0 loss z V in
    prints f "gmax" gmax /\ prints f "a" a /\ prints f "M" M /\ prints f "E0" E0 /\ prints f "z" z /\ prints f "V_shapes" V) /\
  (forall q, let f := qw_fields q in
    prints f "z" (qw_z q) /\ prints f "V_shapes" (qw_V q) /\ prints f "a" (qw_a q) /\ prints f "M" (qw_M q) /\ prints f "E0" (qw_E0 q) /\ prints f "loss" (qw_loss q)).
Proof. exact (conj exc_units qw_units). Qed.
Print Assumptions C119_units_partial.
Example C119_units_case : prints (exc_fields 1 2 3 4 5 6 7) "E0" 4 /\ ~ prints (exc_fields 1 2 3 4 5 6 7) "E0" 5.
Proof.
  split; [exact (proj1 (proj2 (proj2 (proj2 (exc_units 1 2 3 4 5 6 7)))))|].
  intros (x & u & c & Hin & Hu & Hx). cbn in Hin.
  repeat (destruct Hin as [Hin|Hin]; [inversion Hin; subst; cbn in Hu; inversion Hu; subst; try discriminate; lra|]); contradiction.
Qed.

(** ** C120: viz.shapes draws the outlines in the cell *)

Theorem C120_ellipse_refuted : forall L n pad, exists shapes, viz_shapes L shapes n pad = Raise AttributeError.
Proof. intros. exists [VEllipse 1 0 0 1 2 0]. apply shapes_fail. eexists. split; [now left|]. unfold is_ellipse. eauto 8. Qed.
Print Assumptions C120_ellipse_refuted.
(** A circle on a corner of the square cell: the image on the opposite corner has a point
    in the drawn window, at least 1/2 from everything drawn. *)
Theorem C120_corner_refuted : exists L, lattice_init (LatName "square") = Ok L /\
  exists cs ext, viz_shapes L [VCircle 1 (1 / 2) (1 / 2) (1 / 4)] 101 true = Ok (cs, ext) /\
  exists p, in_window ext p /\ on_image L (1 / 2) (1 / 2) (1 / 4) p /\
    forall c q, In c cs -> In q c -> 1 / 4 <= dist2 p q.
Proof. exact corner_missing. Qed.
Print Assumptions C120_corner_refuted.
(** Without ellipses: exactly one outline for each shape and each of the neighbours along
    +-a1, +-a2, in order. *)
Theorem C120_outlines_partial : forall L shapes n pad, (forall s, In s shapes -> ~ is_ellipse s) ->
  exists cs x y, viz_shapes L shapes n pad = Ok (cs, ([- x; x], [- y; y])) /\ 0 <= x /\ 0 <= y /\ xy_grid L 2 2 PerNone = Ok ([- x; x], [- y; y]) /\
    Forall2 (fun so c => outlines n (fst so) (snd so) c) (list_prod shapes (neighbours L pad)) cs.
Proof. exact shapes_drawn. Qed.
Print Assumptions C120_outlines_partial.
Example C120_outlines_case : exists cs x y,
  viz_shapes (mkLattice LSquare (1, 0) (0, 1) (2 * PI, 0) (0, 2 * PI) 1 1) [VCircle 1 0 0 (1 / 4); VPoly 1 [(0, 0); (1, 0); (0, 1)]] 51 true = Ok (cs, ([- x; x], [- y; y])) /\
  List.length cs = 10%nat.
Proof.
  destruct (shapes_drawn (mkLattice LSquare (1, 0) (0, 1) (2 * PI, 0) (0, 2 * PI) 1 1) [VCircle 1 0 0 (1 / 4); VPoly 1 [(0, 0); (1, 0); (0, 1)]] 51 true) as (cs & x & y & E & _ & _ & _ & HF).
  { cbn. intros s [<-|[<-|[]]] (e & x & y & rx & ry & phi & H); discriminate. }
  exists cs, x, y. split; [exact E|]. cbn in HF. do 10 (inversion HF as [|? ? ? ? _ HF']; subst; clear HF; rename HF' into HF). now inversion HF.
Qed.

(** ** C121: viz.field draws the mode, viz.wavef the wave function *)

(** In the xy-plane with periodic = False the factor exp(i k.r) is taken along the
    diagonal of the grid: the picture of u = 1 for k = (0, pi) on a 2 x 2 grid. *)
Theorem C121_xy_refuted : let g := [-1/2; 1/2] in let f := [[RtoC 1; RtoC 1]; [RtoC 1; RtoC 1]] in
  exists pic, viz_field false None None (Some 0) 0 PI false "im" "z" g g [("z"%char, f)] = Ok [pic] /\
    ~ shows_wave PIm 0 PI (fun u v => (u, v)) g g f pic.
Proof. exact xy_wrong. Qed.
Print Assumptions C121_xy_refuted.
(** and grids of different sizes raise *)
Theorem C121_xy_sizes_refuted : forall kx ky z v comp g1 g2 fi, List.length g1 <> List.length g2 -> List.length g1 <> 1%nat -> List.length g2 <> 1%nat ->
  viz_field false None None (Some z) kx ky false v comp g1 g2 fi = Raise ValueError.
Proof. exact field_xy_bad. Qed.
Print Assumptions C121_xy_sizes_refuted.
(** and so does a grid of one column *)
Theorem C121_xy_column_refuted : forall kx ky z v comp x g2 fi, (1 < List.length g2)%nat -> comp <> ""%string -> comps_ready [x] g2 (lower comp) fi ->
  viz_field false None None (Some z) kx ky false v comp [x] g2 fi = Raise ValueError.
Proof. exact field_xy_column. Qed.
Print Assumptions C121_xy_column_refuted.
(** A component asked for twice is multiplied by the factor twice. *)
Theorem C121_twice_refuted : exists p1 p2, viz_field false None (Some 0) None PI 0 false "re" "xx" [1] [0] [("x"%char, [[RtoC 1]])] = Ok [p1; p2] /\
  shows_wave PRe PI 0 (fun u _ => (u, 0)) [1] [0] [[RtoC 1]] p1 /\ ~ shows_wave PRe PI 0 (fun u _ => (u, 0)) [1] [0] [[RtoC 1]] p2.
Proof. exact letter_twice. Qed.
Print Assumptions C121_twice_refuted.
(** What holds: the planes xz and yz; the periodic part in all planes; the xy-plane for
    equal grid sizes when ky times the steps of the grid are full turns (e.g. ky = 0), and
    for a grid of one row. *)
Theorem C121_xz_partial : forall kx ky y periodic v p comp g1 g2 fi, lower v = val_name p -> g1 <> [] -> g2 <> [] -> comps_ready g1 g2 (lower comp) fi ->
  exists ds, viz_field false None (Some y) None kx ky periodic v comp g1 g2 fi = Ok ds /\ List.length ds = List.length (letters (lower comp)) /\
    forall m c f, nth_error (letters (lower comp)) m = Some c -> get_key c fi = Ok f ->
      exists pic, nth_error ds m = Some pic /\ shows_wave p (if periodic then 0 else kx) (if periodic then 0 else ky) (fun u _ => (u, y)) g1 g2 f pic.
Proof. exact field_xz. Qed.
Print Assumptions C121_xz_partial.
Theorem C121_yz_partial : forall kx ky x periodic v p comp g1 g2 fi, lower v = val_name p -> g1 <> [] -> g2 <> [] -> comps_ready g1 g2 (lower comp) fi ->
  exists ds, viz_field false (Some x) None None kx ky periodic v comp g1 g2 fi = Ok ds /\ List.length ds = List.length (letters (lower comp)) /\
    forall m c f, nth_error (letters (lower comp)) m = Some c -> get_key c fi = Ok f ->
      exists pic, nth_error ds m = Some pic /\ shows_wave p (if periodic then 0 else kx) (if periodic then 0 else ky) (fun u _ => (x, u)) g1 g2 f pic.
Proof. exact field_yz. Qed.
Print Assumptions C121_yz_partial.
Theorem C121_xy_partial : forall is_pwe kx ky zo periodic v p comp g1 g2 fi, (is_pwe = false -> zo <> None) ->
  lower v = val_name p -> g1 <> [] -> g2 <> [] -> comps_ready g1 g2 (lower comp) fi ->
  (periodic = false -> (List.length g1 = List.length g2 \/ List.length g2 = 1%nat) /\ forall a b, In a g2 -> In b g2 -> exists n : Z, ky * (a - b) = 2 * PI * IZR n) ->
  exists ds, viz_field is_pwe None None zo kx ky periodic v comp g1 g2 fi = Ok ds /\ List.length ds = List.length (letters (lower comp)) /\
    forall m c f, nth_error (letters (lower comp)) m = Some c -> get_key c fi = Ok f ->
      exists pic, nth_error ds m = Some pic /\ shows_wave p (if periodic then 0 else kx) (if periodic then 0 else ky) (fun u v => (u, v)) g1 g2 f pic.
Proof. exact field_xy. Qed.
Print Assumptions C121_xy_partial.
Example C121_case : lower "RE" = val_name PRe /\
  comps_ready [0; 1] [0; 1; 2] (lower "Xz") [("x"%char, [[RtoC 1; Ci]; [Ci; Ci]; [Ci; RtoC 2]]); ("z"%char, [[RtoC 1; Ci]; [Ci; Ci]; [Ci; RtoC 2]])] /\
  exists ds, viz_field false None (Some (1 / 2)) None 1 2 false "RE" "Xz" [0; 1] [0; 1; 2]
    [("x"%char, [[RtoC 1; Ci]; [Ci; Ci]; [Ci; RtoC 2]]); ("z"%char, [[RtoC 1; Ci]; [Ci; Ci]; [Ci; RtoC 2]])] = Ok ds /\ List.length ds = 2%nat.
Proof.
  assert (H : comps_ready [0; 1] [0; 1; 2] (lower "Xz") [("x"%char, [[RtoC 1; Ci]; [Ci; Ci]; [Ci; RtoC 2]]); ("z"%char, [[RtoC 1; Ci]; [Ci; Ci]; [Ci; RtoC 2]])]).
  { split; [constructor; [intros [H|[]]; discriminate|constructor; [easy|constructor]]|].
    intros c [<-|[<-|[]]]; eexists; (split; [reflexivity|]); (split; [reflexivity|repeat constructor]). }
  split; [reflexivity|]. split; [exact H|].
  destruct (field_xz 1 2 (1 / 2) false "RE" PRe "Xz" [0; 1] [0; 1; 2] _ eq_refl ltac:(discriminate) ltac:(discriminate) H) as (ds & E & Hl & _).
  exists ds. split; [exact E|exact Hl].
Qed.
(** exactly one coordinate chooses the plane normal to it *)
Theorem C121_plane : forall x y z, field_plane false x y z =
  match x, y, z with
  | Some _, None, None => Ok PlYZ | None, Some _, None => Ok PlXZ | None, None, Some _ => Ok PlXY | _, _, _ => Raise ValueError
  end.
Proof. exact plane_table. Qed.
Print Assumptions C121_plane.
(** the wave function of an exciton *)
Theorem C121_wavef : (forall v p f, lower v = val_name p -> p <> PAbs -> List.concat f <> [] -> exists Z lo hi, viz_wavef v f = Ok (Z, (lo, hi)) /\ List.length Z = List.length f /\
    forall i j w, entry f j i = Some w -> entry Z j i = Some (real_part p w) /\ lo <= real_part p w <= hi) /\
  (forall v f, lower v = "abs2"%string -> List.concat f <> [] -> exists Z hi, viz_wavef v f = Ok (Z, (0, hi)) /\ List.length Z = List.length f /\
    forall i j w, entry f j i = Some w -> entry Z j i = Some (fst w * fst w + snd w * snd w) /\ 0 <= fst w * fst w + snd w * snd w <= hi) /\
  (forall v f, lower v <> "re"%string -> lower v <> "im"%string -> lower v <> "abs2"%string -> viz_wavef v f = Raise ValueError).
Proof. exact (conj wavef_ok (conj wavef_abs2 wavef_bad)). Qed.
Print Assumptions C121_wavef.
Example C121_wavef_case : lower "Abs2" = "abs2"%string /\ exists hi, viz_wavef "Abs2" [[(3, 4)]] = Ok ([[25]], (0, hi)).
Proof.
  split; [reflexivity|]. destruct (wavef_abs2 "Abs2" [[(3, 4)]] eq_refl ltac:(discriminate)) as (Z & hi & E & Hl & H).
  destruct (H 0%nat 0%nat (3, 4) eq_refl) as [He _]. exists hi. rewrite E. unfold viz_wavef in E. cbn in E. inversion E; subst. cbn in He. inversion He as [He'].
  do 2 f_equal. rewrite He'. f_equal. f_equal. ring.
Qed.

(** ** C122: band diagrams *)

(** The documented call on a PlaneWaveExp fails, with the default light cone as well as
    with quality factors. *)
Theorem C122_pwe_refuted : forall P ks freqs fim ir m sym ku, ks <> [] -> List.length freqs = List.length ks -> (0 < m)%nat -> Forall (fun r => List.length r = m) freqs ->
  bands BPwe P ks freqs fim ir false (10 ^ 10) true sym false None ku = Raise AttributeError /\
  forall cone, bands BPwe P ks freqs fim ir true (10 ^ 10) cone sym false None ku = Raise AttributeError.
Proof.
  intros P ks freqs fim ir m sym ku H1 H2 H3 H4. split; [exact (bands_pwe_cone P ks freqs fim ir m H1 H2 H3 H4 (10 ^ 10) sym false None ku 1 eq_refl)|].
  intros cone. exact (bands_pwe_Q P ks freqs fim ir (10 ^ 10) cone sym false None ku 1 eq_refl).
Qed.
Print Assumptions C122_pwe_refuted.
(** Colouring by quality factor fails when no mode is lossy: one mode at 1/2. *)
Theorem C122_lossless_refuted : exists ks freqs fim, forall P ir cone sym ku,
  bands (BGme None) P ks freqs fim ir true (10 ^ 10) cone sym false None ku = Raise ValueError.
Proof.
  exists [(0, 0)], [[1 / 2]], [[0]]. intros. apply (bands_Q_none P [(0, 0)] [[1 / 2]] [[0]] ir [[0]] None _ _ _ _ _ _ 1 I); [left; split; [discriminate|reflexivity]|reflexivity|].
  intros x [<-|[]]. lra.
Qed.
Print Assumptions C122_lossless_refuted.
(** What holds for a GuidedModeExp: every mode is drawn at (X0_i, conv f_ij), and the
    shaded region contains exactly the modes that radiate. *)
Theorem C122_gme_partial : forall P ks freqs fim ir m kz Qc sym eV a ku conv,
  ks <> [] -> List.length freqs = List.length ks -> (0 < m)%nat -> Forall (fun r => List.length r = m) freqs ->
  kz_known kz -> axis_unit eV a conv -> 0 < ly_epsavg (pc_clad_l P) -> 0 < ly_epsavg (pc_clad_u P) ->
  let X0 := fst (calculate_x ks m ku) in
  exists d low top, bands (BGme kz) P ks freqs fim ir false Qc true sym eV a ku = Ok [d; DCone low top] /\
    marked kz sym (placed X0 conv freqs) d /\ 100 <= top /\ cone_is_lossy P ks X0 conv freqs low top.
Proof. intros P ks freqs fim ir m kz Qc sym eV a ku conv H1 H2 H3 H4. exact (bands_gme P ks freqs fim ir m H1 H2 H3 H4 kz Qc sym eV a ku conv). Qed.
Print Assumptions C122_gme_partial.
Theorem C122_no_cone_partial : forall P ks freqs fim ir m cls kz Qc sym eV a ku conv,
  ks <> [] -> List.length freqs = List.length ks -> (0 < m)%nat -> Forall (fun r => List.length r = m) freqs ->
  (cls = BGme kz /\ kz_known kz \/ cls = BPwe /\ kz = None) -> axis_unit eV a conv ->
  exists d, bands cls P ks freqs fim ir false Qc false sym eV a ku = Ok [d] /\ marked kz sym (placed (fst (calculate_x ks m ku)) conv freqs) d.
Proof. intros P ks freqs fim ir m cls kz Qc sym eV a ku conv H1 H2 H3 H4. exact (bands_nocone P ks freqs fim ir m H1 H2 H3 H4 cls kz Qc sym eV a ku conv). Qed.
Print Assumptions C122_no_cone_partial.
(** Quality factors: the colours are w / 2 (g + 1e-16), the scale ends at the largest below
    the clip, and the call fails exactly when there is none. *)
Theorem C122_quality_partial : forall P ks freqs fim ir m gim kz Qc sym eV a ku conv,
  ks <> [] -> List.length freqs = List.length ks -> (0 < m)%nat -> Forall (fun r => List.length r = m) freqs ->
  kz_known kz -> losses fim ir gim -> axis_unit eV a conv ->
  ((exists x, In x (quality freqs gim) /\ x < Qc) ->
   exists vmax, bands (BGme kz) P ks freqs fim ir true Qc false sym eV a ku = Ok [DScatter (placed (fst (calculate_x ks m ku)) conv freqs) (Some (quality freqs gim)) (Some vmax)] /\
     vmax < Qc /\ In vmax (quality freqs gim) /\ forall x, In x (quality freqs gim) -> x < Qc -> x <= vmax) /\
  ((forall x, In x (quality freqs gim) -> Qc <= x) -> forall cone, bands (BGme kz) P ks freqs fim ir true Qc cone sym eV a ku = Raise ValueError).
Proof.
  intros P ks freqs fim ir m gim kz Qc sym eV a ku conv H1 H2 H3 H4 Hk Hl Hu.
  split; [exact (bands_Q P ks freqs fim ir m H1 H2 H3 H4 gim kz Qc sym eV a ku conv Hk Hl Hu)|].
  intros H cone. exact (bands_Q_none P ks freqs fim ir gim kz Qc cone sym eV a ku conv Hk Hl Hu H).
Qed.
Print Assumptions C122_quality_partial.
Theorem C122_unit : (forall a, 0 < a -> exists conv, axis_unit true (Some a) conv) /\
  forall cls P ks freqs fim ir q Qc cone sym ku, bands cls P ks freqs fim ir q Qc cone sym true None ku = Raise ValueError.
Proof. exact (conj unit_exists bands_no_a). Qed.
Print Assumptions C122_unit.
Example C122_case : let ks := [(0, 0); (1, 0)] in let freqs := [[0; 1]; [1 / 4; 1]] in
  ks <> [] /\ List.length freqs = List.length ks /\ Forall (fun r => List.length r = 2%nat) freqs /\ kz_known (Some "Both") /\
  (exists conv, axis_unit true (Some (1 / 2)) conv) /\ placed (fst (calculate_x ks 2 false)) 2 freqs = [(0, 2 * 0); (0, 2 * 1); (1, 2 * (1 / 4)); (1, 2 * 1)].
Proof.
  split; [discriminate|]. split; [reflexivity|]. split; [repeat constructor|]. split; [right; right; reflexivity|]. split; [apply unit_exists; lra|]. reflexivity.
Qed.
Example C122_quality_case : let q := quality [[1]; [1]] [[0]; [1]] in (exists x, In x q /\ x < 10 ^ 10) /\ ~ (forall x, In x q -> x < 10 ^ 10).
Proof.
  cbn. split.
  - eexists. split; [right; left; reflexivity|]. apply Rmult_lt_reg_r with (1 + 1 / (10 * (10 * (10 * (10 * (10 * (10 * (10 * (10 * (10 * (10 * (10 * (10 * (10 * (10 * (10 * (10 * 1))))))))))))))))); [lra|].
    unfold Rdiv at 1. rewrite Rmult_assoc, Rinv_l by lra. lra.
  - intros H. specialize (H _ (or_introl eq_refl)). lra.
Qed.

(** ** C123: cross sections show the permittivity *)

Theorem C123_xy : forall L el eu ops z Nx Ny, let P := run_ops (phc_init L el eu) ops in
  Forall (fun d => 0 <= d) (thicknesses ops) -> independent (lt_a1 L) (lt_a2 L) -> (0 < Nx)%nat -> (0 < Ny)%nat ->
  exists a im, eps_xy P z Nx Ny = Ok (a, im) /\ shows_plane P (fun p => (fst p, snd p, z)) Nx Ny a im /\
    ((2 <= Nx)%nat -> (2 <= Ny)%nat -> exists X Y, xy_grid L 2 2 PerNone = Ok ([- X; X], [- Y; Y]) /\ im_extent im = (- X, X, - Y, Y)).
Proof. exact xy_shows. Qed.
Print Assumptions C123_xy.
Theorem C123_xz : forall L el eu ops y Nx Nz, let P := run_ops (phc_init L el eu) ops in
  Forall (fun d => 0 <= d) (thicknesses ops) -> independent (lt_a1 L) (lt_a2 L) -> (0 < Nx)%nat -> (0 < Nz)%nat -> thicknesses ops <> [] ->
  exists a im, eps_xz P y Nx Nz = Ok (a, im) /\ shows_plane P (fun p => (fst p, y, snd p)) Nx Nz a im /\
    ((2 <= Nx)%nat -> (2 <= Nz)%nat -> exists X Y, xy_grid L 2 2 PerNone = Ok ([- X; X], [- Y; Y]) /\ im_extent im = (- X, X, -1, total (thicknesses ops) + 1)).
Proof. exact xz_shows. Qed.
Print Assumptions C123_xz.
Theorem C123_yz : forall L el eu ops x Ny Nz, let P := run_ops (phc_init L el eu) ops in
  Forall (fun d => 0 <= d) (thicknesses ops) -> independent (lt_a1 L) (lt_a2 L) -> (0 < Ny)%nat -> (0 < Nz)%nat -> thicknesses ops <> [] ->
  exists a im, eps_yz P x Ny Nz = Ok (a, im) /\ shows_plane P (fun p => (x, fst p, snd p)) Ny Nz a im /\
    ((2 <= Ny)%nat -> (2 <= Nz)%nat -> exists X Y, xy_grid L 2 2 PerNone = Ok ([- X; X], [- Y; Y]) /\ im_extent im = (- Y, Y, -1, total (thicknesses ops) + 1)).
Proof. exact yz_shows. Qed.
Print Assumptions C123_yz.
Example C123_case : let ops := [OpLayer (1 / 2) 12 "shapes"; OpLayer 1 2 "shapes"] in
  Forall (fun d => 0 <= d) (thicknesses ops) /\ thicknesses ops <> [] /\ exists L, lattice_init (LatName "hexagonal") = Ok L /\ independent (lt_a1 L) (lt_a2 L).
Proof.
  cbn. split; [repeat constructor; lra|]. split; [discriminate|]. eexists. split; [reflexivity|]. unfold independent. cbn.
  assert (0 < sqrt 3) by (apply sqrt_lt_R0; lra). unfold det. cbn [fst snd]. intros E. nra.
Qed.

(** ** C124: the panels carry the right titles *)

(** With cladding = True "Layer 1" is the title of layers[0], although its
    permittivity is not that of layers[1]. *)
Theorem C124_titles_refuted : exists L, lattice_init (LatName "square") = Ok L /\
  let P := run_ops (phc_init L 1 1) [OpLayer 1 4 "shapes"; OpLayer 1 9 "shapes"] in
  forall Nx Ny, (0 < Nx)%nat -> (0 < Ny)%nat -> exists ps im ly0 ly1, structure_xy P Nx Ny true = Ok ps /\
    nth_error (pc_layers P) 0 = Some ly0 /\ nth_error (pc_layers P) 1 = Some ly1 /\
    In (Some (TLayer 1), im) ps /\ pictures P Nx Ny ly0 im /\ ~ pictures P Nx Ny ly1 im.
Proof. exact title_shift. Qed.
Print Assumptions C124_titles_refuted.
(** eps_ft with both figure and gridspec given fails; a PlaneWaveExp drawn with
    cladding = True gets the title of the upper cladding. *)
Theorem C124_eps_ft_refuted : (forall (is_pwe : bool) (get : R -> result image) layers clads m cladding, layers <> [] ->
    eps_ft is_pwe get layers clads m cladding true true = Raise NameError) /\
  (forall (get : R -> result image) layers clads m im, get m = Ok im -> eps_ft true get layers clads m true false false = Ok [(Some TUpper, im)]).
Proof. exact (conj (fun is_pwe get => eps_ft_given is_pwe get) (fun get layers clads m im H => eps_ft_pwe get layers clads m true im H)). Qed.
Print Assumptions C124_eps_ft_refuted.
Theorem C124_structure_partial : forall L el eu ops Nx Ny, let P := run_ops (phc_init L el eu) ops in
  Forall (fun d => 0 < d) (thicknesses ops) -> total (thicknesses ops) < 10 ^ 10 -> thicknesses ops <> [] -> independent (lt_a1 L) (lt_a2 L) -> (0 < Nx)%nat -> (0 < Ny)%nat ->
  (exists ps, structure_xy P Nx Ny false = Ok ps /\ List.length ps = List.length (pc_layers P) /\
    forall i ly, nth_error (pc_layers P) i = Some ly -> exists im, nth_error ps i = Some (Some (TLayer i), im) /\ pictures P Nx Ny ly im) /\
  exists ps, structure_xy P Nx Ny true = Ok ps /\ List.length ps = S (S (List.length (pc_layers P))) /\
    (exists im, nth_error ps 0 = Some (Some TLower, im) /\ pictures P Nx Ny (pc_clad_l P) im) /\
    (exists im, nth_error ps (S (List.length (pc_layers P))) = Some (Some TUpper, im) /\ pictures P Nx Ny (pc_clad_u P) im) /\
    forall i ly, nth_error (pc_layers P) i = Some ly -> exists im, nth_error ps (S i) = Some (Some (TLayer (S i)), im) /\ pictures P Nx Ny ly im.
Proof. intros L el eu ops Nx Ny P H1 H2 H3 H4 H5 H6. exact (conj (structure_plain L el eu ops Nx Ny H1 H2 H3 H4 H5 H6) (structure_clad L el eu ops Nx Ny H1 H2 H3 H4 H5 H6)). Qed.
Print Assumptions C124_structure_partial.
(** without layers there is nothing to draw, with or without the claddings *)
Theorem C124_structure_no_layers : forall P Nx Ny cladding, pc_layers P = [] -> structure_xy P Nx Ny cladding = Raise IndexError.
Proof. intros P Nx Ny cladding H. unfold structure_xy, shown_layers, z_grid. rewrite H. destruct cladding; reflexivity. Qed.
Print Assumptions C124_structure_no_layers.
Theorem C124_eps_ft_partial : (forall (get : R -> result image) layers clads m im, get m = Ok im -> eps_ft true get layers clads m false false false = Ok [(Some (TLayer 0), im)]) /\
  (forall (get : R -> result image) layers ims clads m, layers <> [] -> mapM get layers = Ok ims ->
    exists ps, eps_ft false get layers clads m false false false = Ok ps /\ List.length ps = List.length layers /\
      forall i im, nth_error ims i = Some im -> nth_error ps i = Some (Some (TLayer i), im)) /\
  (forall (get : R -> result image) layers ims lo up il iu m, mapM get layers = Ok ims -> get lo = Ok il -> get up = Ok iu ->
    exists ps, eps_ft false get layers (lo, up) m true false false = Ok ps /\ List.length ps = S (S (List.length layers)) /\
      nth_error ps 0 = Some (Some TLower, il) /\ nth_error ps (S (List.length layers)) = Some (Some TUpper, iu) /\
      forall i im, nth_error ims i = Some im -> nth_error ps (S i) = Some (Some (TLayer (S i)), im)) /\
  (forall (is_pwe : bool) (get : R -> result image) layers clads m cladding b, layers <> [] -> eps_ft is_pwe get layers clads m cladding b (negb b) = Raise ValueError).
Proof.
  exact (conj (fun get layers clads m im H => eps_ft_pwe get layers clads m false im H)
    (conj (fun get => eps_ft_gme get) (conj (fun get => eps_ft_gme_clad get) (fun is_pwe get => eps_ft_half is_pwe get)))).
Qed.
Print Assumptions C124_eps_ft_partial.
Example C124_case : let ops := [OpLayer 1 4 "shapes"; OpLayer 1 9 "shapes"] in Forall (fun d => 0 < d) (thicknesses ops) /\ total (thicknesses ops) < 10 ^ 10 /\ thicknesses ops <> [].
Proof. split; [repeat constructor; lra|]. split; [change (1 + (1 + 0) < 10 ^ 10); lra|discriminate]. Qed.
