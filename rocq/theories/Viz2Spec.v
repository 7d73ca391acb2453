(** Vocabulary for the properties of viz.eps, viz.pot_ft, viz.pol_bands and of the
    field sections. *)
From Coq Require Import Ascii.
From Verif Require Import Py LatticeModel LatticeSpec CBase PhcModel PhcSpec FieldsModel PolModel MiscModel MiscSpec VizModel VizSpec Viz2Model.
Open Scope R_scope.

(** The picture of n columns and m rows shows the layer: every pixel has the
    permittivity of a point it covers, the last shape that covers the point winning
    over the background (for images of shapes see [shows_eps] in VizSpec.v). *)
Definition layer_eps_is (L : lattice) (ly : layer) (p : R * R) (e : R) : Prop :=
  (exists N, sqrt (Rsqr (fst p) + Rsqr (snd p)) <
       IZR N * Rmin (sqrt (Rsqr (fst (lt_a1 L)) + Rsqr (snd (lt_a1 L)))) (sqrt (Rsqr (fst (lt_a2 L)) + Rsqr (snd (lt_a2 L)))) /\
     last_wins (fun s => covers L N s p) (ly_epsb ly) (ly_shapes ly) e) /\
  (inner (lt_a1 L) (lt_a2 L) = 0 -> (forall s, In s (ly_shapes ly) -> within_one_period L s) ->
     last_wins (fun s => covers_any L s p) (ly_epsb ly) (ly_shapes ly) e).
Definition shows_layer (L : lattice) (ly : layer) (n m : nat) (im : image) : Prop :=
  List.length (im_rows im) = m /\ Forall (fun r => List.length r = n) (im_rows im) /\
  forall i j, (i < n)%nat -> (j < m)%nat -> exists u v e,
    entry (im_rows im) j i = Some e /\ pixel_has im n m i j u v /\ layer_eps_is L ly (u, v) e.
(** every pixel has the value of f at a point it covers *)
Definition shows_function (f : R -> R -> R) (n m : nat) (im : image) : Prop :=
  List.length (im_rows im) = m /\ Forall (fun r => List.length r = n) (im_rows im) /\
  forall i j, (i < n)%nat -> (j < m)%nat -> exists u v,
    entry (im_rows im) j i = Some (f u v) /\ pixel_has im n m i j u v.
(** the colour scale covers the picture *)
Definition in_scale (im : image) (c : R * R) : Prop := forall e, In e (List.concat (im_rows im)) -> fst c <= e <= snd c.

(** polariton j at the i-th k-point at (X0_i, e_ij) *)
Definition dots (X0 : list R) (en : list (list R)) : list (R * R) :=
  flat_map (fun xr => map (fun e => (fst xr, e)) (snd xr)) (combine X0 en).
(** The shaded region contains exactly the polaritons whose energy is that of light
    that radiates into a cladding: E = (h c / a) f. *)
Definition cone_of_energies (P : phc) (a : R) (ks : list (R * R)) (X0 : list R) (en : list (list R)) (low : list (R * R)) (top : R) : Prop :=
  forall i j k e, nth_error ks i = Some k -> entry en i j = Some e -> 0 <= e ->
    exists x l, nth_error X0 i = Some x /\ nth_error low i = Some (x, l) /\ (l <= e <= top <-> radiates P k (e * a / (h_eV_Hz * c_light))).
(** How the markers are coloured: by excitonic fraction on the scale 0 to 1, or by
    quality factor on the scale Qmin to Qmax; fraction wins. *)
Definition drawn (en eim fr : list (list R)) (q fraction : bool) (Qmin Qmax : R) (pts : list (R * R)) : pdraw :=
  if fraction then PFraction pts (List.concat fr) 0 1 else if q then PQuality pts (quality en eim) Qmin Qmax else PMarkers pts.
(** all points are inside the axes [0, r] x [0, t] *)
Definition in_axes (r t : R) (pts : list (R * R)) : Prop := forall p, In p pts -> 0 <= fst p <= r /\ 0 <= snd p <= t.

(** a rectangle w x h around the origin, with its exact transform *)
Definition sinc (w g : R) : R := if Reqb g 0 then w else 2 * sin (g * w / 2) / g.
Definition box (w h : R) : shape := mkShape 1 (w * h) (fun x y => (Rleb (Rabs x) (w / 2) && Rleb (Rabs y) (h / 2))%bool) (fun g => RtoC (sinc w (fst g) * sinc h (snd g))).
(** a stripe that fills half of the cell *)
Definition stripe_phc (L : lattice) : phc := run_ops (phc_init L 1 1) [OpLayer 1 12 "shapes"; OpShape (ShOne (box (1 / 2) 1)) 0 CladNone].
Definition stripe_layer (L : lattice) : layer := append_shape (lt_ec_area L) (shapes_layer 0 (0 + 1) 12) (box (1 / 2) 1).
