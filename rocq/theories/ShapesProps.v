(** Properties of shapes (C18-C23, C112). *)
From Verif Require Import Py LatticeSpec CBase PhcModel ShapesModel ShapesSpec ShapesProofs ShapesProofs2 ShapesProofs3
  CInt ShapesProofs4 ShapesProofs5 ShapesProofs6 ShapesProofs7 ShapesProofs8 ShapesProofs9.
From Coquelicot Require Import Complex.
Open Scope R_scope.
Open Scope list_scope.

(** A non-convex pentagon used by the examples. *)
Definition demo_xs : list R := 0 :: 2 :: 2 :: 1 :: 0 :: nil.
Definition demo_ys : list R := 0 :: 0 :: 2 :: 1 :: 2 :: nil.

(** C18. *)
Theorem C18_circle_hermitian : forall (j1 : R -> R) eps xc yc r G,
  circle_ft j1 xc yc r (- fst G, - snd G) = Cconj (circle_ft j1 xc yc r G) /\
  circle_ft j1 xc yc r (0, 0) = RtoC (sh_area (circle_shape j1 eps xc yc r)).
Proof. exact (fun j1 eps xc yc r G => conj (circle_conj j1 xc yc r G) (real_at_0 _ (circle_conj j1 xc yc r))). Qed.
Print Assumptions C18_circle_hermitian.
Theorem C18_ellipse_hermitian : forall (j1 : R -> R) eps xc yc rx ry phi G,
  ellipse_ft j1 xc yc rx ry phi (- fst G, - snd G) = Cconj (ellipse_ft j1 xc yc rx ry phi G) /\
  ellipse_ft j1 xc yc rx ry phi (0, 0) = RtoC (sh_area (ellipse_shape j1 eps xc yc rx ry phi)).
Proof. exact (fun j1 eps xc yc rx ry phi G => conj (ellipse_conj j1 xc yc rx ry phi G) (real_at_0 _ (ellipse_conj j1 xc yc rx ry phi))). Qed.
Print Assumptions C18_ellipse_hermitian.
(** Holds without assuming [regular_edges]; on polygons that violate it the
    code itself divides by zero. *)
Theorem C18_polygon_hermitian : forall eps xs ys P G, poly_init eps xs ys = Ok P ->
  poly_ft code_regs (po_pts P) (- fst G, - snd G) = Cconj (poly_ft code_regs (po_pts P) G) /\
  poly_ft code_regs (po_pts P) (0, 0) = RtoC (po_area P).
Proof. exact poly_conj_area. Qed.
Print Assumptions C18_polygon_hermitian.
Example C18_example : exists P, poly_init 1 demo_xs demo_ys = Ok P.
Proof.
  destruct (accepted_iff 1 demo_xs demo_ys) as [[_ H] _]; [discriminate|auto|]. apply H.
  rewrite signed_edges. unfold edges, roll1, demo_xs, demo_ys, crossl, det, rsuml. simpl. lra.
Qed.

(** C19. *)
Theorem C19_accepted_iff_area_nonnegative : forall eps xs ys, xs <> [] -> List.length xs = List.length ys ->
  let vs := combine xs ys in
  ((exists P, poly_init eps xs ys = Ok P) <-> 0 <= signed_area vs) /\
  (forall P, poly_init eps xs ys = Ok P ->
     po_area P = signed_area vs /\ po_eps P = eps /\ po_pts P = vs ++ [vert vs 0]) /\
  (signed_area vs < 0 -> poly_init eps xs ys = Raise ValueError).
Proof. exact accepted_iff. Qed.
Print Assumptions C19_accepted_iff_area_nonnegative.
Theorem C19_bad_lists_rejected : forall eps xs ys,
  (xs = [] \/ ys = [] -> poly_init eps xs ys = Raise IndexError) /\
  (xs <> [] -> ys <> [] -> List.length xs <> List.length ys -> poly_init eps xs ys = Raise ValueError).
Proof. exact poly_init_errors. Qed.
Print Assumptions C19_bad_lists_rejected.
Theorem C19_reversal_cycle_translation : forall a b t,
  signed_area (rev a) = - signed_area a /\ signed_area (a ++ b) = signed_area (b ++ a) /\
  signed_area (map (shift t) a) = signed_area a.
Proof. exact (fun a b t => conj (signed_area_rev a) (conj (signed_area_cycle a b) (signed_area_shift t a))). Qed.
Print Assumptions C19_reversal_cycle_translation.
Theorem C19_square : forall eps xc yc a,
  exists P, square_init eps xc yc a = Ok P /\ po_area P = a * a /\ po_eps P = eps.
Proof. exact square_ok. Qed.
Print Assumptions C19_square.
Theorem C19_hexagon : forall eps xc yc a,
  exists P, hexagon_init eps xc yc a = Ok P /\ po_area P = 3 * sqrt 3 / 2 * (a * a) /\ po_eps P = eps.
Proof. exact hexagon_ok. Qed.
Print Assumptions C19_hexagon.
Theorem C19_fourier_shape_accepted : forall eps xc yc f_as f_bs npts, f_as <> [] ->
  let radius i := fourier_radius f_as f_bs (INR i * (2 * PI / INR npts)) in
  (forall i, (i <= npts)%nat -> 0 <= radius i) ->
  exists P, fourier_init eps xc yc f_as f_bs npts = Ok P /\ po_eps P = eps /\ 0 <= po_area P /\
   po_area P = / 2 * sin (2 * PI / INR npts) * rsuml (map (fun i => radius i * radius (S i)) (seq 0 npts)).
Proof. exact fourier_ok. Qed.
Print Assumptions C19_fourier_shape_accepted.
Theorem C19_fourier_shape_rejected : forall eps xc yc f_as f_bs npts i, f_as <> [] -> (i <= npts)%nat ->
  fourier_radius f_as f_bs (INR i * (2 * PI / INR npts)) < 0 ->
  fourier_init eps xc yc f_as f_bs npts = Raise ValueError.
Proof. exact fourier_rejects. Qed.
Print Assumptions C19_fourier_shape_rejected.
(** the errors are exactly these *)
Theorem C19_fourier_shape_errors : forall eps xc yc f_as f_bs npts e,
  fourier_init eps xc yc f_as f_bs npts = Raise e <->
  (f_as = [] /\ e = IndexError) \/
  (f_as <> [] /\ e = ValueError /\ exists i, (i <= npts)%nat /\ fourier_radius f_as f_bs (INR i * (2 * PI / INR npts)) < 0).
Proof.
  intros eps xc yc f_as f_bs npts e. split.
  - destruct f_as as [|a0 fas] eqn:Ef; [cbn; intros H; injection H as <-; auto|]. rewrite <- Ef. intros H. right. assert (Hn : f_as <> []) by (rewrite Ef; discriminate).
    destruct (Classical_Prop.classic (exists i, (i <= npts)%nat /\ fourier_radius f_as f_bs (INR i * (2 * PI / INR npts)) < 0)) as [(i & Hi & Hr)|N].
    + rewrite (fourier_rejects eps xc yc f_as f_bs npts i Hn Hi Hr) in H. injection H as <-. split; [auto|]. split; [reflexivity|]. exists i; auto.
    + destruct (fourier_ok eps xc yc f_as f_bs npts Hn) as (P & E & _); [|congruence].
      intros i Hi. destruct (Rle_dec 0 (fourier_radius f_as f_bs (INR i * (2 * PI / INR npts)))); auto. exfalso. apply N. exists i. split; [auto|lra].
  - intros [(-> & ->)|(Hn & -> & i & Hi & Hr)]; [reflexivity|]. apply (fourier_rejects eps xc yc f_as f_bs npts i); auto.
Qed.
Print Assumptions C19_fourier_shape_errors.
Example C19_example : forall npts i, (i <= npts)%nat ->
  0 <= fourier_radius [2; 0; 1/2] [1/4] (INR i * (2 * PI / INR npts)).
Proof.
  intros npts i _. set (p := INR i * (2 * PI / INR npts)). unfold fourier_radius. simpl.
  pose proof (COS_bound ((1 + 1) * p)). pose proof (SIN_bound (1 * p)). unfold rsuml; simpl. lra.
Qed.
Example C19_example_clockwise : poly_init 1 (rev demo_xs) (rev demo_ys) = Raise ValueError.
Proof.
  destruct (accepted_iff 1 (rev demo_xs) (rev demo_ys)) as [_ [_ H]]; [discriminate|auto|]. apply H.
  rewrite signed_edges. unfold edges, roll1, demo_xs, demo_ys, crossl, det, rsuml. simpl. lra.
Qed.

(** C20. *)
Theorem C20_after_any_rotations : forall eps xs ys P angles, poly_init eps xs ys = Ok P ->
  let vs := combine xs ys in
  0 < signed_area vs ->
  let Q := fold_left poly_rotate angles P in
  let moved := map (rotate_about (centroid vs) (rsuml angles)) vs in
  po_pts Q = moved ++ [vert moved 0] /\ po_area Q = signed_area vs /\ po_eps Q = eps /\
  signed_area moved = signed_area vs /\ centroid moved = centroid vs.
Proof. exact rotate_history. Qed.
Print Assumptions C20_after_any_rotations.
Theorem C20_distances_kept : forall eps xs ys P angles i j, poly_init eps xs ys = Ok P ->
  0 < signed_area (combine xs ys) ->
  let Q := fold_left poly_rotate angles P in
  (i < List.length (po_pts P))%nat -> (j < List.length (po_pts P))%nat ->
  List.length (po_pts Q) = List.length (po_pts P) /\
  dist2 (nth i (po_pts Q) (0, 0)) (nth j (po_pts Q) (0, 0)) = dist2 (nth i (po_pts P) (0, 0)) (nth j (po_pts P) (0, 0)).
Proof. exact rotate_keeps_distances. Qed.
Print Assumptions C20_distances_kept.
Theorem C20_composition_and_full_turn : forall eps xs ys P, poly_init eps xs ys = Ok P ->
  0 < signed_area (combine xs ys) ->
  poly_rotate P 0 = P /\ poly_rotate P (2 * PI) = P /\
  forall a b, poly_rotate (poly_rotate P a) b = poly_rotate P (a + b).
Proof. exact rotate_full_turn. Qed.
Print Assumptions C20_composition_and_full_turn.
Example C20_example : 0 < signed_area (combine demo_xs demo_ys).
Proof. rewrite signed_edges. unfold edges, roll1, demo_xs, demo_ys, crossl, det, rsuml. simpl. lra. Qed.

(** C21. *)
Theorem C21_circle_translation : forall j1 xc yc r tx ty,
  (forall G, circle_ft j1 (xc + tx) (yc + ty) r G = Cmult (expi (- (fst G * tx + snd G * ty))) (circle_ft j1 xc yc r G)) /\
  (forall x y, circle_inside (xc + tx) (yc + ty) r (x + tx) (y + ty) = circle_inside xc yc r x y) /\
  (forall x y, circle_inside xc yc r x y = true <-> dist2 (x, y) (xc, yc) <= r ^ 2).
Proof. exact circle_moved. Qed.
Print Assumptions C21_circle_translation.
Theorem C21_polygon_translation : forall eps xs ys P tx ty G, poly_init eps xs ys = Ok P ->
  G = (0, 0) \/ 1 / 10 ^ 10 <= Rabs (fst G) \/ 1 / 10 ^ 10 <= Rabs (snd G) ->
  exists Q, poly_init eps (map (fun x => x + tx) xs) (map (fun y => y + ty) ys) = Ok Q /\
    po_pts Q = map (shift (tx, ty)) (po_pts P) /\ po_area Q = po_area P /\
    poly_ft code_regs (po_pts Q) G = Cmult (expi (- (fst G * tx + snd G * ty))) (poly_ft code_regs (po_pts P) G).
Proof. exact poly_moved_ft. Qed.
Print Assumptions C21_polygon_translation.
(** Missing from the full statement: the ellipse is centred at (x_cent, y_cent)
    turned by phi, so it is that rotated pair that translations move. *)
Theorem C21_ellipse_translation_partial : forall j1 xc yc rx ry phi tx ty,
  let ux := tx * cos phi + ty * sin phi in
  let uy := - tx * sin phi + ty * cos phi in
  (forall G, ellipse_ft j1 (xc + ux) (yc + uy) rx ry phi G =
     Cmult (expi (- (fst G * tx + snd G * ty))) (ellipse_ft j1 xc yc rx ry phi G)) /\
  (forall x y, ellipse_inside (xc + ux) (yc + uy) rx ry phi (x + tx) (y + ty) = ellipse_inside xc yc rx ry phi x y) /\
  (let cx := xc * cos phi - yc * sin phi in
   let cy := xc * sin phi + yc * cos phi in
   ellipse_inside xc yc rx ry phi cx cy = true /\
   forall u v, ellipse_inside xc yc rx ry phi (cx + u) (cy + v) = ellipse_inside xc yc rx ry phi (cx - u) (cy - v)).
Proof. exact ellipse_moved. Qed.
Print Assumptions C21_ellipse_translation_partial.
(** the points: axes rx and ry along the directions turned by phi *)
Theorem C21_ellipse_set_partial : forall xc yc rx ry phi s t,
  ellipse_inside xc yc rx ry phi (xc * cos phi - yc * sin phi + (s * cos phi - t * sin phi))
    (xc * sin phi + yc * cos phi + (s * sin phi + t * cos phi)) = true <-> (s / rx) ^ 2 + (t / ry) ^ 2 <= 1.
Proof. exact ellipse_set. Qed.
Print Assumptions C21_ellipse_set_partial.
Theorem C21_ellipse_centre_refuted : exists xc yc rx ry phi,
  0 < rx /\ 0 < ry /\ ellipse_inside xc yc rx ry phi xc yc = false.
Proof. exact ellipse_centre_wrong. Qed.
Print Assumptions C21_ellipse_centre_refuted.
Theorem C21_ellipse_phase_refuted : exists xc yc rx ry phi tx ty, exists G : R * R,
  0 < rx /\ 0 < ry /\
  ellipse_ft bessel_J1 (xc + tx) (yc + ty) rx ry phi G <>
  Cmult (expi (- (fst G * tx + snd G * ty))) (ellipse_ft bessel_J1 xc yc rx ry phi G).
Proof. exact ellipse_phase_wrong. Qed.
Print Assumptions C21_ellipse_phase_refuted.
Example C21_example : circle_inside 1 2 (1/2) (5/4) 2 = true /\ 1 / 10 ^ 10 <= Rabs (fst (1, 0)).
Proof. split; [apply Rleb_true; lra|]. cbn [fst]. rewrite Rabs_R1. lra. Qed.

(** C22.  The interior is described by the winding number (1 inside a simple
    counter-clockwise polygon, 0 outside); the code's regularisers 1e-10,
    1e-20, 1e-50 are r, r^2, r^5 at r = 1e-10. *)
Theorem C22_limit_of_regularisers : forall eps xs ys P G M, poly_init eps xs ys = Ok P ->
  let vs := combine xs ys in
  inside_box vs M -> G = (0, 0) \/ 1 / 10 ^ 10 <= Rabs (fst G) \/ 1 / 10 ^ 10 <= Rabs (snd G) ->
  exists I, is_CInt2 (fun x y => Cmult (RtoC (winding vs x y)) (expi (- (fst G * x + snd G * y)))) M I /\
   forall ep, 0 < ep -> exists r0, 0 < r0 /\ forall r, 0 < r < r0 ->
     Cmod (Cminus (poly_ft (mkRegs r (r ^ 2) (r ^ 5)) (po_pts P) G) I) < ep.
Proof. exact poly_limit_init. Qed.
Print Assumptions C22_limit_of_regularisers.
(** With the code's own regularisers: exact at G = 0, otherwise within an
    explicit bound. *)
Theorem C22_code_error_bound_partial : forall eps xs ys P G M, poly_init eps xs ys = Ok P ->
  let vs := combine xs ys in
  inside_box vs M ->
  exists I, is_CInt2 (fun x y => Cmult (RtoC (winding vs x y)) (expi (- (fst G * x + snd G * y)))) M I /\
   (G = (0, 0) -> poly_ft code_regs (po_pts P) G = I) /\
   (1 / 10 ^ 10 <= Rabs (fst G) ->
      Cmod (Cminus (poly_ft code_regs (po_pts P) G) I) <=
      rsuml (map (fun i => edge_error (vert vs i) (vert vs (S i)) (fst G) (snd G)) (seq 0 (List.length vs)))) /\
   (Rabs (fst G) < 1 / 10 ^ 10 -> 1 / 10 ^ 10 <= Rabs (snd G) ->
      Cmod (Cminus (poly_ft code_regs (po_pts P) G) I) <=
      rsuml (map (fun i => edge_error_gx0 (vert vs i) (vert vs (S i)) (fst G) (snd G)) (seq 0 (List.length vs)))).
Proof. exact code_error_init. Qed.
Print Assumptions C22_code_error_bound_partial.
(** The bound is not always small: a unit square and an ordinary G where one
    edge's denominator vanishes exactly and its contribution is dropped. *)
Theorem C22_code_regularisers_refuted : exists eps P G I,
  square_init eps 0 0 1 = Ok P /\
  is_CInt2 (fun x y => Cmult (RtoC (winding [(-1/2, -1/2); (1/2, -1/2); (1/2, 1/2); (-1/2, 1/2)]%list x y))
                             (expi (- (fst G * x + snd G * y)))) 1 I /\
  1 <= Rabs (fst G) /\ 1 / 5 <= Cmod (Cminus (poly_ft code_regs (po_pts P) G) I).
Proof. exact square_refuted. Qed.
Print Assumptions C22_code_regularisers_refuted.
Example C22_example_winding : winding [(-1/2, -1/2); (1/2, -1/2); (1/2, 1/2); (-1/2, 1/2)]%list 0 0 = 1 /\
  winding [(-1/2, -1/2); (1/2, -1/2); (1/2, 1/2); (-1/2, 1/2)]%list 1 0 = 0.
Proof. exact (conj (proj1 winding_square) (proj1 (proj2 winding_square))). Qed.
Example C22_example_box : inside_box (combine demo_xs demo_ys) 3.
Proof.
  intros p Hp. simpl in Hp. repeat (destruct Hp as [<-|Hp]; [cbn [fst snd]; split; apply Rabs_def1; lra|]). destruct Hp.
Qed.
Example C22_example_small_error : edge_error (1/2, -1/2) (1/2, 1/2) 1 1 <= 1 / 10 ^ 9.
Proof. exact small_error. Qed.

(** C23. *)
Theorem C23_circle_area : forall eps xc yc r, 0 <= r -> 1 / 10 ^ 10 * r <= 1 ->
  Rabs (sh_area (circle_shape bessel_J1 eps xc yc r) - PI * r ^ 2) <= 1 / 10 ^ 20 * (PI * r ^ 4).
Proof. exact circle_area. Qed.
Print Assumptions C23_circle_area.
Theorem C23_ellipse_area : forall eps xc yc rx ry phi, 0 <= rx -> 0 <= ry ->
  Rabs (sh_area (ellipse_shape bessel_J1 eps xc yc rx ry phi) - PI * (rx * ry)) <= 1 / 10 ^ 20 * (PI * (rx * ry)).
Proof. exact ellipse_area. Qed.
Print Assumptions C23_ellipse_area.
Example C23_example : 1 / 10 ^ 10 * (1/5) <= 1.
Proof. assert (1 / 10 ^ 10 <= 1) by lra. lra. Qed.

(** C112.  The inner integral is over x and the outer over y, both over
    [-M, M]; the box hypothesis only says that M is large enough. *)
Theorem C112_circle_transform : forall xc yc r G M, 0 < r ->
  (forall x y, circle_inside xc yc r x y = true -> Rabs x < M /\ Rabs y < M) ->
  exists F, is_CInt2 (fun x y => if circle_inside xc yc r x y then expi (- (fst G * x + snd G * y)) else RtoC 0) M F /\
    Cmod (Cminus (circle_ft bessel_J1 xc yc r G) F) <= 1 / 10 ^ 10 * (PI * r ^ 3).
Proof. exact circle_fourier. Qed.
Print Assumptions C112_circle_transform.
Theorem C112_ellipse_transform : forall xc yc rx ry phi G M, 0 < rx -> 0 < ry ->
  (forall x y, ellipse_inside xc yc rx ry phi x y = true -> Rabs x < M /\ Rabs y < M) ->
  exists F, is_CInt2 (fun x y => if ellipse_inside xc yc rx ry phi x y then expi (- (fst G * x + snd G * y)) else RtoC 0) M F /\
    Cmod (Cminus (ellipse_ft bessel_J1 xc yc rx ry phi G) F) <= 1 / 10 ^ 10 * (PI * (rx * ry)).
Proof. exact ellipse_fourier. Qed.
Print Assumptions C112_ellipse_transform.
Example C112_example_circle : forall x y, circle_inside 1 2 (1/2) x y = true -> Rabs x < 3 /\ Rabs y < 3.
Proof.
  intros x y H. unfold circle_inside in H. apply Rleb_true in H.
  assert (0 <= (x - 1) ^ 2) by apply pow2_ge_0. assert (0 <= (y - 2) ^ 2) by apply pow2_ge_0.
  split; apply Rabs_def1; nra.
Qed.
Example C112_example_ellipse : forall x y, ellipse_inside 0 0 1 2 (PI / 4) x y = true -> Rabs x < 4 /\ Rabs y < 4.
Proof.
  intros x y H. unfold ellipse_inside in H. cbv zeta in H. apply Rleb_true in H.
  assert (CS := sin2_cos2 (PI / 4)). unfold Rsqr in CS. revert H CS. generalize (sin (PI / 4)) (cos (PI / 4)). intros s c H CS.
  assert (B : x * x + y * y <= 4).
  { assert (E : (x * c + y * s) * (x * c + y * s) + (- x * s + y * c) * (- x * s + y * c) = x * x + y * y) by
      (transitivity ((x * x + y * y) * (s * s + c * c)); [ring|rewrite CS; ring]).
    rewrite <- E. set (u := x * c + y * s) in *. set (v := - x * s + y * c) in *. clearbody u v. nra. }
  split; apply Rabs_def1; nra.
Qed.
