(** Properties of Bravais lattices and Brillouin-zone paths (C01-C07). *)
From Verif Require Import Py LatticeModel LatticeSpec LatticeProofs.
Open Scope R_scope.

(** C01.  For independent primitive vectors the published b1, b2 are dual to
    a1, a2; they are the only such pair; and the vectors they generate are
    exactly the reciprocal vectors. *)
Theorem C01_reciprocal_basis_dual : forall args L,
  lattice_init args = Ok L -> independent (lt_a1 L) (lt_a2 L) ->
  (inner (lt_b1 L) (lt_a1 L) = 2 * PI /\ inner (lt_b2 L) (lt_a2 L) = 2 * PI /\
   inner (lt_b1 L) (lt_a2 L) = 0 /\ inner (lt_b2 L) (lt_a1 L) = 0) /\
  (forall c1 c2, inner c1 (lt_a1 L) = 2 * PI -> inner c1 (lt_a2 L) = 0 ->
     inner c2 (lt_a1 L) = 0 -> inner c2 (lt_a2 L) = 2 * PI ->
     c1 = lt_b1 L /\ c2 = lt_b2 L) /\
  (forall g, reciprocal_to (lt_a1 L) (lt_a2 L) g <-> in_lattice (lt_b1 L) (lt_b2 L) g).
Proof.
  exact (fun args L H Hi => conj (duality args L H Hi)
    (conj (fun c1 c2 h1 h2 h3 h4 =>
       match duality args L H Hi with
       | conj D1 (conj D2 (conj D3 D4)) =>
           dual_unique (lt_a1 L) (lt_a2 L) c1 c2 (lt_b1 L) (lt_b2 L) Hi
             (eq_trans h1 (eq_sym D1)) (eq_trans h2 (eq_sym D3))
             (eq_trans h3 (eq_sym D4)) (eq_trans h4 (eq_sym D2))
       end)
    (reciprocal_exact args L H Hi))).
Qed.
Print Assumptions C01_reciprocal_basis_dual.

(** The named lattices are always independent, so C01 applies to them. *)
Theorem C01_named_lattices_qualify : forall s L,
  lattice_init (LatName s) = Ok L -> independent (lt_a1 L) (lt_a2 L).
Proof. exact named_independent. Qed.
Print Assumptions C01_named_lattices_qualify.

(** hypotheses of C01 hold for an oblique lattice *)
Example C01_example : exists L, lattice_init (LatVecs (2, 1) (1/3, 5)) = Ok L /\
  independent (lt_a1 L) (lt_a2 L).
Proof.
  destruct (init_vecs (2,1) (1/3,5)) as (L & H & E1 & E2 & _).
  exists L; split; auto. rewrite E1, E2; unfold independent, det; simpl; lra.
Qed.

(** C02. *)
Theorem C02_cell_and_zone_area : forall args L,
  lattice_init args = Ok L -> independent (lt_a1 L) (lt_a2 L) ->
  lt_ec_area L = Rabs (det (lt_a1 L) (lt_a2 L)) /\ 0 < lt_ec_area L /\
  lt_ec_area L * lt_bz_area L = (2 * PI) * (2 * PI).
Proof. exact areas. Qed.
Print Assumptions C02_cell_and_zone_area.

Theorem C02_area_independent_of_basis : forall args args' L L' p q r s,
  lattice_init args = Ok L -> lattice_init args' = Ok L' ->
  (p * s - q * r = 1 \/ p * s - q * r = -1)%Z ->
  lt_a1 L' = comb p q (lt_a1 L) (lt_a2 L) -> lt_a2 L' = comb r s (lt_a1 L) (lt_a2 L) ->
  independent (lt_a1 L) (lt_a2 L) ->
  lt_ec_area L' = lt_ec_area L /\ lt_bz_area L' = lt_bz_area L.
Proof. exact area_basis_change. Qed.
Print Assumptions C02_area_independent_of_basis.

(** a concrete change of basis: square lattice spanned by (1,0),(3,1) *)
Example C02_example : exists L L',
  lattice_init (LatName "square") = Ok L /\ lattice_init (LatVecs (1,0) (3,1)) = Ok L' /\
  lt_a1 L' = comb 1 0 (lt_a1 L) (lt_a2 L) /\ lt_a2 L' = comb 3 1 (lt_a1 L) (lt_a2 L) /\
  independent (lt_a1 L) (lt_a2 L).
Proof.
  destruct (init_vecs (1,0) (3,1)) as (L' & H & E1 & E2 & _).
  eexists; exists L'; split; [reflexivity|]. split; auto. rewrite E1, E2.
  unfold comb, independent, det; simpl; repeat split; try (f_equal; ring); lra.
Qed.

(** C03. *)
Theorem C03_square_points : forall L, lattice_init (LatName "square") = Ok L ->
  forall s,
   (lower s = "x"%string -> parse_point L (PtStr s) = Ok (1/2 * fst (lt_b1 L), 1/2 * snd (lt_b1 L))) /\
   (lower s = "m"%string -> parse_point L (PtStr s) =
       Ok (1/2 * (fst (lt_b1 L) + fst (lt_b2 L)), 1/2 * (snd (lt_b1 L) + snd (lt_b2 L)))) /\
   (lower s = "k"%string -> parse_point L (PtStr s) = Raise ValueError).
Proof. exact square_points. Qed.
Print Assumptions C03_square_points.

Theorem C03_square_points_on_zone_boundary : forall L p,
  lattice_init (LatName "square") = Ok L ->
  (exists s, (lower s = "x" \/ lower s = "m")%string /\ parse_point L (PtStr s) = Ok p) ->
  in_first_zone (lt_b1 L) (lt_b2 L) p /\ on_face p (lt_b1 L).
Proof. exact square_points_zone. Qed.
Print Assumptions C03_square_points_on_zone_boundary.

Theorem C03_hexagonal_points : forall L, lattice_init (LatName "hexagonal") = Ok L ->
  forall s,
   (lower s = "m"%string -> parse_point L (PtStr s) = Ok (1/2 * fst (lt_b1 L), 1/2 * snd (lt_b1 L))) /\
   (lower s = "k"%string -> parse_point L (PtStr s) =
       Ok (1/3 * (fst (lt_b1 L) + fst (lt_b2 L)), 1/3 * (snd (lt_b1 L) + snd (lt_b2 L)))) /\
   (lower s = "x"%string -> parse_point L (PtStr s) = Raise ValueError).
Proof. exact hex_points. Qed.
Print Assumptions C03_hexagonal_points.

(** M is on a face of the zone, K on two faces at once (a corner). *)
Theorem C03_hexagonal_points_on_zone_boundary : forall L,
  lattice_init (LatName "hexagonal") = Ok L ->
  (forall s p, lower s = "m"%string -> parse_point L (PtStr s) = Ok p ->
     in_first_zone (lt_b1 L) (lt_b2 L) p /\ on_face p (lt_b1 L)) /\
  (forall s p, lower s = "k"%string -> parse_point L (PtStr s) = Ok p ->
     in_first_zone (lt_b1 L) (lt_b2 L) p /\ on_face p (lt_b1 L) /\ on_face p (lt_b2 L)).
Proof. exact hex_points_zone. Qed.
Print Assumptions C03_hexagonal_points_on_zone_boundary.

Theorem C03_unknown_names_rejected : forall L s,
  let s' := lower s in
  (s' <> "g" /\ s' <> "gamma" /\ s' <> "x" /\ s' <> "m" /\ s' <> "k")%string ->
  parse_point L (PtStr s) = Raise ValueError.
Proof. exact parse_point_reject. Qed.
Print Assumptions C03_unknown_names_rejected.

Theorem C03_explicit_lattices_have_no_named_points : forall a1 a2 L s,
  lattice_init (LatVecs a1 a2) = Ok L ->
  (lower s = "x" \/ lower s = "m" \/ lower s = "k")%string ->
  parse_point L (PtStr s) = Raise ValueError.
Proof. exact parse_point_explicit. Qed.
Print Assumptions C03_explicit_lattices_have_no_named_points.

Example C03_example : (lower "K" = "k" /\ lower "Gamma" = "gamma" /\ lower "Y" <> "x")%string
  /\ (exists L, lattice_init (LatName "hexagonal") = Ok L)
  /\ (exists L, lattice_init (LatVecs (1,0) (0,1)) = Ok L).
Proof.
  repeat split; try discriminate; [eexists; reflexivity|].
  destruct (init_vecs (1,0) (0,1)) as (L & H & _); eauto.
Qed.

(** C04.  [nl] are the sample counts per segment. *)
Theorem C04_path_visits_every_point : forall ang L pts l symm out,
  bz_path ang L pts (NsList l) symm = Ok out ->
  Forall (fun n => (0 < n)%nat) l ->
  let nl := counts_for (List.length pts) l in
  List.length (bp_kpoints out) = (sum_nat nl + 1)%nat /\
  List.length (bp_angles out) = List.length (bp_kpoints out) /\
  List.length (bp_indexes out) = List.length pts /\
  (forall i a, nth_error pts i = Some a ->
     exists p, parse_point L a = Ok p /\
       nth_error (bp_indexes out) i = Some (sum_nat (firstn i nl)) /\
       nth_error (bp_kpoints out) (sum_nat (firstn i nl)) = Some p) /\
  (forall i a b n j, nth_error pts i = Some a -> nth_error pts (S i) = Some b ->
     nth_error nl i = Some n -> (j < n)%nat ->
     exists p q, parse_point L a = Ok p /\ parse_point L b = Ok q /\
       nth_error (bp_kpoints out) (sum_nat (firstn i nl) + j) =
         Some (fst p + INR j / INR n * (fst q - fst p), snd p + INR j / INR n * (snd q - snd p))).
Proof. exact path_visits. Qed.
Print Assumptions C04_path_visits_every_point.

Theorem C04_errors_exactly : forall ang L pts l symm,
  ((exists out, bz_path ang L pts (NsList l) symm = Ok out) \/
   bz_path ang L pts (NsList l) symm = Raise ValueError) /\
  (bz_path ang L pts (NsList l) symm = Raise ValueError <->
   ((List.length pts < 2)%nat \/ (List.length l <> 1 /\ List.length l <> List.length pts - 1)%nat
    \/ (exists p, In p pts /\ parse_point L p = Raise ValueError)
    \/ parse_point L symm = Raise ValueError)).
Proof. exact bz_path_raises. Qed.
Print Assumptions C04_errors_exactly.

Theorem C04_indexes_strictly_increase : forall ang L pts l symm out,
  bz_path ang L pts (NsList l) symm = Ok out -> Forall (fun n => (0 < n)%nat) l ->
  nth_error (bp_indexes out) 0 = Some 0%nat /\
  forall i a b, nth_error (bp_indexes out) i = Some a ->
    nth_error (bp_indexes out) (S i) = Some b -> (a < b)%nat.
Proof. exact indexes_increase. Qed.
Print Assumptions C04_indexes_strictly_increase.

Example C04_example : exists L out,
  lattice_init (LatName "square") = Ok L /\
  bz_path (fun _ _ => 0) L [PtStr "G"; PtStr "X"; PtList (1, 2)] (NsList [4; 7]%nat) (PtList (PI, 0)) = Ok out /\
  Forall (fun n => (0 < n)%nat) [4; 7]%nat.
Proof. do 2 eexists; split; [reflexivity|]; split; [reflexivity|]. repeat constructor. Qed.

(** C05. *)
Theorem C05_abscissa_is_normalised_length : forall ang L pts l symm out ps,
  bz_path ang L pts (NsList l) symm = Ok out -> Forall (fun n => (0 < n)%nat) l ->
  mapM (parse_point L) pts = Ok ps -> total_length ps <> 0 ->
  List.length (bp_k_indexes out) = List.length pts /\
  nth_error (bp_k_indexes out) 0 = Some 0 /\
  nth_error (bp_k_indexes out) (List.length pts - 1) = Some 1 /\
  (forall i x y p q, nth_error (bp_k_indexes out) i = Some x ->
     nth_error (bp_k_indexes out) (S i) = Some y ->
     nth_error ps i = Some p -> nth_error ps (S i) = Some q ->
     x <= y /\ y - x = dist p q / total_length ps).
Proof. exact k_indexes_props. Qed.
Print Assumptions C05_abscissa_is_normalised_length.

Example C05_example : exists L ps, lattice_init (LatName "square") = Ok L /\
  mapM (parse_point L) [PtStr "G"; PtStr "X"; PtStr "G"] = Ok ps /\ total_length ps <> 0.
Proof.
  do 2 eexists; split; [reflexivity|]; split; [reflexivity|].
  unfold total_length; simpl. unfold dist, dist2; simpl.
  replace (Rsqr (0 - PI) + Rsqr (0 - 0)) with (Rsqr PI) by (unfold Rsqr; ring).
  replace (Rsqr (PI - 0) + Rsqr (0 - 0)) with (Rsqr PI) by (unfold Rsqr; ring).
  pose proof PI_RGT_0. rewrite sqrt_Rsqr by lra. lra.
Qed.

(** C06.  Refuted: an integer [ns] fails with TypeError where the equivalent
    list is accepted; indeed it always fails.  The true part: a one-element
    list is broadcast. *)
Theorem C06_int_sample_count_refuted : exists L pts n symm,
  lattice_init (LatName "square") = Ok L /\
  (exists out, bz_path (fun _ _ => 0) L pts (NsList (repeat n (List.length pts - 1))) symm = Ok out) /\
  bz_path (fun _ _ => 0) L pts (NsInt n) symm = Raise TypeError.
Proof. exact int_ns_refuted. Qed.
Print Assumptions C06_int_sample_count_refuted.

Theorem C06_int_sample_count_always_fails : forall ang L pts n symm,
  exists e, bz_path ang L pts (NsInt n) symm = Raise e.
Proof. exact int_ns_raises. Qed.
Print Assumptions C06_int_sample_count_always_fails.

Theorem C06_one_element_list_partial : forall ang L pts n symm, (2 <= List.length pts)%nat ->
  bz_path ang L pts (NsList [n]) symm =
  bz_path ang L pts (NsList (repeat n (List.length pts - 1))) symm.
Proof. exact single_count_broadcast. Qed.
Print Assumptions C06_one_element_list_partial.

Example C06_example : (2 <= List.length [PtStr "G"; PtStr "X"; PtStr "M"])%nat.
Proof. simpl; lia. Qed.

(** C07.  Refuted twice: a plain number is not accepted, and for primitive
    vectors with negative components the grid can collapse to a point. *)
Theorem C07_number_of_periods_refuted : exists L p,
  lattice_init (LatName "square") = Ok L /\ 0 < p /\
  (exists g, xy_grid L 10 10 (PerList p p) = Ok g) /\
  xy_grid L 10 10 (PerNum p) = Raise TypeError.
Proof. exact num_periods_refuted. Qed.
Print Assumptions C07_number_of_periods_refuted.

Theorem C07_grid_width_refuted : exists L gx gy,
  lattice_init (LatVecs (-1, 0) (0, 1)) = Ok L /\
  xy_grid L 3 3 PerNone = Ok (gx, gy) /\
  Rmax (Rabs (fst (lt_a1 L))) (Rabs (fst (lt_a2 L))) = 1 /\
  forall x, In x gx -> x = 0.
Proof. exact grid_width_refuted. Qed.
Print Assumptions C07_grid_width_refuted.

Theorem C07_grid_width_partial : forall L Nx Ny px py,
  (2 <= Nx)%nat -> (2 <= Ny)%nat ->
  0 <= fst (lt_a1 L) + fst (lt_a2 L) -> 0 <= snd (lt_a1 L) + snd (lt_a2 L) ->
  exists gx gy, xy_grid L Nx Ny (PerList px py) = Ok (gx, gy) /\
   centred_grid gx Nx (px * Rmax (Rabs (fst (lt_a1 L))) (Rabs (fst (lt_a2 L)))) /\
   centred_grid gy Ny (py * Rmax (Rabs (snd (lt_a1 L))) (Rabs (snd (lt_a2 L)))) /\
   xy_grid L Nx Ny PerNone =
     match lt_type L with
     | LSquare | LRectangular => xy_grid L Nx Ny (PerList 1 1)
     | _ => xy_grid L Nx Ny (PerList 2 2)
     end.
Proof. exact grid_width. Qed.
Print Assumptions C07_grid_width_partial.

Example C07_example : exists L, lattice_init (LatName "hexagonal") = Ok L /\
  0 <= fst (lt_a1 L) + fst (lt_a2 L) /\ 0 <= snd (lt_a1 L) + snd (lt_a2 L).
Proof. eexists; split; [reflexivity|]; simpl; lra. Qed.
