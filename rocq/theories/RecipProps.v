(** Plane-wave sets and permittivity matrices: C24-C28 and C76. *)
From Verif Require Import Py LatticeModel LatticeSpec LatticeProofs CBase PhcModel ShapesModel ShapesSpec
  RecipModel RecipSpec RecipFloat RecipProofs RecipProofs2 RecipProofs3 RecipProofs4 RecipProofs5.
Open Scope R_scope.
Open Scope list_scope.

(** C24. *)
Theorem C24_tbt_block : forall args L gmax, lattice_init args = Ok L -> independent (lt_a1 L) (lt_a2 L) -> 0 <= gmax ->
  let gs := rc_g (recip_tbt L gmax) in
  exists n1 n2 : nat,
    integer_part (2 * PI * gmax / len (lt_b1 L)) n1 /\ integer_part (2 * PI * gmax / len (lt_b2 L)) n2 /\
    rc_n1 (recip_tbt L gmax) = Z.of_nat (2 * n1 + 1) /\ rc_n2 (recip_tbt L gmax) = Z.of_nat (2 * n2 + 1) /\
    List.length gs = ((2 * n1 + 1) * (2 * n2 + 1))%nat /\ NoDup gs /\
    (forall a p, (a < 2 * n1 + 1)%nat -> (p < 2 * n2 + 1)%nat ->
       nth_error gs (a * (2 * n2 + 1) + p) =
       Some (comb (Z.of_nat a - Z.of_nat n1) (Z.of_nat p - Z.of_nat n2) (lt_b1 L) (lt_b2 L))) /\
    (forall g, In g gs <-> exists i j, (Z.abs i <= Z.of_nat n1)%Z /\ (Z.abs j <= Z.of_nat n2)%Z /\
                                        g = comb i j (lt_b1 L) (lt_b2 L)) /\
    nth_error gs ((List.length gs - 1) / 2) = Some (0, 0) /\
    (forall k, (k < List.length gs)%nat -> nth_error gs (List.length gs - 1 - k) = option_map opp (nth_error gs k)).
Proof. exact tbt_set. Qed.
Print Assumptions C24_tbt_block.
Example C24_example : exists L, lattice_init (LatVecs (1, 0) (1/3, 2)) = Ok L /\ independent (lt_a1 L) (lt_a2 L) /\ 0 <= 3.
Proof.
  destruct (init_vecs (1, 0) (1/3, 2)) as (L & HL & A1 & A2 & _). exists L. split; auto. rewrite A1, A2. unfold independent, det; cbn [fst snd]. lra.
Qed.

(** C25.  Full statement: the set equals the lattice vectors in the circle for
    every lattice.  It holds when the box of candidates covers the circle
    (gm |a_k| |b_k| <= 4 pi gmax); for strongly oblique bases it is false. *)
Theorem C25_abs_set_partial : forall args L gmax fuel r, lattice_init args = Ok L -> independent (lt_a1 L) (lt_a2 L) -> 0 <= gmax ->
  recip_abs fuel L gmax = Some r ->
  exists rc (k : nat), r = Ok rc /\
    let gm := gmax + INR k / 10 ^ 10 in
    ((k = 0%nat) \/ exists g, in_lattice (lt_b1 L) (lt_b2 L) g /\ len g = 2 * PI * gmax) /\
    NoDup (rc_g rc) /\ In (0, 0) (rc_g rc) /\
    (forall g, In g (rc_g rc) -> in_lattice (lt_b1 L) (lt_b2 L) g /\ len g <= 2 * PI * gm /\ In (opp g) (rc_g rc)) /\
    (gm * (len (lt_a1 L) * len (lt_b1 L)) <= 4 * PI * gmax ->
     gm * (len (lt_a2 L) * len (lt_b2 L)) <= 4 * PI * gmax ->
     (forall g, In g (rc_g rc) <-> in_lattice (lt_b1 L) (lt_b2 L) g /\ len g <= 2 * PI * gm) /\
     (forall g, in_lattice (lt_b1 L) (lt_b2 L) g -> len g <> 2 * PI * gm) /\
     (forall f, lattice_isometry (lt_b1 L) (lt_b2 L) f -> forall g, In g (rc_g rc) -> In (f g) (rc_g rc))).
Proof. exact abs_set. Qed.
Print Assumptions C25_abs_set_partial.
(** For the square and hexagonal lattices the covering condition is automatic
    (the corrected cut-off only has to stay below sqrt 3 times the requested
    one). *)
Theorem C25_named_lattices_covered : forall s L gmax gm, lattice_init (LatName s) = Ok L -> 0 <= gm -> gm <= sqrt 3 * gmax ->
  gm * (len (lt_a1 L) * len (lt_b1 L)) <= 4 * PI * gmax /\ gm * (len (lt_a2 L) * len (lt_b2 L)) <= 4 * PI * gmax.
Proof. exact named_condition. Qed.
Print Assumptions C25_named_lattices_covered.
Theorem C25_oblique_refuted : exists L gmax g, lattice_init (LatVecs (1, 0) (10, 1)) = Ok L /\ independent (lt_a1 L) (lt_a2 L) /\
  0 <= gmax /\ in_lattice (lt_b1 L) (lt_b2 L) g /\ len g < 2 * PI * gmax /\
  (exists fuel rc, recip_abs fuel L gmax = Some (Ok rc)) /\
  forall fuel rc, recip_abs fuel L gmax = Some (Ok rc) -> ~ In g (rc_g rc).
Proof. exact abs_oblique. Qed.
Print Assumptions C25_oblique_refuted.

(** C26.  Over the reals the loop always ends, after at most as many steps as
    there are candidates. *)
Theorem C26_loop_terminates_partial : forall args L gmax, lattice_init args = Ok L -> independent (lt_a1 L) (lt_a2 L) -> 0 <= gmax ->
  exists n1 n2 k : nat,
    integer_part (4 * PI * gmax / len (lt_b1 L)) n1 /\ integer_part (4 * PI * gmax / len (lt_b2 L)) n2 /\
    (k <= (2 * n1 + 1) * (2 * n2 + 1))%nat /\
    (forall fuel, (k < fuel)%nat -> exists rc, recip_abs fuel L gmax = Some (Ok rc)) /\
    (forall fuel, (0 < k)%nat -> (fuel <= k)%nat -> recip_abs fuel L gmax = None) /\
    (forall i j, (Z.abs i <= Z.of_nat n1)%Z -> (Z.abs j <= Z.of_nat n2)%Z ->
       len (comb i j (lt_b1 L) (lt_b2 L)) <> 2 * PI * (gmax + INR k / 10 ^ 10)) /\
    (forall m, (m < k)%nat -> exists i j, (Z.abs i <= Z.of_nat n1)%Z /\ (Z.abs j <= Z.of_nat n2)%Z /\
       len (comb i j (lt_b1 L) (lt_b2 L)) = 2 * PI * (gmax + INR m / 10 ^ 10)).
Proof. exact abs_terminates. Qed.
Print Assumptions C26_loop_terminates_partial.
(** In binary64 it need not: for a square lattice of constant 2^-21 (half a
    micron in metres) and gmax = 3/a, adding 1e-10 does not change gmax. *)
Theorem C26_loop_binary64_refuted : exists a1 a2 gmax,
  in_f (two_pi_gmax gmax) (gnorm_f a1 a2 gmax) = true /\
  forall fuel, nudge_f fuel (gnorm_f a1 a2 gmax) gmax = None.
Proof. exact (ex_intro _ _ (ex_intro _ _ (ex_intro _ _ (conj g_w_in float_loop)))). Qed.
Print Assumptions C26_loop_binary64_refuted.
Example C26_example_float_ends : exists g, nudge_f 2 (gnorm_f unit_x unit_y two_f) two_f = Some g /\ PrimFloat.ltb two_f g = true.
Proof. exact float_loop_ok. Qed.

(** C27. *)
Theorem C27_tbt_matrix : forall args L gmax ft, lattice_init args = Ok L -> independent (lt_a1 L) (lt_a2 L) -> 0 <= gmax ->
  conj_symmetric ft ->
  let rc := recip_tbt L gmax in
  let gs := rc_g rc in
  let n := List.length gs in
  let A := eps_mat_tbt ft rc in
  hermitian n A /\
  forall i j gi gj, nth_error gs i = Some gi -> nth_error gs j = Some gj ->
    A i j = ft (diff gi gj) \/
    (A i j = RtoC (fst (ft (diff gi gj))) /\
     exists g g', In g gs /\ In g' gs /\ Rabs (snd (ft (diff gi gj))) < 1 / 10 ^ 10 * Rabs (fst (ft (diff g g')))).
Proof. exact tbt_matrix. Qed.
Print Assumptions C27_tbt_matrix.
(** a layer with an off-centre circle satisfies the hypothesis and has a
    genuinely complex transform *)
Example C27_example : conj_symmetric (layer_ft_at 1 (off_centre 1)) /\
  exists c, 0 < c /\ layer_ft_at 1 (off_centre 1) (2 * PI, 0) = (0, - c) /\ layer_ft_at 1 (off_centre 1) (- (2 * PI), 0) = (0, c).
Proof. exact (conj (off_conj 1) off_ft). Qed.

(** C28.  The entry is the transform at g_j - g_i, the transpose of the 'tbt'
    convention. *)
Theorem C28_abs_matrix_partial : forall args L gmax fuel rc ft, lattice_init args = Ok L -> independent (lt_a1 L) (lt_a2 L) -> 0 <= gmax ->
  conj_symmetric ft -> recip_abs fuel L gmax = Some (Ok rc) ->
  let gs := rc_g rc in
  let A := eps_mat_abs L ft rc in
  hermitian (List.length gs) A /\
  forall i j gi gj, nth_error gs i = Some gi -> nth_error gs j = Some gj -> A i j = ft (diff gj gi).
Proof. exact abs_matrix. Qed.
Print Assumptions C28_abs_matrix_partial.
Theorem C28_abs_equals_tbt_refuted : exists L fuel rc i j i' j' gi gj,
  lattice_init (LatName "square") = Ok L /\ recip_abs fuel L (3/2) = Some (Ok rc) /\
  let rc' := recip_tbt L (3/2) in
  let ft := layer_ft_at (lt_ec_area L) (off_centre (lt_ec_area L)) in
  conj_symmetric ft /\
  nth_error (rc_g rc) i = Some gi /\ nth_error (rc_g rc) j = Some gj /\
  nth_error (rc_g rc') i' = Some gi /\ nth_error (rc_g rc') j' = Some gj /\
  eps_mat_abs L ft rc i j <> ft (diff gi gj) /\ eps_mat_abs L ft rc i j <> eps_mat_tbt ft rc' i' j'.
Proof. exact abs_tbt_differ. Qed.
Print Assumptions C28_abs_equals_tbt_refuted.

(** C76.  'abs': a layer is treated as homogeneous only if its matrix is within
    1e-10 of diagonal; otherwise the stored matrix is the inverse. *)
Theorem C76_abs_shortcut : forall args L gmax fuel rc ft inv, lattice_init args = Ok L -> independent (lt_a1 L) (lt_a2 L) -> 0 <= gmax ->
  conj_symmetric ft -> recip_abs fuel L gmax = Some (Ok rc) -> inverts inv ->
  let gs := rc_g rc in
  let n := List.length gs in
  let A := eps_mat_abs L ft rc in
  let B := eps_inv_abs inv false L ft rc in
  let hom := hom_abs (G1_abs rc) (T1_abs L ft rc) in
  (hom = true ->
     (forall i j gi gj, nth_error gs i = Some gi -> nth_error gs j = Some gj -> 1 / 10 ^ 10 < len (diff gj gi) -> Cmod (A i j) < 1 / 10 ^ 10) /\
     (forall i j, (i < n)%nat -> (j < n)%nat -> B i j = if Nat.eqb i j then Cdiv (RtoC 1) (ft (0, 0)) else RtoC 0)) /\
  (hom = false -> (exists B', is_inverse n A B') -> is_inverse n A B).
Proof. exact hom_abs_sound. Qed.
Print Assumptions C76_abs_shortcut.
(** 'tbt': the test only sees the differences with coefficients of one sign. *)
Theorem C76_tbt_shortcut_partial : forall args L gmax ft inv, lattice_init args = Ok L -> independent (lt_a1 L) (lt_a2 L) -> 0 <= gmax ->
  conj_symmetric ft -> inverts inv ->
  let rc := recip_tbt L gmax in
  let n := List.length (rc_g rc) in
  let A := eps_mat_tbt ft rc in
  let B := eps_inv_tbt inv false ft rc in
  let hom := hom_tbt (T1_tbt ft rc) in
  exists n1 n2 : nat,
    integer_part (2 * PI * gmax / len (lt_b1 L)) n1 /\ integer_part (2 * PI * gmax / len (lt_b2 L)) n2 /\
  (hom = true ->
     (forall a p, (a <= 2 * n1)%nat -> (p <= 2 * n2)%nat -> (0 < a + p)%nat ->
        Rabs (fst (ft (comb (Z.of_nat a) (Z.of_nat p) (lt_b1 L) (lt_b2 L)))) < 1 / 10 ^ 10) /\
     (forall i j, (i < n)%nat -> (j < n)%nat -> B i j = if Nat.eqb i j then Cdiv (RtoC 1) (ft (0, 0)) else RtoC 0)) /\
  (hom = false -> (exists B', is_inverse n A B') -> is_inverse n A B).
Proof. exact hom_tbt_partial. Qed.
Print Assumptions C76_tbt_shortcut_partial.
(** Five equal circles on the cell diagonal: treated as homogeneous although
    the permittivity matrix is not diagonal. *)
Theorem C76_tbt_shortcut_refuted : exists L ly i j, lattice_init (LatName "square") = Ok L /\
  let ft := layer_ft_at (lt_ec_area L) ly in
  let rc := recip_tbt L 1 in
  let n := List.length (rc_g rc) in
  conj_symmetric ft /\ (i < n)%nat /\ (j < n)%nat /\
  hom_tbt (T1_tbt ft rc) = true /\ eps_mat_tbt ft rc i j <> RtoC 0 /\ i <> j /\
  forall inv, ~ is_inverse n (eps_mat_tbt ft rc) (eps_inv_tbt inv false ft rc).
Proof. exact hom_tbt_wrong. Qed.
Print Assumptions C76_tbt_shortcut_refuted.
