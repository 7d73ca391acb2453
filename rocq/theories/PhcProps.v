(** Properties of layered structures (C08-C17). *)
From Coq Require Import Permutation.
From Verif Require Import Py LatticeModel LatticeSpec LatticeProofs CBase PhcModel PhcSpec PhcProofs PhcProofs2 PhcProofs3 PhcProofs4 PhcProofs5.
Open Scope R_scope.

(** A history used by the examples below: two good layers, one rejected call,
    a shape in the first layer, a quantum well. *)
Definition demo_shape : shape := disc (fun _ => RtoC 0) 1 0 0 (1/5).
Definition demo_ops : list op :=
  [OpLayer (1/2) 12 "shapes"; OpLayer 1 9 "foo"; OpLayer (3/10) 2 "Shapes";
   OpShape (ShOne demo_shape) 0 CladNone; OpShape (ShMany [Some demo_shape; None]) (-1) CladNone;
   OpQW (mkQW (1/4) 0 0 0 0 0 [])].

(** C08. *)
Theorem C08_stack_is_contiguous : forall L eps_l eps_u ops,
  let P := run_ops (phc_init L eps_l eps_u) ops in
  let ds := thicknesses ops in
  List.length (pc_layers P) = List.length ds /\
  (forall i ly, nth_error (pc_layers P) i = Some ly ->
     exists d, nth_error ds i = Some d /\ ly_zmin ly = total (firstn i ds) /\
       ly_zmax ly = total (firstn (S i) ds) /\ ly_d ly = d) /\
  ly_zmax (pc_clad_l P) = 0 /\ ly_zmin (pc_clad_l P) = - 10 ^ 10 /\
  ly_zmin (pc_clad_u P) = total ds /\ ly_zmax (pc_clad_u P) = 10 ^ 10.
Proof. exact stack_contiguous. Qed.
Print Assumptions C08_stack_is_contiguous.
Example C08_example : thicknesses demo_ops = [1/2; 3/10].
Proof. reflexivity. Qed.

(** What else a history leaves behind: centres, backgrounds, lattice, wells. *)
Theorem C08_history_contents : forall L eps_l eps_u ops,
  let P := run_ops (phc_init L eps_l eps_u) ops in
  let ds := thicknesses ops in
  pc_lattice P = L /\ pc_qws P = wells 0 ops /\ ly_epsb (pc_clad_l P) = eps_l /\ ly_epsb (pc_clad_u P) = eps_u /\
  map ly_epsb (pc_layers P) = backgrounds ops /\
  forall i ly, nth_error (pc_layers P) i = Some ly ->
    exists d, nth_error ds i = Some d /\ ly_zmid ly = total (firstn i ds) + d / 2.
Proof. exact history_contents. Qed.
Print Assumptions C08_history_contents.
Example C08_contents_example : backgrounds demo_ops = [12; 2] /\ List.length (wells 0 demo_ops) = 1%nat.
Proof.
  split; [reflexivity|]. cbn [demo_ops wells qw_z lower]. 
  cbv -[Rlt_dec Rplus Rmult Rinv Rdiv IZR].
  destruct (Rlt_dec 0 (1 / 4)); [|exfalso; lra]. destruct (Rlt_dec (1 / 4) (0 + 1 / 2 + 3 / 10)); [reflexivity|exfalso; lra].
Qed.

(** C09. *)
Theorem C09_every_height_in_one_region : forall L eps_l eps_u ops z,
  let P := run_ops (phc_init L eps_l eps_u) ops in
  Forall (fun d => 0 <= d) (thicknesses ops) -> - 10 ^ 10 <= z < 10 ^ 10 ->
  exists! i, region_has P i z.
Proof. exact exactly_one_region. Qed.
Print Assumptions C09_every_height_in_one_region.

(** The crystal's map restricted to a region is that region's map, and points
    outside every region get 0. *)
Theorem C09_get_eps_uses_that_region : forall L eps_l eps_u ops pts,
  let P := run_ops (phc_init L eps_l eps_u) ops in
  Forall (fun d => 0 <= d) (thicknesses ops) ->
  exists res, phc_get_eps P pts = Ok res /\ List.length res = List.length pts /\
   (forall ly, In ly (pc_layers P ++ [pc_clad_l P; pc_clad_u P]) ->
      filter (in_height ly) pts <> [] ->
      layer_get_eps (pc_lattice P) ly (map fst (filter (in_height ly) pts)) =
        Ok (map snd (filter (fun pr => in_height ly (fst pr)) (combine pts res)))) /\
   (forall j p v, nth_error pts j = Some p -> nth_error res j = Some v ->
      (forall i, ~ region_has P i (snd p)) -> v = 0).
Proof. exact get_eps_regions. Qed.
Print Assumptions C09_get_eps_uses_that_region.

Theorem C09_nothing_outside : forall L eps_l eps_u ops z,
  let P := run_ops (phc_init L eps_l eps_u) ops in
  Forall (fun d => 0 <= d) (thicknesses ops) -> total (thicknesses ops) <= 10 ^ 10 ->
  (z < - 10 ^ 10 \/ 10 ^ 10 <= z) -> forall i, ~ region_has P i z.
Proof. exact outside_no_region. Qed.
Print Assumptions C09_nothing_outside.
Example C09_example : Forall (fun d => 0 <= d) (thicknesses demo_ops) /\
  total (thicknesses demo_ops) <= 10 ^ 10 /\ - 10 ^ 10 <= 1/4 < 10 ^ 10.
Proof.
  assert (1 < 10 ^ 10) by (apply Rlt_pow_R1; [lra|lia]).
  split; [repeat constructor; lra|]. simpl total. split; lra.
Qed.

(** C10.  Refuted: at an interface the two disagree (the look-up takes the
    region below, the permittivity map the one above).  Away from interfaces
    they agree. *)
Theorem C10_lookup_matches_map_refuted : forall L eps_l eps_u, exists ops z,
  let P := run_ops (phc_init L eps_l eps_u) ops in
  Forall (fun d => 0 < d) (thicknesses ops) /\ - 10 ^ 10 <= z < 10 ^ 10 /\
  exists ly, lind_layer P (z_to_lind P z) = Some ly /\ ~ (ly_zmin ly <= z < ly_zmax ly).
Proof. exact lookup_refuted. Qed.
Print Assumptions C10_lookup_matches_map_refuted.

Theorem C10_lookup_wrong_at_every_interface : forall L eps_l eps_u ops i,
  let P := run_ops (phc_init L eps_l eps_u) ops in
  let ds := thicknesses ops in
  Forall (fun d => 0 < d) ds -> (i <= List.length ds)%nat -> total ds < 10 ^ 10 ->
  exists below above,
    lind_layer P (z_to_lind P (total (firstn i ds))) = Some below /\
    lind_layer P (S (z_to_lind P (total (firstn i ds)))) = Some above /\
    ly_zmin above <= total (firstn i ds) < ly_zmax above /\
    ~ (ly_zmin below <= total (firstn i ds) < ly_zmax below).
Proof. exact lookup_at_interface. Qed.
Print Assumptions C10_lookup_wrong_at_every_interface.

Theorem C10_lookup_matches_map_partial : forall L eps_l eps_u ops z,
  let P := run_ops (phc_init L eps_l eps_u) ops in
  let ds := thicknesses ops in
  - 10 ^ 10 <= z < 10 ^ 10 ->
  (forall i, (i <= List.length ds)%nat -> z <> total (firstn i ds)) ->
  exists ly, lind_layer P (z_to_lind P z) = Some ly /\ ly_zmin ly <= z < ly_zmax ly.
Proof. exact lookup_agrees. Qed.
Print Assumptions C10_lookup_matches_map_partial.
Example C10_example : forall i, (i <= List.length (thicknesses demo_ops))%nat ->
  6/10 <> total (firstn i (thicknesses demo_ops)).
Proof. intros [|[|[|i]]] H; simpl in *; try lia; lra. Qed.

(** C11. *)
Theorem C11_accepted_well_stays_inside : forall L eps_l eps_u ops1 q ops2,
  let P0 := run_ops (phc_init L eps_l eps_u) ops1 in
  snd (add_qw P0 q) = None ->
  let P := run_ops (fst (add_qw P0 q)) ops2 in
  (1 <= z_to_lind P (qw_z q) <= List.length (pc_layers P))%nat.
Proof. exact qw_stays_inside. Qed.
Print Assumptions C11_accepted_well_stays_inside.

Theorem C11_rejection_condition : forall L eps_l eps_u ops q,
  let P := run_ops (phc_init L eps_l eps_u) ops in
  (snd (add_qw P q) = Some ValueError <-> (qw_z q <= 0 \/ total (thicknesses ops) <= qw_z q)) /\
  (snd (add_qw P q) = None \/ snd (add_qw P q) = Some ValueError).
Proof. exact qw_rejected_iff. Qed.
Print Assumptions C11_rejection_condition.
Example C11_example : forall L, snd (add_qw (run_ops (phc_init L 1 1) demo_ops) (mkQW (1/4) 0 0 0 0 0 [])) = None.
Proof.
  intros L. destruct (qw_rejected_iff L 1 1 demo_ops (mkQW (1/4) 0 0 0 0 0 [])) as [H [E|E]]; auto.
  apply H in E. simpl in E. destruct E; lra.
Qed.

(** C12.  Refuted: a list with a non-shape in it raises after the shapes
    before it were already added.  That is the only way to lose atomicity. *)
Theorem C12_failed_edit_changes_nothing_refuted : forall L eps_l eps_u s, exists ops o,
  let P := run_ops (phc_init L eps_l eps_u) ops in
  snd (step P o) = Some ValueError /\ fst (step P o) <> P /\
  o = OpShape (ShMany [Some s; None]) (-1) CladNone.
Proof. exact rejected_refuted. Qed.
Print Assumptions C12_failed_edit_changes_nothing_refuted.

Theorem C12_failed_edit_changes_nothing_partial : forall P o e,
  snd (step P o) = Some e ->
  (forall s l li c, o <> OpShape (ShMany (Some s :: l)) li c) -> fst (step P o) = P.
Proof. exact rejected_unchanged. Qed.
Print Assumptions C12_failed_edit_changes_nothing_partial.

Theorem C12_what_a_failed_list_leaves_behind : forall P pre rest li c,
  snd (step P (OpShape (ShMany (map Some pre ++ None :: rest)) li c)) <> None /\
  (snd (step P (OpShape (ShMany (map Some pre)) li c)) = None ->
   fst (step P (OpShape (ShMany (map Some pre ++ None :: rest)) li c)) =
   fst (step P (OpShape (ShMany (map Some pre)) li c))).
Proof. exact rejected_list_keeps_prefix. Qed.
Print Assumptions C12_what_a_failed_list_leaves_behind.

Theorem C12_successful_add_shape_frame : forall P a li c,
  snd (step P (OpShape a li c)) = None ->
  exists ss pos ly ly',
    holds_shapes a ss /\
    target_pos (List.length (pc_layers P)) li c = Some pos /\
    let P' := fst (step P (OpShape a li c)) in
    pc_lattice P' = pc_lattice P /\ pc_qws P' = pc_qws P /\
    List.length (pc_layers P') = List.length (pc_layers P) /\
    nth_error (pc_layers P ++ [pc_clad_l P; pc_clad_u P]) pos = Some ly /\
    nth_error (pc_layers P' ++ [pc_clad_l P'; pc_clad_u P']) pos = Some ly' /\
    (forall j, j <> pos -> nth_error (pc_layers P' ++ [pc_clad_l P'; pc_clad_u P']) j =
                        nth_error (pc_layers P ++ [pc_clad_l P; pc_clad_u P]) j) /\
    ly_shapes ly' = ly_shapes ly ++ ss /\ ly_epsb ly' = ly_epsb ly /\ ly_zmin ly' = ly_zmin ly /\
    ly_zmax ly' = ly_zmax ly /\ ly_zmid ly' = ly_zmid ly /\ ly_d ly' = ly_d ly.
Proof. exact add_shape_frame. Qed.
Print Assumptions C12_successful_add_shape_frame.
(** Which exception: the place first (nothing changes then), the shapes afterwards. *)
Theorem C12_add_shape_errors : forall P a li c,
  (target_pos (List.length (pc_layers P)) li c = None -> step P (OpShape a li c) =
     (P, Some (match c with CladNone => if (li <? 0)%Z then IndexError else ValueError | _ => ValueError end))) /\
  (target_pos (List.length (pc_layers P)) li c <> None -> snd (step P (OpShape a li c)) =
     match a with ShNotIterable => Some TypeError | ShOne _ => None | ShMany l => if existsb (fun o => match o with None => true | Some _ => false end) l then Some ValueError else None end).
Proof. exact add_shape_errors. Qed.
Print Assumptions C12_add_shape_errors.
Example C12_example : forall L, let P := run_ops (phc_init L 1 1) demo_ops in
  snd (step P (OpShape (ShMany [Some demo_shape; Some demo_shape]) (-2) CladNone)) = None /\
  snd (step P (OpShape (ShOne demo_shape) 5 CladNone)) = Some ValueError /\
  snd (step P (OpLayer 1 1 "foo")) = Some ValueError.
Proof.
  intros L P. assert (H : List.length (pc_layers P) = 2%nat).
  { destruct (stack_contiguous L 1 1 demo_ops) as [H _]. exact H. }
  simpl. unfold phc_add_shape; simpl. rewrite H. simpl.
  destruct (pc_layers P) as [|l0 [|l1 [|]]]; try discriminate. simpl. auto.
Qed.

(** C13. *)
Theorem C13_average_permittivity : forall L eps_l eps_u ops ly,
  let P := run_ops (phc_init L eps_l eps_u) ops in region_of P ly ->
  ly_epsavg ly = mean_eps (lt_ec_area L) (ly_epsb ly) (ly_shapes ly).
Proof. exact eps_avg_mean. Qed.
Print Assumptions C13_average_permittivity.

Theorem C13_order_and_grouping_irrelevant : forall L eps_l eps_u ops ops' ly ly' g,
  region_of (run_ops (phc_init L eps_l eps_u) ops) ly ->
  region_of (run_ops (phc_init L eps_l eps_u) ops') ly' ->
  Permutation (ly_shapes ly) (ly_shapes ly') -> ly_epsb ly = ly_epsb ly' ->
  layer_ft_at (lt_ec_area L) ly g = layer_ft_at (lt_ec_area L) ly' g /\ ly_epsavg ly = ly_epsavg ly'.
Proof. exact layer_ft_order_reach. Qed.
Print Assumptions C13_order_and_grouping_irrelevant.

Theorem C13_average_between_bounds : forall L eps_l eps_u ops ly lo hi,
  let P := run_ops (phc_init L eps_l eps_u) ops in region_of P ly ->
  0 < lt_ec_area L ->
  (forall s, In s (ly_shapes ly) -> 0 <= sh_area s /\ lo <= sh_eps s <= hi) -> lo <= ly_epsb ly <= hi ->
  total (map sh_area (ly_shapes ly)) <= lt_ec_area L -> lo <= ly_epsavg ly <= hi.
Proof. exact eps_avg_between. Qed.
Print Assumptions C13_average_between_bounds.
Example C13_example : exists L ly, lattice_init (LatName "square") = Ok L /\
  region_of (run_ops (phc_init L 1 1) demo_ops) ly /\ List.length (ly_shapes ly) = 1%nat.
Proof.
  eexists. eexists. split; [reflexivity|].
  set (L := mkLattice _ _ _ _ _ _ _).
  change demo_ops with ([OpLayer (1/2) 12 "shapes"; OpLayer 1 9 "foo"; OpLayer (3/10) 2 "Shapes";
     OpShape (ShOne demo_shape) 0 CladNone; OpShape (ShMany [Some demo_shape; None]) (-1) CladNone] ++
     [OpQW (mkQW (1/4) 0 0 0 0 0 [])]).
  rewrite run_ops_app. unfold run_ops at 1. cbn [fold_left step]. unfold add_qw.
  match goal with |- context[if ?b then _ else _] => destruct b end;
  (split; [left; left; reflexivity|reflexivity]).
Qed.

(** C14. *)
Theorem C14_layer_transform : forall area ly g, area <> 0 ->
  (is_g0 g -> layer_ft_at area ly g = RtoC (ly_epsavg ly)) /\
  (~ is_g0 g -> layer_ft_at area ly g =
     Cdiv (clsum (map (fun s => Cmult (RtoC (sh_eps s - ly_epsb ly)) (sh_ft s g)) (ly_shapes ly))) (RtoC area)).
Proof. exact layer_ft_laws. Qed.
Print Assumptions C14_layer_transform.

Theorem C14_order_irrelevant : forall L eps_l eps_u ops ops' ly ly' g,
  region_of (run_ops (phc_init L eps_l eps_u) ops) ly ->
  region_of (run_ops (phc_init L eps_l eps_u) ops') ly' ->
  Permutation (ly_shapes ly) (ly_shapes ly') -> ly_epsb ly = ly_epsb ly' ->
  layer_ft_at (lt_ec_area L) ly g = layer_ft_at (lt_ec_area L) ly' g /\ ly_epsavg ly = ly_epsavg ly'.
Proof. exact layer_ft_order_reach. Qed.
Print Assumptions C14_order_irrelevant.

Theorem C14_background_shape_contributes_nothing : forall area ly s g, sh_eps s = ly_epsb ly ->
  layer_ft_at area (fst (layer_add_shape area ly (ShOne s))) g = layer_ft_at area ly g.
Proof. exact layer_ft_background. Qed.
Print Assumptions C14_background_shape_contributes_nothing.

Theorem C14_conjugate_symmetry : forall area ly g,
  (forall s, In s (ly_shapes ly) -> sh_ft s (- fst g, - snd g) = Cconj (sh_ft s g)) ->
  layer_ft_at area ly (- fst g, - snd g) = Cconj (layer_ft_at area ly g).
Proof. exact layer_ft_herm. Qed.
Print Assumptions C14_conjugate_symmetry.
Example C14_example : is_g0 (0, 0) /\ ~ is_g0 (1, 2) /\
  (let s := disc (fun g => expi (fst g)) 1 0 0 1 in sh_ft s (- (1), - (2)) = Cconj (sh_ft s (1, 2))).
Proof.
  pose proof (Rinv_0_lt_compat _ ten10_pos). assert (1 < 10 ^ 10) by (apply Rlt_pow_R1; [lra|lia]).
  unfold is_g0; simpl fst; simpl snd. rewrite Rabs_R0, !Rabs_pos_eq by lra. split; [lra|]. split.
  - assert (/ 10 ^ 10 < / 1) by (apply Rinv_lt_contravar; lra). lra.
  - simpl. rewrite expi_conj. auto.
Qed.

(** C15. *)
Theorem C15_last_shape_wins : forall L ly pts vs j p v,
  layer_get_eps L ly pts = Ok vs -> nth_error pts j = Some p -> nth_error vs j = Some v ->
  last_wins (fun s => covers L (nmax_of L pts) s p) (ly_epsb ly) (ly_shapes ly) v.
Proof. exact layer_value. Qed.
Print Assumptions C15_last_shape_wins.

(** [last_wins] determines the value. *)
Theorem C15_last_shape_wins_functional : forall cov e ss v w,
  last_wins cov e ss v -> last_wins cov e ss w -> v = w.
Proof. exact last_wins_fun. Qed.
Print Assumptions C15_last_shape_wins_functional.

Theorem C15_bounds_are_attained_and_bound : forall P, let '(lo, hi) := get_eps_bounds P in
  present P lo /\ present P hi /\ forall e, present P e -> lo <= e <= hi.
Proof. exact bounds_correct. Qed.
Print Assumptions C15_bounds_are_attained_and_bound.

Theorem C15_map_within_bounds : forall L eps_l eps_u ops pts res j p v,
  let P := run_ops (phc_init L eps_l eps_u) ops in phc_get_eps P pts = Ok res ->
  nth_error pts j = Some p -> nth_error res j = Some v -> - 10 ^ 10 <= snd p < 10 ^ 10 ->
  fst (get_eps_bounds P) <= v <= snd (get_eps_bounds P).
Proof. exact get_eps_in_bounds_reach. Qed.
Print Assumptions C15_map_within_bounds.
Example C15_example : forall L, exists res, phc_get_eps (run_ops (phc_init L 1 1) demo_ops) [(0, 0, 1/4)] = Ok res /\
  List.length res = 1%nat.
Proof.
  intros L. destruct (get_eps_regions L 1 1 demo_ops [(0, 0, 1/4)]) as (res & H & Hl & _).
  - repeat constructor; lra.
  - eauto.
Qed.

(** C16.  Refuted in both halves: the value at a point can depend on which other
    points are queried (a shape two periods away from the origin cell), and in a
    hexagonal lattice the map is not periodic (a hole at the origin is missing
    at the lattice point 20 a1 + 10 a2). *)
Theorem C16_pointwise_refuted : exists L, lattice_init (LatName "square") = Ok L /\
  forall ft, exists ly p q vs ws,
   ly = fst (layer_add_shape (lt_ec_area L) (shapes_layer 0 1 12) (ShOne (disc ft 1 2 0 (1/5)))) /\
   layer_get_eps L ly [p] = Ok vs /\ layer_get_eps L ly [p; q] = Ok ws /\
   nth_error vs 0 = Some 12 /\ nth_error ws 0 = Some 1.
Proof. exact pointwise_refuted. Qed.
Print Assumptions C16_pointwise_refuted.

Theorem C16_periodic_refuted : exists L, lattice_init (LatName "hexagonal") = Ok L /\
  forall ft, exists ly vs ws,
   ly = fst (layer_add_shape (lt_ec_area L) (shapes_layer 0 1 12) (ShOne (disc ft 1 0 0 (1/5)))) /\
   layer_get_eps L ly [(0, 0)] = Ok vs /\
   layer_get_eps L ly [comb 20 10 (lt_a1 L) (lt_a2 L)] = Ok ws /\
   nth_error vs 0 = Some 1 /\ nth_error ws 0 = Some 12.
Proof. exact periodic_refuted. Qed.
Print Assumptions C16_periodic_refuted.

(** True for every orthogonal lattice when the shapes lie within one period of
    the origin. *)
Theorem C16_orthogonal_lattices_partial : forall L ly pts pts' vs vs' j j' p p' v v' m n,
  independent (lt_a1 L) (lt_a2 L) -> inner (lt_a1 L) (lt_a2 L) = 0 ->
  (forall s, In s (ly_shapes ly) -> within_one_period L s) ->
  layer_get_eps L ly pts = Ok vs -> nth_error pts j = Some p -> nth_error vs j = Some v ->
  layer_get_eps L ly pts' = Ok vs' -> nth_error pts' j' = Some p' -> nth_error vs' j' = Some v' ->
  p' = (fst p + fst (comb m n (lt_a1 L) (lt_a2 L)), snd p + snd (comb m n (lt_a1 L) (lt_a2 L))) ->
  v' = v.
Proof. exact orth_periodic. Qed.
Print Assumptions C16_orthogonal_lattices_partial.

Theorem C16_true_periodic_map_partial : forall L ly pts vs j p v,
  independent (lt_a1 L) (lt_a2 L) -> inner (lt_a1 L) (lt_a2 L) = 0 ->
  (forall s, In s (ly_shapes ly) -> within_one_period L s) ->
  layer_get_eps L ly pts = Ok vs -> nth_error pts j = Some p -> nth_error vs j = Some v ->
  last_wins (fun s => covers_any L s p) (ly_epsb ly) (ly_shapes ly) v.
Proof. exact orth_value. Qed.
Print Assumptions C16_true_periodic_map_partial.
Example C16_example : exists L, lattice_init (LatName "square") = Ok L /\
  independent (lt_a1 L) (lt_a2 L) /\ inner (lt_a1 L) (lt_a2 L) = 0 /\
  within_one_period L (disc (fun _ => RtoC 0) 1 (3/10) 0 (2/5)).
Proof.
  eexists; split; [reflexivity|]. unfold independent, det, inner, within_one_period; simpl.
  split; [lra|]. split; [lra|]. intros x y H.
  destruct (Rle_dec _ _) as [Hd|]; [|discriminate]. unfold Rsqr in *. clear H.
  pose proof (Rle_0_sqr (x - 3/10)) as Q1. pose proof (Rle_0_sqr (y - 0)) as Q2. unfold Rsqr in Q1, Q2.
  split; apply Rabs_def1; nra.
Qed.

(** C17.  Refuted for two shapes unless the cell area is 1; true for one shape,
    and for any number of shapes when the cell area is 1. *)
Theorem C17_exciton_potential_refuted : exists L ly s1 s2 Vmax,
  lattice_init (LatVecs (2, 0) (0, 1)) = Ok L /\ ly_shapes ly = [s1; s2] /\ 0 < Vmax /\
  sh_ft s1 (0,0) = RtoC (sh_area s1) /\ sh_ft s2 (0,0) = RtoC (sh_area s2) /\
  0 < sh_area s1 /\ 0 < sh_area s2 /\
  exists v, layer_exc_ft (lt_ec_area L) ly Vmax [(0,0)] = Ok [v] /\
   v <> Cdiv (Cmult (RtoC Vmax) (clsum (map (fun s => sh_ft s (0,0)) (ly_shapes ly)))) (RtoC (lt_ec_area L)).
Proof. exact exc_ft_refuted. Qed.
Print Assumptions C17_exciton_potential_refuted.

Theorem C17_one_shape_partial : forall area ly s Vmax gs, 0 < area -> ly_shapes ly = [s] -> 0 < Vmax ->
  (exists g, In g gs /\ is_g0 g) ->
  (forall g, In g gs -> is_g0 g -> 0 <= fst (sh_ft s g) /\ snd (sh_ft s g) = 0) ->
  layer_exc_ft area ly Vmax gs = Ok (map (fun g => Cdiv (Cmult (RtoC Vmax) (sh_ft s g)) (RtoC area)) gs).
Proof. exact exc_ft_one_shape. Qed.
Print Assumptions C17_one_shape_partial.

Theorem C17_unit_cell_area_partial : forall area ly Vmax gs, area = 1 -> 0 < Vmax ->
  (exists g, In g gs /\ is_g0 g) ->
  (forall s g, In s (ly_shapes ly) -> In g gs -> is_g0 g -> 0 <= fst (sh_ft s g) /\ snd (sh_ft s g) = 0) ->
  layer_exc_ft area ly Vmax gs =
    Ok (map (fun g => Cdiv (Cmult (RtoC Vmax) (clsum (map (fun s => sh_ft s g) (ly_shapes ly)))) (RtoC area)) gs).
Proof. exact exc_ft_unit_area. Qed.
Print Assumptions C17_unit_cell_area_partial.
Example C17_example : exists L, lattice_init (LatName "square") = Ok L /\ lt_ec_area L = 1 /\
  (exists g, In g [(1,0); (0,0)] /\ is_g0 g).
Proof.
  eexists; split; [reflexivity|]. simpl. split.
  - unfold norm3, cross3, dot3; simpl. match goal with |- sqrt ?x = 1 => replace x with 1 by ring end. apply sqrt_1.
  - exists (0,0); split; [right; left; auto|]. unfold is_g0; simpl. rewrite Rabs_R0.
    pose proof (Rinv_0_lt_compat _ ten10_pos). simpl in *. lra.
Qed.

(** An attractive potential of one shape is shifted to vanish inside the shape. *)
Theorem C17_attractive_partial : forall area ly s Vmax gs, 0 < area -> ly_shapes ly = [s] -> Vmax < 0 ->
  (exists g, In g gs /\ is_g0 g) ->
  (forall g, In g gs -> is_g0 g -> 0 < fst (sh_ft s g)) ->
  exists res, layer_exc_ft area ly Vmax gs = Ok res /\ List.length res = List.length gs /\
  forall i g, nth_error gs i = Some g ->
    (is_g0 g -> nth_error res i = Some (Cplus (Cdiv (Cmult (RtoC Vmax) (sh_ft s g)) (RtoC area)) (RtoC (- Vmax)))) /\
    (~ is_g0 g -> nth_error res i = Some (Cdiv (Cmult (RtoC Vmax) (sh_ft s g)) (RtoC area))).
Proof. exact exc_ft_attractive. Qed.
Print Assumptions C17_attractive_partial.

(** C107. *)
Theorem C107_vertical_grid : forall L eps_l eps_u ops Nz dst, let P := run_ops (phc_init L eps_l eps_u) ops in
  (thicknesses ops = [] -> z_grid P Nz dst = Raise IndexError) /\
  (thicknesses ops <> [] -> exists zs, z_grid P Nz dst = Ok zs /\ List.length zs = Nz /\
     ((2 <= Nz)%nat -> forall i, (i < Nz)%nat -> nth i zs 0 = - dst + INR i * ((total (thicknesses ops) + 2 * dst) / (INR Nz - 1)))).
Proof. exact z_grid_spans. Qed.
Print Assumptions C107_vertical_grid.
Example C107_example : thicknesses demo_ops <> [].
Proof. discriminate. Qed.
