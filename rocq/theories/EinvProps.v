(** Property theorems for the invariances of the exciton energies: C139-C141. *)
From Coq Require Import List.
From Verif Require Import Py CBase LatticeModel LatticeSpec PhcModel PhcSpec ShapesModel ShapesSpec RecipModel RecipSpec MatElModel RunModel RunSpec PweSpec PweModel ExcSpec ExcModel.
From Verif Require Import InvSpec InvProofs7 EinvSpec EinvProofs2 EinvProofs3 EinvProofs4 EinvProofs5 EinvProofs6.
Open Scope R_scope.
Open Scope list_scope.

(** ** C139: moving the potential *)
(** Two structures on the same lattice; the potential of the second is that of the
    first moved by t.  Both runs succeed and report the same energies. *)
Theorem C139_moved argsort eigh : sorts argsort -> diagonalises eigh ->
  forall fuel P P' z z' V V' a M E0 loss osc osc' gmax tr args pot pot' s s' t ks m,
  exc_init fuel P z V a M E0 loss osc gmax tr = Some (Ok s) -> exc_init fuel P' z' V' a M E0 loss osc' gmax tr = Some (Ok s') -> pc_lattice P' = pc_lattice P ->
  tr = "tbt"%string \/ tr = "abs"%string -> lattice_init args = Ok (pc_lattice P) -> independent (lt_a1 (pc_lattice P)) (lt_a2 (pc_lattice P)) -> 0 <= gmax ->
  conj_symmetric pot -> transform_of (lt_ec_area (pc_lattice P)) (ex_layer s) V (rc_g (ex_rc s)) pot ->
  conj_symmetric pot' -> transform_of (lt_ec_area (pc_lattice P)) (ex_layer s') V' (rc_g (ex_rc s)) pot' ->
  moved_on (difference_of (rc_g (ex_rc s))) t pot pot' -> ks <> [] ->
  let r := exc_run argsort eigh s ks m in let r' := exc_run argsort eigh s' ks m in
  snd r = Ok tt /\ snd r' = Ok tt /\ ex_eners (fst r') = ex_eners (fst r) /\ exists es, ex_eners (fst r) = Some es /\ List.length es = List.length ks.
Proof. exact (moved_exc argsort eigh). Qed.
Print Assumptions C139_moved.
(** a disc at c and the same disc at c + t *)
Example C139_example argsort eigh : sorts argsort -> diagonalises eigh ->
  forall L c t V a M E0 loss gmax ks m, lattice_init (LatName "square") = Ok L -> 0 <= gmax -> 0 < V -> ks <> [] ->
  exists s s', exc_init 0 (dot_phc c L) (1/2) V a M E0 loss OscNone gmax "tbt" = Some (Ok s) /\
    exc_init 0 (dot_phc (fst c + fst t, snd c + snd t) L) (1/2) V a M E0 loss OscNone gmax "tbt" = Some (Ok s') /\
    let r := exc_run argsort eigh s ks m in let r' := exc_run argsort eigh s' ks m in
    snd r = Ok tt /\ snd r' = Ok tt /\ ex_eners (fst r') = ex_eners (fst r) /\ exists es, ex_eners (fst r) = Some es /\ List.length es = List.length ks.
Proof. exact (dot_moved argsort eigh). Qed.

(** ** C140: -k, symmetric k, units *)
(** k and -k, whatever the shape of the potential *)
Theorem C140_reversed argsort eigh : sorts argsort -> diagonalises eigh ->
  forall fuel P z V a M E0 loss osc gmax tr args pot s ks m, exc_init fuel P z V a M E0 loss osc gmax tr = Some (Ok s) ->
  tr = "tbt"%string \/ tr = "abs"%string -> lattice_init args = Ok (pc_lattice P) -> independent (lt_a1 (pc_lattice P)) (lt_a2 (pc_lattice P)) -> 0 <= gmax ->
  conj_symmetric pot -> transform_of (lt_ec_area (pc_lattice P)) (ex_layer s) V (rc_g (ex_rc s)) pot -> ks <> [] ->
  let r := exc_run argsort eigh s ks m in let r' := exc_run argsort eigh s (map opp ks) m in
  snd r = Ok tt /\ snd r' = Ok tt /\ ex_eners (fst r') = ex_eners (fst r) /\ exists es, ex_eners (fst r) = Some es /\ List.length es = List.length ks.
Proof. exact (reversed_exc argsort eigh). Qed.
Print Assumptions C140_reversed.
(** k and T k, for a symmetry T of the potential and of the set of plane waves *)
Theorem C140_symmetry argsort eigh : sorts argsort -> diagonalises eigh ->
  forall fuel P z V a M E0 loss osc gmax tr args pot s T ks m, exc_init fuel P z V a M E0 loss osc gmax tr = Some (Ok s) ->
  tr = "tbt"%string \/ tr = "abs"%string -> lattice_init args = Ok (pc_lattice P) -> independent (lt_a1 (pc_lattice P)) (lt_a2 (pc_lattice P)) -> 0 <= gmax ->
  conj_symmetric pot -> transform_of (lt_ec_area (pc_lattice P)) (ex_layer s) V (rc_g (ex_rc s)) pot ->
  linear_isometry T -> closed_under T (rc_g (ex_rc s)) -> invariant_on (difference_of (rc_g (ex_rc s))) T pot -> ks <> [] ->
  let r := exc_run argsort eigh s ks m in let r' := exc_run argsort eigh s (map T ks) m in
  snd r = Ok tt /\ snd r' = Ok tt /\ ex_eners (fst r') = ex_eners (fst r) /\ exists es, ex_eners (fst r) = Some es /\ List.length es = List.length ks.
Proof.
  exact (fun Hs He fuel P z V a M E0 loss osc gmax tr args pot s T ks m HI Htr HL Hi Hg Hc Ht HT CT IV =>
    sym_exc argsort eigh Hs He fuel P z V a M E0 loss osc gmax tr args pot s T ks m HI Htr HL Hi Hg Hc Ht HT CT (or_introl IV)).
Qed.
Print Assumptions C140_symmetry.
(** the quarter turn, for a disc in the middle of the square cell *)
Example C140_example argsort eigh : sorts argsort -> diagonalises eigh ->
  forall L V a M E0 loss ks m, lattice_init (LatName "square") = Ok L -> 0 < V -> ks <> [] ->
  exists s, exc_init 0 (dot_phc (0, 0) L) (1/2) V a M E0 loss OscNone 1 "tbt" = Some (Ok s) /\
    let r := exc_run argsort eigh s ks m in let r' := exc_run argsort eigh s (map quarter ks) m in
    snd r = Ok tt /\ snd r' = Ok tt /\ ex_eners (fst r') = ex_eners (fst r) /\ exists es, ex_eners (fst r) = Some es /\ List.length es = List.length ks.
Proof. exact (dot_turned argsort eigh). Qed.
(** the mass and the lattice constant enter only as M a^2 *)
Theorem C140_units argsort eigh : sorts argsort -> diagonalises eigh ->
  forall fuel P z V a M a' M' E0 loss osc osc' gmax tr args pot s s' ks m,
  exc_init fuel P z V a M E0 loss osc gmax tr = Some (Ok s) -> exc_init fuel P z V a' M' E0 loss osc' gmax tr = Some (Ok s') ->
  tr = "tbt"%string \/ tr = "abs"%string -> lattice_init args = Ok (pc_lattice P) -> independent (lt_a1 (pc_lattice P)) (lt_a2 (pc_lattice P)) -> 0 <= gmax ->
  conj_symmetric pot -> transform_of (lt_ec_area (pc_lattice P)) (ex_layer s) V (rc_g (ex_rc s)) pot -> ks <> [] ->
  0 < a -> 0 < a' -> 0 < M -> 0 < M' -> M' * a' ^ 2 = M * a ^ 2 ->
  let r := exc_run argsort eigh s ks m in let r' := exc_run argsort eigh s' ks m in
  snd r = Ok tt /\ snd r' = Ok tt /\ ex_eners (fst r') = ex_eners (fst r) /\ exists es, ex_eners (fst r) = Some es /\ List.length es = List.length ks.
Proof.
  exact (fun Hs He fuel P z V a M a' M' E0 loss osc osc' gmax tr args pot s s' ks m HI HI' Htr HL Hi Hg Hc Ht Ne A1 A2 A3 A4 U =>
    units_exc argsort eigh Hs He fuel P z V a M a' M' E0 loss osc osc' gmax tr args pot s s' ks m HI HI' Htr HL Hi Hg Hc Ht Ne A1 A2 A3 A4 U
      (init_layer _ _ _ _ _ _ _ _ _ _ _ _ _ _ _ _ _ _ _ _ _ _ HI HI' Htr Htr)).
Qed.
Print Assumptions C140_units.
(** mass 1 and lattice constant 2; mass 4 and lattice constant 1 *)
Example C140_units_example argsort eigh : sorts argsort -> diagonalises eigh ->
  forall L c V E0 loss gmax ks m, lattice_init (LatName "square") = Ok L -> 0 <= gmax -> 0 < V -> ks <> [] ->
  exists s s', exc_init 0 (dot_phc c L) (1/2) V 2 1 E0 loss OscNone gmax "tbt" = Some (Ok s) /\ exc_init 0 (dot_phc c L) (1/2) V 1 4 E0 loss OscNone gmax "tbt" = Some (Ok s') /\
    let r := exc_run argsort eigh s ks m in let r' := exc_run argsort eigh s' ks m in
    snd r = Ok tt /\ snd r' = Ok tt /\ ex_eners (fst r') = ex_eners (fst r) /\ exists es, ex_eners (fst r) = Some es /\ List.length es = List.length ks.
Proof. exact (dot_units argsort eigh). Qed.

(** ** C141: more plane waves, higher barriers, bounds *)
(** More plane waves: no energy goes up. *)
Theorem C141_more_waves argsort eigh : sorts argsort -> diagonalises eigh ->
  forall fuel fuel' P z V a M E0 loss osc gmax gmax' tr args pot s s' ks m,
  exc_init fuel P z V a M E0 loss osc gmax tr = Some (Ok s) -> exc_init fuel' P z V a M E0 loss osc gmax' tr = Some (Ok s') ->
  tr = "tbt"%string \/ tr = "abs"%string -> lattice_init args = Ok (pc_lattice P) -> independent (lt_a1 (pc_lattice P)) (lt_a2 (pc_lattice P)) -> 0 <= gmax -> 0 <= gmax' ->
  conj_symmetric pot -> transform_of (lt_ec_area (pc_lattice P)) (ex_layer s) V (rc_g (ex_rc s')) pot -> ks <> [] -> incl (rc_g (ex_rc s)) (rc_g (ex_rc s')) ->
  exists es es', snd (exc_run argsort eigh s ks m) = Ok tt /\ snd (exc_run argsort eigh s' ks m) = Ok tt /\ List.length es = List.length ks /\
    ex_eners (fst (exc_run argsort eigh s ks m)) = Some es /\ ex_eners (fst (exc_run argsort eigh s' ks m)) = Some es' /\ nowhere_above_c es' es.
Proof. exact (more_exc argsort eigh). Qed.
Print Assumptions C141_more_waves.
(** with truncate_g = 'tbt' a larger gmax never removes a plane wave *)
Theorem C141_tbt_waves : forall args L gmax gmax', lattice_init args = Ok L -> independent (lt_a1 L) (lt_a2 L) -> 0 <= gmax <= gmax' ->
  incl (rc_g (recip_tbt L gmax)) (rc_g (recip_tbt L gmax')).
Proof. exact tbt_incl. Qed.
Print Assumptions C141_tbt_waves.
(** one disc, any two cut-offs *)
Example C141_example argsort eigh : sorts argsort -> diagonalises eigh ->
  forall L c V a M E0 loss gmax gmax' ks m, lattice_init (LatName "square") = Ok L -> 0 <= gmax <= gmax' -> 0 < V -> ks <> [] ->
  exists s s' es es', exc_init 0 (dot_phc c L) (1/2) V a M E0 loss OscNone gmax "tbt" = Some (Ok s) /\ exc_init 0 (dot_phc c L) (1/2) V a M E0 loss OscNone gmax' "tbt" = Some (Ok s') /\
    ex_eners (fst (exc_run argsort eigh s ks m)) = Some es /\ ex_eners (fst (exc_run argsort eigh s' ks m)) = Some es' /\ List.length es = List.length ks /\ nowhere_above_c es' es.
Proof. exact (dot_more argsort eigh). Qed.
(** One shape of height V, then V' >= V: no energy goes down, up to the deviation d
    of the transform from the integral over the shape. *)
Theorem C141_raise argsort eigh : sorts argsort -> diagonalises eigh ->
  forall fuel P z V V' a M E0 loss osc gmax tr args sh d s s' ks m,
  exc_init fuel P z V a M E0 loss osc gmax tr = Some (Ok s) -> exc_init fuel P z V' a M E0 loss osc gmax tr = Some (Ok s') ->
  tr = "tbt"%string \/ tr = "abs"%string -> lattice_init args = Ok (pc_lattice P) -> independent (lt_a1 (pc_lattice P)) (lt_a2 (pc_lattice P)) -> 0 <= gmax -> 0 < lt_ec_area (pc_lattice P) ->
  ly_shapes (ex_layer s) = [sh] -> conj_symmetric (sh_ft sh) -> 0 <= fst (sh_ft sh (0, 0)) -> separated (rc_g (ex_rc s)) -> near_integral sh d (rc_g (ex_rc s)) ->
  0 < V <= V' -> ks <> [] ->
  exists es es', snd (exc_run argsort eigh s ks m) = Ok tt /\ snd (exc_run argsort eigh s' ks m) = Ok tt /\ List.length es = List.length ks /\ List.length es' = List.length ks /\
    ex_eners (fst (exc_run argsort eigh s ks m)) = Some es /\ ex_eners (fst (exc_run argsort eigh s' ks m)) = Some es' /\
    forall i, (i < List.length ks)%nat -> List.length (nth i es' []) = List.length (nth i es []) /\
      forall b, (b < List.length (nth i es []))%nat -> fst (nth b (nth i es []) (RtoC 0)) <= fst (nth b (nth i es' []) (RtoC 0)) + INR (List.length (rc_g (ex_rc s))) * d * (V' - V) / lt_ec_area (pc_lattice P).
Proof. exact (raise_exc argsort eigh). Qed.
Print Assumptions C141_raise.
(** One shape of height V > 0: all energies lie above E0 (up to d), and the lowest
    one below the kinetic energy of any plane wave plus the mean of the potential. *)
Theorem C141_bounds argsort eigh : sorts argsort -> diagonalises eigh ->
  forall fuel P z V a M E0 loss osc gmax tr args sh d s ks m, exc_init fuel P z V a M E0 loss osc gmax tr = Some (Ok s) ->
  tr = "tbt"%string \/ tr = "abs"%string -> lattice_init args = Ok (pc_lattice P) -> independent (lt_a1 (pc_lattice P)) (lt_a2 (pc_lattice P)) -> 0 <= gmax -> 0 < lt_ec_area (pc_lattice P) ->
  ly_shapes (ex_layer s) = [sh] -> conj_symmetric (sh_ft sh) -> 0 <= fst (sh_ft sh (0, 0)) -> separated (rc_g (ex_rc s)) -> near_integral sh d (rc_g (ex_rc s)) ->
  0 < V -> 0 < M -> ks <> [] ->
  exists es, snd (exc_run argsort eigh s ks m) = Ok tt /\ List.length es = List.length ks /\ ex_eners (fst (exc_run argsort eigh s ks m)) = Some es /\
    forall i k, nth_error ks i = Some k ->
      (forall b, (b < List.length (nth i es []))%nat -> E0 - INR (List.length (rc_g (ex_rc s))) * d * V / lt_ec_area (pc_lattice P) <= fst (nth b (nth i es []) (RtoC 0))) /\
      (forall g, In g (rc_g (ex_rc s)) -> (0 < m)%nat -> fst (nth 0 (nth i es []) (RtoC 0)) <= E0 + free_energy hbar qe M a k g + V * fst (sh_ft sh (0, 0)) / lt_ec_area (pc_lattice P)).
Proof. exact (bounds_exc argsort eigh). Qed.
Print Assumptions C141_bounds.
(** the hypotheses of the last two, for a disc of radius 1/20: d = 4e-14 *)
Example C141_hyps L c V a M E0 loss gmax : lattice_init (LatName "square") = Ok L -> 0 <= gmax ->
  exists s, exc_init 0 (dot_phc c L) (1/2) V a M E0 loss OscNone gmax "tbt" = Some (Ok s) /\ pc_lattice (dot_phc c L) = L /\ independent (lt_a1 L) (lt_a2 L) /\ 0 < lt_ec_area L /\
    exists sh, ly_shapes (ex_layer s) = [sh] /\ conj_symmetric (sh_ft sh) /\ 0 < fst (sh_ft sh (0, 0)) /\ separated (rc_g (ex_rc s)) /\ near_integral sh (PI / 8 / 10 ^ 13) (rc_g (ex_rc s)).
Proof. exact (dot_hyps L c V a M E0 loss gmax). Qed.
(** a circle of any size *)
Example C141_circle eps xc yc r gs : 0 < r -> near_integral (circle_shape bessel_J1 eps xc yc r) (1 / 10 ^ 10 * (PI * r ^ 3)) gs.
Proof. exact (circle_near eps xc yc r gs). Qed.
