(** Property theorems for the small parts: C65, C66, C68-C74, C98-C101. *)
From Verif Require Import Py CBase LatticeModel PhcModel ShapesModel ShapesProofs RecipModel PolModel RadModel MiscModel MiscSpec MiscProofs MiscProofs2 MiscProofs3 MiscProofs4 MiscProofs5 MiscProofs6.
Open Scope R_scope.
Open Scope list_scope.

(** C65.  One call, and any sequence of calls. *)
Theorem C65_backend ag : switches (named_backend ag) (set_backend ag) /\ forall l, last_choice (named_backend ag) BNumpy l (calls (set_backend ag) initial_backend l).
Proof. exact (conj (set_backend_switches ag) (fun l => switch_history _ _ _ l (set_backend_switches ag))). Qed.
Print Assumptions C65_backend.
Theorem C65_print rich : switches (named_print rich) (set_print_backend rich) /\
  forall l, last_choice (named_print rich) (if rich then PRich else PBase) l (calls (set_print_backend rich) (initial_print rich) l).
Proof. exact (conj (set_print_switches rich) (fun l => switch_history _ _ _ l (set_print_switches rich))). Qed.
Print Assumptions C65_print.
Example C65_case : calls (set_backend true) initial_backend ["autograd"; "jax"; "Numpy"]%string = BAutograd /\ calls (set_backend false) initial_backend ["autograd"]%string = BNumpy /\
  calls (set_print_backend true) (initial_print true) ["base"; "fancy"]%string = PBase.
Proof. repeat split. Qed.

(** C66.  A Python zero is not a ValueError ... *)
Theorem C66_zero_refuted : exists a, a <= 0 /\ from_freq_to_e false a = Raise ZeroDivisionError.
Proof. exact (ex_intro _ 0 (conj (Rle_refl 0) conv_python_zero)). Qed.
Print Assumptions C66_zero_refuted.
(** ... everything else is as stated. *)
Theorem C66_conversion_partial : (forall num a, a < 0 -> from_freq_to_e num a = Raise ValueError) /\ from_freq_to_e true 0 = Raise ValueError /\
  exists c, 0 < c /\ forall num a, 0 < a -> exists w, from_freq_to_e num a = Ok (c / a, w) /\ (w = true <-> a < 5e-8 \/ 5e-6 < a).
Proof. exact (conj conv_negative (conj conv_numpy_zero conv_positive)). Qed.
Print Assumptions C66_conversion_partial.
Example C66_case : exists c w, 0 < c /\ from_freq_to_e false 1 = Ok (c / 1, w) /\ from_freq_to_e true (-1) = Raise ValueError.
Proof. destruct conv_positive as (c & Hc & H). destruct (H false 1 ltac:(lra)) as (w & E & _). exists c, w. split; [exact Hc|]. split; [exact E|apply conv_negative; lra]. Qed.

(** C68.  The product is the scattering matrix of the two in series ... *)
Theorem C68_series A B : det1 A B <> RtoC 0 -> exists S, redheffer (SArray A) (SArray B) = Ok S /\
  forall il ir ol or', scatters S il ir ol or' <-> in_series A B il ir ol or'.
Proof. exact (fun H => ex_intro _ (star A B) (conj eq_refl (star_series A B H))). Qed.
Print Assumptions C68_series.
(** ... it is associative ... *)
Theorem C68_associative A B D AB BD L R : redheffer (SArray A) (SArray B) = Ok AB -> redheffer (SArray B) (SArray D) = Ok BD ->
  redheffer (SArray AB) (SArray D) = Ok L -> redheffer (SArray A) (SArray BD) = Ok R ->
  det1 A B <> RtoC 0 -> det1 B D <> RtoC 0 -> det1 AB D <> RtoC 0 -> same2 L R /\ det1 A BD <> RtoC 0.
Proof.
  intros E1 E2 E3 E4 H1 H2 H3. injection E1 as <-. injection E2 as <-. injection E3 as <-. injection E4 as <-. split; [exact (star_assoc3 A B D H1 H2 H3)|].
  exact (fun E => Cmult_neq0 _ _ H3 H1 (eq_trans (star_dets A B D H1 H2) (eq_trans (f_equal (fun z => Cmult z (det1 B D)) E) (Cmult_0_l _)))).
Qed.
Print Assumptions C68_associative.
(** ... and empty space is its identity, with denominators that never vanish. *)
Theorem C68_identity A : exists L R, redheffer (SArray empty_space) (SArray A) = Ok L /\ redheffer (SArray A) (SArray empty_space) = Ok R /\
  same2 L A /\ same2 R A /\ det1 A empty_space <> RtoC 0 /\ det1 empty_space A <> RtoC 0.
Proof. destruct (star_identity A) as (H1 & H2 & H3 & H4). exact (ex_intro _ (star empty_space A) (ex_intro _ (star A empty_space) (conj eq_refl (conj eq_refl (conj H4 (conj H3 (conj H1 H2))))))). Qed.
Print Assumptions C68_identity.
Theorem C68_arrays a b : (exists S, redheffer a b = Ok S) \/ (redheffer a b = Raise AssertionError /\ (a = SOther \/ b = SOther)).
Proof. destruct a, b; [left; eexists; reflexivity| | |]; right; split; auto. Qed.
Print Assumptions C68_arrays.
(** two mirrors reflecting half of the amplitude *)
Example C68_case : det1 (fun _ _ => RtoC (1 / 2)) (fun _ _ => RtoC (1 / 2)) <> RtoC 0.
Proof. unfold det1. intros E. apply (f_equal fst) in E. cbn in E. lra. Qed.

(** C69.  An integer array and an integer step ... *)
Theorem C69_integer_array_refuted : exists fn c w a h0 st' g, is_affine 1 (nd_shape a) fn c w /\ List.length (nd_data a) = 1%nat /\ h0 <> 0 /\
  grad_num fn 0 (StFloat h0) [a] = (st', Ok g) /\ nth 0 (nd_data g) 0 <> w 0%nat.
Proof.
  destruct grad_int_wrong as (H & h' & E). exists (fun b => nth 0 (nd_data b) 0), 0, (fun _ => 1), (Nd [1%nat] true [3]), (1 / 2), h', (Nd [1%nat] false [0]).
  split; [exact H|]. split; [reflexivity|]. split; [lra|]. split; [exact E|]. cbn. lra.
Qed.
Print Assumptions C69_integer_array_refuted.
Theorem C69_integer_step_refuted : exists z, z <> 0%Z /\ forall fn arg h, grad_num fn arg (StInt z) h = (h, Raise AttributeError).
Proof. exact (ex_intro _ 1%Z (conj (fun E : 1%Z = 0%Z => eq_ind 1%Z (fun z => match z with 0%Z => False | _ => True end) Logic.I 0%Z E) (fun fn arg h => grad_int_step fn h arg 1))). Qed.
Print Assumptions C69_integer_step_refuted.
(** a numpy scalar that is no Python float (float32) serves one-element arrays only *)
Theorem C69_scalar_step_fails fn arg x h : (2 <= List.length (nd_data (hread h arg)))%nat -> (arg < List.length h)%nat ->
  snd (grad_num fn arg (StNumpy x) h) = Raise IndexError.
Proof. exact (grad_scalar_step fn arg x h). Qed.
Print Assumptions C69_scalar_step_fails.
Theorem C69_scalar_step_one fn arg x h : List.length (nd_data (hread h arg)) = 1%nat -> grad_num fn arg (StNumpy x) h = grad_num fn arg (StFloat x) h.
Proof. exact (grad_scalar_one fn arg x h). Qed.
Print Assumptions C69_scalar_step_one.
Example C69_scalar_case : (2 <= List.length (nd_data (hread [Nd [2%nat] false [1%R; 4%R]] 0)))%nat.
Proof. cbn. lia. Qed.
(** ... otherwise the gradient of an affine function is exact ... *)
Theorem C69_affine_partial fn arg s sz h c w : let a := hread h arg in let n := List.length (nd_data a) in (arg < List.length h)%nat -> step_sizes n s sz -> nd_int a = false ->
  (forall i, (i < n)%nat -> sz i <> 0) -> is_affine n (nd_shape a) fn c w ->
  exists h' g, grad_num fn arg s h = (h', Ok g) /\ nd_shape g = nd_shape a /\ List.length (nd_data g) = n /\
    (forall i, (i < n)%nat -> nth i (nd_data g) 0 = w i) /\ forall r, (r < List.length h)%nat -> hread h' r = hread h r.
Proof. exact (grad_affine fn arg s sz h c w). Qed.
Print Assumptions C69_affine_partial.
(** ... that of a quadratic one is off by the step times its diagonal coefficient,
    and no array that existed before is changed. *)
Theorem C69_quadratic_partial fn arg s sz h c w q : let a := hread h arg in let n := List.length (nd_data a) in (arg < List.length h)%nat -> step_sizes n s sz -> nd_int a = false ->
  (forall i, (i < n)%nat -> sz i <> 0) -> is_quadratic n (nd_shape a) fn c w q ->
  exists h' g, grad_num fn arg s h = (h', Ok g) /\ nd_shape g = nd_shape a /\ List.length (nd_data g) = n /\
    (forall i, (i < n)%nat -> nth i (nd_data g) 0 = w i + sum_to n (fun j => (q i j + q j i) * nth j (nd_data a) 0) + sz i * q i i) /\
    forall r, (r < List.length h)%nat -> hread h' r = hread h r.
Proof. exact (grad_quadratic fn arg s sz h c w q). Qed.
Print Assumptions C69_quadratic_partial.
Example C69_case : let a := Nd [1%nat; 2%nat] false [3; 5] in step_sizes 2 (StArray [1; 2]) (fun i => nth i [1; 2] 0) /\
  is_quadratic 2 (nd_shape a) (fun b => nth 0 (nd_data b) 0 * nth 1 (nd_data b) 0) 0 (fun _ => 0) (fun i j => if Nat.eqb i 0 && Nat.eqb j 1 then 1 else 0).
Proof. split; [constructor; reflexivity|]. intros b Hs Hl. unfold sum_to. cbn. ring. Qed.

(** Any function with partial derivatives: the gradient tends to them with the steps,
    whatever mixture of steps is used ... *)
Theorem C69_limit_partial fn arg h w : let a := hread h arg in let n := List.length (nd_data a) in (arg < List.length h)%nat -> nd_int a = false ->
  (forall i, (i < n)%nat -> derivable_pt_lim (along fn a i) 0 (w i)) ->
  forall e, 0 < e -> exists d, 0 < d /\ forall s sz, step_sizes n s sz -> (forall i, (i < n)%nat -> sz i <> 0 /\ Rabs (sz i) < d) ->
    exists h' g, grad_num fn arg s h = (h', Ok g) /\ nd_shape g = nd_shape a /\ List.length (nd_data g) = n /\
      forall i, (i < n)%nat -> Rabs (nth i (nd_data g) 0 - w i) < e.
Proof. exact (grad_converges fn arg h w). Qed.
Print Assumptions C69_limit_partial.
(** ... and is off by at most M times the step where the partial derivatives move by
    at most M times the distance. *)
Theorem C69_error_partial fn arg s sz h w M d0 : let a := hread h arg in let n := List.length (nd_data a) in (arg < List.length h)%nat -> step_sizes n s sz -> nd_int a = false ->
  (forall i, (i < n)%nat -> sz i <> 0 /\ Rabs (sz i) <= d0) ->
  (forall i t, (i < n)%nat -> Rabs t <= d0 -> exists f', derivable_pt_lim (along fn a i) t f' /\ Rabs (f' - w i) <= M * Rabs t) ->
  exists h' g, grad_num fn arg s h = (h', Ok g) /\ nd_shape g = nd_shape a /\ List.length (nd_data g) = n /\
    forall i, (i < n)%nat -> Rabs (nth i (nd_data g) 0 - w i) <= M * Rabs (sz i).
Proof. exact (grad_error fn arg s sz h w M d0). Qed.
Print Assumptions C69_error_partial.
(** a cube at 1 *)
Example C69_error_case : let a := Nd [1%nat] false [1] in let fn := fun b => nth 0 (nd_data b) 0 * (nth 0 (nd_data b) 0 * nth 0 (nd_data b) 0) in
  forall i t, (i < 1)%nat -> Rabs t <= 1 -> exists f', derivable_pt_lim (along fn a i) t f' /\ Rabs (f' - 3) <= 9 * Rabs t.
Proof. exact cube_case. Qed.

(** C70.  A FourierShape is not exported ... *)
Theorem C70_fourier_refuted : exists P, built KFourier P /\ polygonal (GPoly KFourier P) /\ forall fs name unit tol, generate_gds true fs [[GPoly KFourier P]] name unit tol = (fs, Raise RuntimeError).
Proof. destruct fourier_circle as (P & E). exact (ex_intro _ P (conj (BFourier _ _ _ _ _ _ _ E) (conj Logic.I (fun fs name unit tol => fourier_not_exported KFourier P fs name unit tol (or_introl eq_refl))))). Qed.
Print Assumptions C70_fourier_refuted.
(** ... a hexagon is exported with seven points, one of them twice ... *)
Theorem C70_hexagon_refuted : exists P, built KHexagon P /\ (exists fs' , fst (generate_gds true (fun _ => None) [[GPoly KHexagon P]] "f" 1 1) = fs' /\ snd (generate_gds true (fun _ => None) [[GPoly KHexagon P]] "f" 1 1) = Ok tt) /\
  forall gdspy fs name unit tol fs' f pts l dt, generate_gds gdspy fs [[GPoly KHexagon P]] name unit tol = (fs', Ok tt) -> fs' name = Some f -> gf_cell f = [ElPolygon pts l dt] -> ~ NoDup pts.
Proof. destruct (hexagon_repeats 1 0 0 1) as (P & E & H). exact (ex_intro _ P (conj (BHexagon _ _ _ _ _ E) (conj (ex_intro _ _ (conj eq_refl eq_refl)) H))). Qed.
Print Assumptions C70_hexagon_refuted.
(** ... but it is all or nothing: either every shape is a circle or exactly of one of
    the three classes, one file is written, with one element per shape in order, on
    the layer of its number; or nothing is written. *)
Theorem C70_all_or_nothing_partial gdspy fs layers name unit tol : let (fs', r) := generate_gds gdspy fs layers name unit tol in
  (r = Ok tt /\ gdspy = true /\ Forall (fun p => exportable (snd p)) (numbered 0 layers) /\ only_changed fs fs' name /\
     exists es, fs' name = Some (GdsFile unit es) /\ Forall2 (fun p e => has_points (snd p) -> drawn tol (fst p) (snd p) e) (numbered 0 layers) es) \/
  (fs' = fs /\ r = Raise (if gdspy then RuntimeError else NameError) /\ (gdspy = true -> ~ Forall (fun p => exportable (snd p)) (numbered 0 layers))).
Proof. exact (gds_drawn gdspy fs layers name unit tol). Qed.
Print Assumptions C70_all_or_nothing_partial.
(** The element of a polygon has the points it was built from. *)
Theorem C70_points_exist_partial k P : built k P -> has_points (GPoly k P).
Proof. exact (built_points k P). Qed.
Print Assumptions C70_points_exist_partial.
Theorem C70_points_partial eps xs ys P tol i k : poly_init eps xs ys = Ok P -> exportable (GPoly k P) -> element_of tol i (GPoly k P) = Ok (ElPolygon (combine xs ys) i 1).
Proof. exact (export_poly eps xs ys P tol i k). Qed.
Print Assumptions C70_points_partial.
Theorem C70_square_partial eps x y a P tol i : a <> 0 -> square_init eps x y a = Ok P -> exists pts, element_of tol i (GPoly KSquare P) = Ok (ElPolygon pts i 1) /\ NoDup pts /\ List.length pts = 4%nat.
Proof. exact (square_export eps x y a P tol i). Qed.
Print Assumptions C70_square_partial.
Example C70_case : exists P, square_init 2 0 0 1 = Ok P /\ Forall (fun p => exportable (snd p)) (numbered 0 [[GPoly KSquare P; GCircle 1 0 0 (1 / 4)]; []; [GCircle 1 0 0 1]]).
Proof. destruct (square_ok 2 0 0 1) as (P & E & _). exists P. split; [exact E|]. repeat constructor. Qed.

(** C71.  For every rounding (exact, or that of floats) the bar has width
    precision + 2, is monotone, empty at 0 and full at 100. *)
Theorem C71_bar rnd p : (0 <= p)%Z -> rounding rnd [0%Z; 1%Z; p] ->
  (forall perc, 0 <= perc <= 100 -> List.length (load_bar rnd perc p) = (Z.to_nat p + 2)%nat /\ (blocks (load_bar rnd perc p) + dashes (load_bar rnd perc p) = Z.to_nat p)%nat) /\
  (forall q perc, 0 <= q -> q <= perc -> perc <= 100 -> (blocks (load_bar rnd q p) <= blocks (load_bar rnd perc p))%nat) /\
  blocks (load_bar rnd 0 p) = 0%nat /\ blocks (load_bar rnd 100 p) = Z.to_nat p.
Proof. exact (fun Hp Hr => conj (fun perc => bar_width rnd perc p Hp Hr) (conj (fun q perc => bar_monotone rnd q perc p Hp Hr) (bar_ends rnd p Hp Hr))). Qed.
Print Assumptions C71_bar.
(** The bars shown by a run over n k-points. *)
Theorem C71_progress rnd n : rounding rnd [0%Z; 1%Z; 30%Z; 100%Z] ->
  (forall ik, (ik < n)%nat -> List.length (prog_bar rnd ik n) = 32%nat) /\
  (forall i j, (i <= j < n)%nat -> (blocks (prog_bar rnd i n) <= blocks (prog_bar rnd j n))%nat) /\
  ((0 < n)%nat -> blocks (prog_bar rnd (n - 1) n) = 30%nat).
Proof. exact (prog_bar_spec rnd n). Qed.
Print Assumptions C71_progress.
Example C71_case : rounding (fun x => x) [0%Z; 1%Z; 20%Z] /\ rounding rnd64 [0%Z; 1%Z; 30%Z; 100%Z].
Proof. split; [split; auto|apply rnd64_rounding]. intros z Hz. cbn in Hz. destruct Hz as [<-|[<-|[<-|[<-|[]]]]]; reflexivity. Qed.

(** C72.  Reading before running raises ... *)
Theorem C72_getters_refuted : exists s name, result_attr s name /\ snd (getattr s (new_solver s) name) = Raise AttributeError.
Proof. exists Pwe, "freqs"%string. split; [split; [discriminate|left; reflexivity]|reflexivity]. Qed.
Print Assumptions C72_getters_refuted.
Theorem C72_kz_symms_refuted : exists name, result_attr Gme name /\ snd (getattr Gme (new_solver Gme) name) = Raise AttributeError.
Proof. exists "kz_symms"%string. split; [split; [discriminate|left; reflexivity]|reflexivity]. Qed.
Print Assumptions C72_kz_symms_refuted.
(** ... namely for kz_symms of a GuidedModeExp and all results of the other solvers,
    however often it is tried; the other results of GuidedModeExp are empty. *)
Theorem C72_before_run_partial s l name : only_reads l -> result_attr s name ->
  match s with
  | Gme => if string_dec name "kz_symms" then snd (getattr s (uses s l) name) = Raise AttributeError
           else exists v, snd (getattr s (uses s l) name) = Ok v /\ is_empty v
  | _ => snd (getattr s (uses s l) name) = Raise AttributeError
  end.
Proof. exact (before_run s l name). Qed.
Print Assumptions C72_before_run_partial.
(** After a run every attribute can be read, and is that of the run, save for the
    radiative ones of a run with compute_im=False. *)
Theorem C72_after_run_partial s l1 im l2 name : only_reads l2 -> In name (map fst (getters s)) ->
  exists v, snd (getattr s (uses s (l1 ++ Run im :: l2)) name) = Ok v /\
  (v = VComputed \/ s = Gme /\ In name ["freqs_im"; "unbalance_sp"; "rad_coup"; "rad_gvec"]%string /\ im = false).
Proof. exact (after_run s l1 im l2 name). Qed.
Print Assumptions C72_after_run_partial.
(** In any state a getter reads the attribute of its name with an underscore and
    nothing else; only None is replaced, and not by GuidedModeExp. *)
Theorem C72_own_attribute s (o : string -> option pyval) name : In name (map fst (getters s)) ->
  (forall v, o ("_" ++ name)%string = Some v -> v <> VNone -> getattr s o name = (o, Ok v)) /\
  (o ("_" ++ name)%string = None -> getattr s o name = (o, Raise AttributeError)) /\
  (o ("_" ++ name)%string = Some VNone -> getattr s o name =
    if solver_is_gme s then (o, Ok VNone) else (fun n => if String.eqb n ("_" ++ name) then Some VEmptyList else o n, Ok VEmptyList)).
Proof. exact (getter_reads s o name). Qed.
Print Assumptions C72_own_attribute.
Theorem C72_no_other s (o : string -> option pyval) name : ~ In name (map fst (getters s)) -> getattr s o name = (o, Raise AttributeError).
Proof. exact (getter_other s o name). Qed.
Print Assumptions C72_no_other.
Example C72_case : only_reads [Read "freqs"; Read "kpoints"] /\ result_attr Gme "freqs" /\ snd (getattr Gme (uses Gme [Read "freqs"; Read "kpoints"]) "freqs") = Ok VEmptyList.
Proof. split; [repeat constructor|]. split; [split; [discriminate|cbn; tauto]|reflexivity]. Qed.

(** C73.  Path length over total path length ... *)
Theorem C73_k_units ks m i0 j0 : (i0 < j0 < List.length ks)%nat -> nth i0 ks (0, 0) <> nth j0 ks (0, 0) ->
  let X0 := fst (calculate_x ks m true) in List.length X0 = List.length ks /\ 0 < travelled ks (List.length ks - 1) /\
  (forall i, (i < List.length ks)%nat -> nth i X0 0 = travelled ks i / travelled ks (List.length ks - 1)) /\
  nth 0 X0 0 = 0 /\ nth (List.length ks - 1) X0 0 = 1 /\ (forall i j, (i <= j < List.length ks)%nat -> nth i X0 0 <= nth j X0 0).
Proof. exact (calc_x_units' ks m i0 j0). Qed.
Print Assumptions C73_k_units.
(** ... or the number of the point; the band array repeats it in every column. *)
Theorem C73_plain ks m u : let '(X0, X) := calculate_x ks m u in (u = false -> X0 = map INR (seq 0 (List.length ks))) /\
  List.length X = List.length X0 /\ forall i, (i < List.length X0)%nat -> nth i X [] = List.repeat (nth i X0 0) m.
Proof. pose proof (calc_x_shape ks m u) as H. destruct (calculate_x ks m u) as [X0 X] eqn:E. split; [intros ->; exact (eq_sym (f_equal fst E))|exact H]. Qed.
Print Assumptions C73_plain.
Example C73_case : let ks := [(0, 0); (1, 0); (1, 2)] in nth 0 ks (0, 0) <> nth 2 ks (0, 0) /\ (0 < 2 < List.length ks)%nat.
Proof. split; [cbn; intros E; injection E as E1 E2; lra|cbn; lia]. Qed.

(** C74.  The light line is the least frequency at which a cladding radiates, times
    the unit ... *)
Theorem C74_light_line P k : 0 < ly_epsavg (pc_clad_l P) -> 0 < ly_epsavg (pc_clad_u P) ->
  exists w0, (forall conv, calculate_LL [k] P conv = [conv * w0]) /\ 0 <= w0 /\ radiates P k w0 /\ forall w, 0 <= w -> (radiates P k w <-> w0 <= w).
Proof. exact (LL_least P k). Qed.
Print Assumptions C74_light_line.
Theorem C74_pointwise ks P conv : calculate_LL ks P conv = flat_map (fun k => calculate_LL [k] P conv) ks.
Proof. exact (LL_map ks P conv). Qed.
Print Assumptions C74_pointwise.
(** ... and compute_rad finds a channel of this wave vector exactly from there on. *)
Theorem C74_channels P k (gk : nat -> R) ng i w w0 : 0 < ly_epsavg (pc_clad_l P) -> 0 < ly_epsavg (pc_clad_u P) -> 0 <= w -> calculate_LL [k] P 1 = [w0] ->
  (i < ng)%nat -> gk i = sqrt (fst k * fst k + snd k * snd k) ->
  (In i (rad_inds ng gk (ly_epsavg (pc_clad_l P)) (2 * PI * w)) \/ In i (rad_inds ng gk (ly_epsavg (pc_clad_u P)) (2 * PI * w)) <-> w0 <= w).
Proof. exact (LL_channels P k gk ng i w w0). Qed.
Print Assumptions C74_channels.
Example C74_case L : 0 < ly_epsavg (pc_clad_l (phc_init L 1 2)) /\ 0 < ly_epsavg (pc_clad_u (phc_init L 1 2)).
Proof. cbn. lra. Qed.

(** C98.  The result of a numerical vjp is flat whatever the shape of the argument ... *)
Theorem C98_shape_refuted : exists fn a g, nd_int a = false /\ vjp_num fn (fn [a]) [a] 0 1 [1] = Ok g /\ nd_shape g <> nd_shape a.
Proof. exists (fun l => [nth 0 (nd_data (nth 0 l (Nd [] false []))) 0]), (Nd [1%nat; 1%nat] false [2]), (Nd [1%nat] false [(((2 + 1) - 2) / 1 * 1)]). split; [reflexivity|]. split; [|discriminate].
  cbn. unfold vdot. cbn. do 3 f_equal. field. Qed.
Print Assumptions C98_shape_refuted.
(** ... its entries are those of v^T J when the function is affine ... *)
Theorem C98_vjp_partial fn args ai step v a m J : nth_error args ai = Some a -> nd_int a = false -> step <> 0 -> List.length v = m -> outputs fn args ai a m -> (0 < List.length (nd_data a))%nat ->
  (forall i o t, (i < List.length (nd_data a))%nat -> (o < m)%nat -> along_out fn args ai a i o t = along_out fn args ai a i o 0 + J o i * t) ->
  exists g, vjp_num fn (fn args) args ai step v = Ok g /\ nd_shape g = [List.length (nd_data a)] /\ List.length (nd_data g) = List.length (nd_data a) /\
    forall i, (i < List.length (nd_data a))%nat -> nth i (nd_data g) 0 = sum_to m (fun o => nth o v 0 * J o i).
Proof. exact (vjp_affine2 fn args ai step v a m J). Qed.
Print Assumptions C98_vjp_partial.
(** ... and tend to those of v^T J with the step when it has partial derivatives J. *)
Theorem C98_limit_partial fn args ai v a m J : nth_error args ai = Some a -> nd_int a = false -> List.length v = m -> outputs fn args ai a m -> (0 < List.length (nd_data a))%nat ->
  (forall i o, (i < List.length (nd_data a))%nat -> (o < m)%nat -> derivable_pt_lim (along_out fn args ai a i o) 0 (J o i)) ->
  forall e, 0 < e -> exists d, 0 < d /\ forall step, step <> 0 -> Rabs step < d ->
    exists g, vjp_num fn (fn args) args ai step v = Ok g /\ nd_shape g = [List.length (nd_data a)] /\ List.length (nd_data g) = List.length (nd_data a) /\
      forall i, (i < List.length (nd_data a))%nat -> Rabs (nth i (nd_data g) 0 - sum_to m (fun o => nth o v 0 * J o i)) < e.
Proof. exact (vjp_converges fn args ai v a m J). Qed.
Print Assumptions C98_limit_partial.
Example C98_case : let fn := fun l : list nd => let d := nd_data (nth 0 l (Nd [] false [])) in [2 * nth 0 d 0 + nth 1 d 0; nth 1 d 0] in let a := Nd [2%nat] false [3; 4] in
  outputs fn [a] 0 a 2 /\ forall i o t, (i < 2)%nat -> (o < 2)%nat ->
    along_out fn [a] 0 a i o t = along_out fn [a] 0 a i o 0 + (if Nat.eqb o 0 then if Nat.eqb i 0 then 2 else 1 else if Nat.eqb i 0 then 0 else 1) * t.
Proof. cbv zeta. split; [intros i t; reflexivity|]. intros i o t Hi Ho. destruct i as [|[|i]]; [| |lia]; (destruct o as [|[|o]]; [| |lia]); cbn; ring. Qed.
(** the product of the two entries at (3, 4) *)
Example C98_limit_case : let fn := fun l : list nd => let d := nd_data (nth 0 l (Nd [] false [])) in [nth 0 d 0 * nth 1 d 0] in let a := Nd [2%nat] false [3; 4] in
  outputs fn [a] 0 a 1 /\ forall i o, (i < 2)%nat -> (o < 1)%nat -> derivable_pt_lim (along_out fn [a] 0 a i o) 0 (if Nat.eqb i 0 then 4 else 3).
Proof. exact product_case. Qed.

(** C99.  Without cell_bound the raster export fails ... *)
Theorem C99_no_bound_refuted : exists cell_bound, forall fs L n1 n2 cs name unit, generate_gds_raster fs L n1 n2 cs name unit cell_bound = (fs, Raise UnboundLocalError).
Proof. exact (ex_intro _ false raster_no_bound). Qed.
Print Assumptions C99_no_bound_refuted.
(** ... with it, every contour lies in the unit cell, and the cell is drawn. *)
Theorem C99_cell_partial fs L n1 n2 cs name unit : (2 <= n1)%nat -> (2 <= n2)%nat ->
  Forall (Forall (fun p => 0 <= fst p <= INR n1 - 1 /\ 0 <= snd p <= INR n2 - 1)) cs ->
  exists fs' ps b, generate_gds_raster fs L n1 n2 cs name unit true = (fs', Ok tt) /\ only_changed fs fs' name /\ fs' name = Some (GdsFile unit (ps ++ [ElPolygon b 0 1])) /\
  Forall2 (fun c e => exists pts, e = ElPolygon pts 0 0 /\ List.length pts = List.length c /\ Forall (in_cell L) pts) cs ps /\
  (forall u v, In (cell_point L u v) b <-> exists u' v', Rabs u' = 1 / 2 /\ Rabs v' = 1 / 2 /\ cell_point L u v = cell_point L u' v').
Proof. exact (raster_bound fs L n1 n2 cs name unit). Qed.
Print Assumptions C99_cell_partial.
Example C99_case : Forall (Forall (fun p => 0 <= fst p <= INR 3 - 1 /\ 0 <= snd p <= INR 3 - 1)) [[(1, 1 / 2); (1 / 2, 1); (3 / 2, 1)]].
Proof. repeat constructor; cbn; lra. Qed.

(** C100.  The quality factor is omega / (2 gamma) up to 1e-16 / gamma, below it,
    finite and decreasing in gamma. *)
Theorem C100_quality_factor w g : 0 < w -> 0 <= g -> 0 < calculate_Q w g <= w * (10 ^ 16 / 2) /\
  (0 < g -> calculate_Q w g < w / (2 * g) /\ w / (2 * g) - calculate_Q w g <= w / (2 * g) * ((1 / 10 ^ 16) / g)) /\
  forall g', g < g' -> calculate_Q w g' < calculate_Q w g.
Proof. exact (fun Hw Hg => conj (proj1 (Q_bounds w g Hw Hg)) (conj (proj2 (Q_bounds w g Hw Hg)) (fun g' => Q_decreasing w g g' Hw Hg))). Qed.
Print Assumptions C100_quality_factor.
Example C100_case : calculate_Q 1 0 = 10 ^ 16 / 2.
Proof. unfold calculate_Q. field. Qed.

(** C101.  ft2square never returns. *)
Theorem C101_ft2square_refuted : exists L fc gv, lattice_init (LatName "square") = Ok L /\ fc <> [] /\ gv <> [] /\ ft2square L fc gv = Raise NameError.
Proof. eexists _, [RtoC 1], [(0, 0)]. split; [reflexivity|]. split; [discriminate|]. split; [discriminate|reflexivity]. Qed.
Print Assumptions C101_ft2square_refuted.
Theorem C101_never_returns_partial L fc gv : exists e, ft2square L fc gv = Raise e /\
  (e = NotImplementedError <-> ~ (lt_type L = LSquare \/ lt_type L = LHexagonal)) /\
  (e = NameError <-> (lt_type L = LSquare \/ lt_type L = LHexagonal) /\ gv <> [] /\ fc <> []) /\
  (e = IndexError <-> (lt_type L = LSquare \/ lt_type L = LHexagonal) /\ gv <> [] /\ fc = []) /\
  (e = ValueError <-> (lt_type L = LSquare \/ lt_type L = LHexagonal) /\ gv = []).
Proof. exact (ft2square_raises L fc gv). Qed.
Print Assumptions C101_never_returns_partial.
