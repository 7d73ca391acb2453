(** Slab modes: C31-C36, C108. *)
From Verif Require Import Py CBase SlabModel SlabSpec SlabProofs SlabProofs2 SlabProofs3 SlabProofs4 SlabProofs5
  SlabProofs6 SlabProofs7 SlabProofs8 SlabProofs9 SlabProofs10 SlabProofs11.
Open Scope string_scope.
Open Scope list_scope.
Open Scope R_scope.

(** C31. *)
Theorem C31_chi_branch : forall omega g eps,
  (chi omega g eps * chi omega g eps)%C = RtoC (eps * (omega * omega) - g * g) /\
  (0 <= eps * (omega * omega) - g * g -> snd (chi omega g eps) = 0 /\ 0 <= fst (chi omega g eps)) /\
  (eps * (omega * omega) - g * g < 0 -> evanescent (chi omega g eps)).
Proof. exact chi_branch. Qed.
Print Assumptions C31_chi_branch.
Example C31_example : 0 <= 12 * (1 * 1) - 2 * 2 /\ 1 * (1 * 1) - 2 * 2 < 0.
Proof. lra. Qed.

(** C32. *)
Theorem C32_vectorised_is_scalar : forall pol ws g eps ds, is_te pol || is_tm pol = true ->
  (List.length ds + 2 = List.length eps)%nat ->
  D22s_vec pol ws g eps ds = mapM (fun w => D22 pol w g eps ds) ws.
Proof. exact vec_scalar. Qed.
Print Assumptions C32_vectorised_is_scalar.
Theorem C32_three_layer_form : forall pol omega g e1 e2 e3 d, is_te pol || is_tm pol = true ->
  0 < e1 -> 0 < e2 -> 0 < e3 ->
  e1 * (omega * omega) < g * g -> e3 * (omega * omega) < g * g -> g * g < e2 * (omega * omega) ->
  D22_3layer pol omega g e1 e2 e3 [d] = Ok (RtoC 0) <-> D22_nlayer pol omega g [e1; e2; e3] [d] = Ok (RtoC 0).
Proof. exact three_layer_iff. Qed.
Print Assumptions C32_three_layer_form.
Theorem C32_real : forall pol omega g e0 es ds, is_te pol || is_tm pol = true ->
  (List.length ds + 1 = List.length es)%nat -> es <> [] ->
  e0 <> 0 -> Forall (fun e => e <> 0 /\ chi omega g e <> RtoC 0) es ->
  e0 * (omega * omega) < g * g -> last es 0 * (omega * omega) < g * g ->
  exists z, D22_nlayer pol omega g (e0 :: es) ds = Ok z /\ is_real z.
Proof. exact D22_nlayer_real. Qed.
Print Assumptions C32_real.
Example C32_example : let es := [4; 2; 1] in is_te "Te" || is_tm "Te" = true /\
  (List.length [1; 1/2] + 1 = List.length es)%nat /\
  Forall (fun e => e <> 0 /\ chi 1 (3/2) e <> RtoC 0) es /\ 1 * (1 * 1) < 3/2 * (3/2) /\ last es 0 * (1 * 1) < 3/2 * (3/2).
Proof.
  cbn [last List.length]. split; [reflexivity|]. split; [reflexivity|]. split; [|lra].
  repeat constructor; try lra.
  - rewrite chi_ge by lra. apply RtoC_neq0, Rgt_not_eq, sqrt_lt_R0. lra.
  - apply evan_neq0, chi_evan. lra.
  - apply evan_neq0, chi_evan. lra.
Qed.

(** C33.  [root] is any root finder in the sense of [finds_roots]. *)
Theorem C33_search : forall root (te : bool) g e0 el ei ds n step tol,
  let pol := if te then "TE" else "TM" in let eps := e0 :: ei ++ [el] in
  finds_roots root (D22real pol g eps ds) ->
  List.length ds = List.length ei -> ei <> [] -> Forall (fun e => 0 < e) eps ->
  0 < g -> 0 < step -> 0 < tol < 1 ->
  exists m oms cs, In m ei /\ (forall x, In x ei -> x <= m) /\
    guided_mode_given_g root pol g eps ds n None None step tol = Ok (oms, cs) /\
    List.length cs = List.length oms /\
    search_spec (D22real pol g eps ds) (g / sqrt m * (1 + tol)) (g / sqrt (Rmax e0 el) * (1 - tol)) step n oms /\
    (forall w, In w oms -> 0 < w /\ (exists e, In e ei /\ g * g < e * (w * w)) /\ e0 * (w * w) < g * g /\ el * (w * w) < g * g) /\
    ((forall e, In e ei -> e <= Rmax e0 el) -> oms = []).
Proof. intros root te g e0 el ei ds n step tol pol eps H1 H2 H3 H4 H5 H6 H7. exact (given_g_window root te g e0 el ei ds n step tol H1 H2 H3 H4 H5 H6 H7). Qed.
Print Assumptions C33_search.
(** the loop over the g-array: every entry is a fresh search at max(g, 1e-4), or the
    previous entry reused because g moved by at most 1e-8 *)
Theorem C33_guided_modes : forall root (te : bool) e0 el ei ds n step tol gs,
  let pol := if te then "TE" else "TM" in let eps := e0 :: ei ++ [el] in
  (forall g, finds_roots root (D22real pol g eps ds)) ->
  List.length ds = List.length ei -> ei <> [] -> Forall (fun e => 0 < e) eps ->
  0 < step -> 0 < tol < 1 -> (0 < n)%nat ->
  exists rs, guided_modes root pol gs eps ds n step tol = Ok rs /\ List.length rs = List.length gs /\
  forall i, (i < List.length gs)%nat ->
    let r := nth i rs ([], []) in let g := Rmax (nth i gs 0) (/ 10 ^ 4) in
    (List.length (snd r) = List.length (fst r) /\
     exists m ub, In m ei /\ (forall x, In x ei -> x <= m) /\ ub <= g / sqrt (Rmax e0 el) /\
       search_spec (D22real pol g eps ds) (g / sqrt m * (1 + tol)) (ub * (1 - tol)) step n (fst r) /\
       (forall w, In w (fst r) -> 0 < w /\ (exists e, In e ei /\ g * g < e * (w * w)) /\ e0 * (w * w) < g * g /\ el * (w * w) < g * g) /\
       ((forall e, In e ei -> e <= Rmax e0 el) -> fst r = [])) \/
    (exists j, i = S j /\ Rabs (nth i gs 0 - nth j gs 0) <= / 10 ^ 8 /\ r = nth j rs ([], [])).
Proof.
  intros root te e0 el ei ds n step tol gs pol eps H1 H2 H3 H4 H5 H6 H7.
  exact (guided_all root te e0 el ei ds n step tol H1 H2 H3 H4 H5 H6 H7 gs).
Qed.
Print Assumptions C33_guided_modes.
(** a zero of the real part is a zero of the guided condition itself *)
Theorem C33_root_of_condition : forall (te : bool) g e0 el ei ds w, List.length ds = List.length ei -> ei <> [] ->
  Forall (fun e => 0 < e) (e0 :: ei ++ [el]) -> 0 < w ->
  (List.length ei = 1%nat -> Forall (fun e => g * g < e * (w * w)) ei) ->
  e0 * (w * w) < g * g -> el * (w * w) < g * g -> Forall (fun e => chi w g e <> RtoC 0) ei ->
  D22real (if te then "TE" else "TM") g (e0 :: ei ++ [el]) ds w = 0 ->
  D22 (if te then "TE" else "TM") w g (e0 :: ei ++ [el]) ds = Ok (RtoC 0).
Proof. exact root_complex. Qed.
Print Assumptions C33_root_of_condition.
(** a slab with a root finder, on which the search finds one mode *)
Example C33_example : exists root, finds_roots root (D22real "TE" 1 [1; 4; 1] [3/2]) /\
  exists om cs, guided_mode_given_g root "TE" 1 [1; 4; 1] [3/2] 1 (Some (1/2)) (Some 1) 1 (1/10) = Ok ([om], cs).
Proof. destruct ex_root as [root H]. exists root. split; [exact H|]. exact (ex_TE root). Qed.

(** C34.  Each layer is described by (eps, chi, (A, B), distance to its interface);
    the derivative [dwave] is the derivative of [wave]. *)
Theorem C34_interfaces : forall pol (te : bool) omega g e0 es ds, lower pol = (if te then "te" else "tm") ->
  (List.length ds + 1 = List.length es)%nat -> ds <> [] -> 0 < e0 ->
  Forall (fun e => 0 < e /\ chi omega g e <> RtoC 0) es ->
  (List.length es = 2%nat -> e0 * (omega * omega) < g * g /\ g * g < hd 0 es * (omega * omega) /\ last es 0 * (omega * omega) < g * g) ->
  exists ABs, AB_matrices pol omega g (e0 :: es) ds = Ok ABs /\
    List.length ABs = List.length (e0 :: es) /\ hd (RtoC 0, RtoC 0) ABs = (RtoC 0, RtoC 1) /\
    all_matched te (combine (combine (combine (e0 :: es) (map (chi omega g) (e0 :: es))) ABs) (0 :: map (fun d => d / 2) ds ++ [0])) /\
    (snd (last ABs (RtoC 0, RtoC 0)) = RtoC 0 <-> D22 pol omega g (e0 :: es) ds = Ok (RtoC 0)).
Proof. exact interfaces. Qed.
Print Assumptions C34_interfaces.
Theorem C34_derivative : forall c A B x, is_cderive (wave c A B) x (dwave c A B x).
Proof. exact wave_derive. Qed.
Print Assumptions C34_derivative.
Example C34_example : lower "TM" = "tm" /\ (List.length [1; 2] + 1 = List.length [4; 9; 1])%nat /\
  Forall (fun e => 0 < e /\ chi 1 (3/2) e <> RtoC 0) [4; 9; 1].
Proof.
  split; [reflexivity|]. split; [reflexivity|].
  repeat constructor; try lra.
  - rewrite chi_ge by lra. apply RtoC_neq0, Rgt_not_eq, sqrt_lt_R0. lra.
  - rewrite chi_ge by lra. apply RtoC_neq0, Rgt_not_eq, sqrt_lt_R0. lra.
  - apply evan_neq0, chi_evan. lra.
Qed.

(** C35.  The code's normalisation constant is the energy E up to the 1e-20
    regulariser (written [dl]), whose effect is at most dl * K. *)
Theorem C35_normalisation : forall te g dl c0 cs cl ABs A0 B0 Al Bl eps ds, 0 < dl ->
  evanescent c0 -> evanescent cl ->
  List.length ABs = List.length cs -> List.length ds = List.length cs ->
  (List.length ds + 2 = List.length eps)%nat ->
  Forall (fun c : C => 2 * fst c <> dl) cs -> Forall (fun d => 0 < d) ds ->
  exists N E K,
    normalization_coeff dl (if te : bool then "TE" else "TM") g eps ds (c0 :: cs ++ [cl]) ((A0, B0) :: ABs ++ [(Al, Bl)]) = Ok N /\
    mode_energy te g c0 B0 cs ABs cl Al ds E K /\
    0 <= E /\ (B0 <> RtoC 0 -> 0 < E) /\ Cmod (N - RtoC E)%C <= dl * K.
Proof. exact norm_energy. Qed.
Print Assumptions C35_normalisation.
Theorem C35_returned_modes : forall root te g e0 el ei ds n lb ub step tol oms cs w co,
  List.length ds = List.length ei -> ei <> [] -> Forall (fun d => 0 < d) ds ->
  guided_mode_given_g root (if te : bool then "TE" else "TM") g (e0 :: ei ++ [el]) ds n lb ub step tol = Ok (oms, cs) ->
  In (w, co) (combine oms cs) ->
  e0 * (w * w) < g * g -> el * (w * w) < g * g ->
  Forall (fun e => 2 * fst (chi w g e) <> reg) ei ->
  exists B0 mid Al Bl, co = (RtoC 0, B0) :: mid ++ [(Al, Bl)] /\ List.length mid = List.length ei /\
    (B0 <> RtoC 0 -> exists E K,
      mode_energy te g (chi w g e0) B0 (map (chi w g) ei) mid (chi w g el) Al ds E K /\ 0 < E /\
      Rabs (E - 1) <= reg * K).
Proof. exact returned_energy. Qed.
Print Assumptions C35_returned_modes.
Example C35_example : evanescent (chi 1 (3/2) 1) /\ evanescent (chi 1 (3/2) 2) /\
  Forall (fun c : C => 2 * fst c <> reg) (map (chi 1 (3/2)) [1; 5]).
Proof.
  split; [apply chi_evan; lra|]. split; [apply chi_evan; lra|].
  assert (R0 : 0 < reg < 1) by (unfold reg; lra).
  repeat constructor.
  - destruct (chi_evan 1 (3/2) 1) as [-> _]; lra.
  - rewrite chi_ge by lra. simpl fst. assert (1 < sqrt (5 * (1 * 1) - 3/2 * (3/2))); [|lra].
    rewrite <- sqrt_1 at 1. apply sqrt_lt_1; lra.
Qed.

(** C36.  Full statement: every spelling gives the same result.  It is false:
    guided_modes rejects 'te' as soon as a mode is found, and rad_modes scales
    'te' differently from 'TE'. *)
Theorem C36_spelling_refuted : exists eps ds g, lower "TE" = "te" /\ lower "te" = "te" /\
  (forall root, (exists r, guided_modes root "TE" [g] eps ds 1 1 (1/10) = Ok r) /\
                guided_modes root "te" [g] eps ds 1 1 (1/10) = Raise PyException) /\
  exists eps', rad_modes "TE" 0 2 [g] eps' [1] <> rad_modes "te" 0 2 [g] eps' [1].
Proof. exact spelling. Qed.
Print Assumptions C36_spelling_refuted.
(** What holds: guided_modes never returns a different answer for another
    spelling (it raises instead), and rad_modes ignores the case of 'tm'. *)
Theorem C36_spelling_partial :
  (forall root pol gs eps ds n step tol r, is_te pol || is_tm pol = true ->
     guided_modes root pol gs eps ds n step tol = Ok r -> guided_modes root (upper pol) gs eps ds n step tol = Ok r) /\
  (forall pol clad w gs eps ds, is_tm pol = true -> rad_modes pol clad w gs eps ds = rad_modes "tm" clad w gs eps ds).
Proof. exact (conj guided_upper rad_tm). Qed.
Print Assumptions C36_spelling_partial.
Example C36_example : is_te "tE" || is_tm "tE" = true /\ upper "tE" = "TE" /\ is_tm "Tm" = true.
Proof. repeat split. Qed.

(** C108.  [rad_mode] returns (X, Y); the upward amplitudes are Y, the downward
    ones X (this is how get_rad reads them).  When the channel is open in the
    cladding asked for, the state with one incoming wave there exists, the code
    returns it, it is the only one, and power is conserved. *)
Theorem C108_radiation_modes : forall pol (te : bool) clad omega g eps ds, lower pol = (if te then "te" else "tm") ->
  (clad < 2)%nat -> (List.length ds + 2 = List.length eps)%nat -> ds <> [] ->
  let g' := Rmax g (/ 10 ^ 10) in
  let e_in := if Nat.eqb clad 0 then hd 0 eps else last eps 0 in
  let amp := if String.eqb pol "te" then RtoC (1 / (sqrt e_in * omega)) else RtoC 1 in
  Forall (fun e => 0 < e /\ chi omega g' e <> RtoC 0) eps -> g' * g' < e_in * (omega * omega) ->
  exists X Y, rad_mode pol clad omega g eps ds = Ok (X, Y) /\
    scattering te clad eps (map (chi omega g') eps) (0 :: map (fun d => d / 2) ds ++ [0]) Y X amp.
Proof. exact radiation. Qed.
Print Assumptions C108_radiation_modes.
Theorem C108_only_one : forall te clad omega g es ds As Bs As' Bs' amp, es <> [] -> (List.length ds + 2 = List.length es)%nat ->
  Forall (fun e => 0 < e /\ chi omega g e <> RtoC 0) es ->
  0 < fst (chi omega g (if Nat.eqb clad 0 then hd 0 es else last es 0)) ->
  scattering te clad es (map (chi omega g) es) (0 :: map (fun d => d / 2) ds ++ [0]) As Bs amp ->
  scattering te clad es (map (chi omega g) es) (0 :: map (fun d => d / 2) ds ++ [0]) As' Bs' amp -> As = As' /\ Bs = Bs'.
Proof. exact scattering_unique. Qed.
Print Assumptions C108_only_one.
Theorem C108_power : forall te clad omega g es ds As Bs amp, es <> [] -> (List.length ds + 2 = List.length es)%nat ->
  Forall (fun e => 0 < e /\ chi omega g e <> RtoC 0) es ->
  0 < fst (chi omega g (if Nat.eqb clad 0 then hd 0 es else last es 0)) ->
  scattering te clad es (map (chi omega g) es) (0 :: map (fun d => d / 2) ds ++ [0]) As Bs amp ->
  power_up te (hd 0 es) (chi omega g (hd 0 es)) (hd (RtoC 0) As) (hd (RtoC 0) Bs) =
  power_up te (last es 0) (chi omega g (last es 0)) (last As (RtoC 0)) (last Bs (RtoC 0)).
Proof. exact scattering_power. Qed.
Print Assumptions C108_power.
Example C108_example : let g' := Rmax (1/2) (/ 10 ^ 10) in
  Forall (fun e => 0 < e /\ chi 1 g' e <> RtoC 0) [1; 12; 2] /\ g' * g' < hd 0 [1; 12; 2] * (1 * 1) /\ 0 < fst (chi 1 (1/2) 1).
Proof.
  intros g'. assert (E : g' = 1/2) by (unfold g'; apply Rmax_left; lra). rewrite E. split; [|split].
  - repeat constructor; try lra; rewrite chi_ge by lra; apply RtoC_neq0, Rgt_not_eq, sqrt_lt_R0; lra.
  - simpl. lra.
  - rewrite chi_ge by lra. apply sqrt_lt_R0. lra.
Qed.
