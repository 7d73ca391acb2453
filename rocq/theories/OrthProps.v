(** Orthogonality of the slab modes: C118. *)
From Verif Require Import Py CBase SlabModel SlabSpec SlabProofs9 MatElSpec OrthSpec OrthProofs OrthProofs2 OrthProofs3 OrthProofs4.
Open Scope string_scope.
Open Scope list_scope.
Open Scope R_scope.

(** C118.  Two different modes that one search returns (same g, same polarisation)
    have no amplitude growing in the claddings, and the integral of H1* . H2 over
    all z is 0.  The root finder is any in the sense of [finds_roots]; the
    two hypotheses per mode exclude a layer exactly on its light line and a
    vanishing normalisation. *)
Theorem C118_orthogonal : forall root (te : bool) g e0 el ei ds n step tol oms cs,
  let pol := if te then "TE" else "TM" in let eps := e0 :: ei ++ [el] in
  finds_roots root (D22real pol g eps ds) ->
  List.length ds = List.length ei -> ei <> [] -> Forall (fun e => 0 < e) eps ->
  0 < g -> 0 < step -> 0 < tol < 1 ->
  guided_mode_given_g root pol g eps ds n None None step tol = Ok (oms, cs) ->
  forall i j, (i < List.length oms)%nat -> (j < List.length oms)%nat -> i <> j ->
  let w1 := nth i oms 0 in let w2 := nth j oms 0 in let co1 := nth i cs [] in let co2 := nth j cs [] in
  Forall (fun e => chi w1 g e <> RtoC 0) ei -> Forall (fun e => chi w2 g e <> RtoC 0) ei ->
  snd (hd (RtoC 0, RtoC 0) co1) <> RtoC 0 -> snd (hd (RtoC 0, RtoC 0) co2) <> RtoC 0 ->
  exists B1 mid1 A1 B2 mid2 A2,
    co1 = (RtoC 0, B1) :: mid1 ++ [(A1, RtoC 0)] /\ co2 = (RtoC 0, B2) :: mid2 ++ [(A2, RtoC 0)] /\
    mode_overlap te g (Mode (chi w1 g e0) B1 (map (chi w1 g) ei) mid1 (chi w1 g el) A1)
      (Mode (chi w2 g e0) B2 (map (chi w2 g) ei) mid2 (chi w2 g el) A2) ds (RtoC 0).
Proof. intros root te g e0 el ei ds n step tol oms cs pol eps. exact (search_orthogonal root te g e0 el ei ds n step tol oms cs). Qed.
Print Assumptions C118_orthogonal.
(** the same for the windows chosen by guided_modes or by a caller *)
Theorem C118_any_window : forall root (te : bool) g e0 el ei ds n lb ub step tol oms cs w1 co1 w2 co2,
  let pol := if te then "TE" else "TM" in let eps := e0 :: ei ++ [el] in
  finds_roots root (D22real pol g eps ds) ->
  List.length ds = List.length ei -> ei <> [] -> Forall (fun e => 0 < e) eps ->
  guided_mode_given_g root pol g eps ds n lb ub step tol = Ok (oms, cs) ->
  0 < step -> In (w1, co1) (combine oms cs) -> In (w2, co2) (combine oms cs) -> w1 <> w2 ->
  (forall w co, (w, co) = (w1, co1) \/ (w, co) = (w2, co2) ->
    0 < w /\ e0 * (w * w) < g * g /\ el * (w * w) < g * g /\
    (List.length ei = 1%nat -> Forall (fun e => g * g < e * (w * w)) ei) /\
    Forall (fun e => chi w g e <> RtoC 0) ei /\ snd (hd (RtoC 0, RtoC 0) co) <> RtoC 0) ->
  exists B1 mid1 A1 B2 mid2 A2,
    co1 = (RtoC 0, B1) :: mid1 ++ [(A1, RtoC 0)] /\ co2 = (RtoC 0, B2) :: mid2 ++ [(A2, RtoC 0)] /\
    mode_overlap te g (Mode (chi w1 g e0) B1 (map (chi w1 g) ei) mid1 (chi w1 g el) A1)
      (Mode (chi w2 g e0) B2 (map (chi w2 g) ei) mid2 (chi w2 g el) A2) ds (RtoC 0).
Proof.
  intros root te g e0 el ei ds n lb ub step tol oms cs w1 co1 w2 co2 pol eps.
  exact (modes_orthogonal root te g e0 el ei ds n lb ub step tol oms cs w1 co1 w2 co2).
Qed.
Print Assumptions C118_any_window.
(** every entry of the table that guided_modes builds for a GME run; an entry reused
    because g moved by at most 1e-8 consists of modes of an earlier g *)
Theorem C118_guided_modes : forall root (te : bool) e0 el ei ds n step tol gs rs,
  let pol := if te then "TE" else "TM" in let eps := e0 :: ei ++ [el] in
  (forall g, finds_roots root (D22real pol g eps ds)) ->
  List.length ds = List.length ei -> ei <> [] -> Forall (fun e => 0 < e) eps ->
  0 < step -> 0 < tol < 1 ->
  guided_modes root pol gs eps ds n step tol = Ok rs ->
  forall k, (k < List.length gs)%nat -> exists k', (k' <= k)%nat /\
    let g := Rmax (nth k' gs 0) (/ 10 ^ 4) in let oms := fst (nth k rs ([], [])) in let cs := snd (nth k rs ([], [])) in
    forall i j, (i < List.length oms)%nat -> (j < List.length oms)%nat -> i <> j ->
    let w1 := nth i oms 0 in let w2 := nth j oms 0 in let co1 := nth i cs [] in let co2 := nth j cs [] in
    Forall (fun e => chi w1 g e <> RtoC 0) ei -> Forall (fun e => chi w2 g e <> RtoC 0) ei ->
    snd (hd (RtoC 0, RtoC 0) co1) <> RtoC 0 -> snd (hd (RtoC 0, RtoC 0) co2) <> RtoC 0 ->
    exists B1 mid1 A1 B2 mid2 A2,
      co1 = (RtoC 0, B1) :: mid1 ++ [(A1, RtoC 0)] /\ co2 = (RtoC 0, B2) :: mid2 ++ [(A2, RtoC 0)] /\
      mode_overlap te g (Mode (chi w1 g e0) B1 (map (chi w1 g) ei) mid1 (chi w1 g el) A1)
        (Mode (chi w2 g e0) B2 (map (chi w2 g) ei) mid2 (chi w2 g el) A2) ds (RtoC 0).
Proof. intros root te e0 el ei ds n step tol gs rs pol eps. exact (guided_orthogonal root te e0 el ei ds n step tol gs rs). Qed.
Print Assumptions C118_guided_modes.
(** a slab on which the search returns two modes, and all hypotheses hold *)
Example C118_example : exists root, finds_roots root (D22real "TE" 1 [1; 4; 1] [14 / 5]) /\ exists w1 w2 co1 co2,
  guided_mode_given_g root "TE" 1 [1; 4; 1] [14 / 5] 2 None None (7 / 40) (1 / 10) = Ok ([w1; w2], [co1; co2]) /\
  chi w1 1 4 <> RtoC 0 /\ chi w2 1 4 <> RtoC 0 /\ snd (hd (RtoC 0, RtoC 0) co1) <> RtoC 0 /\ snd (hd (RtoC 0, RtoC 0) co2) <> RtoC 0.
Proof. exact ex2_two. Qed.
