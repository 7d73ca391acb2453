(** Property theorems for polaritons: C55-C58, C90-C94. *)
From Coq Require Import Permutation List.
From Verif Require Import Py CBase LatticeModel PhcModel RecipModel MatElModel SymModel SymSpec FieldsModel RunModel RunSpec PweModel ExcModel PolSpec PolModel PolSpec2.
From Verif Require Import PolProofs PolProofs2 PolProofs3 PolProofs4 PolProofs5 PolProofs6 PolProofs7 PolProofs8 PolProofs9 PolProofs10 PolProofs11 PolProofs12.
Open Scope R_scope.
Open Scope list_scope.

(** C55.  Energies come in pairs +l, -l, for any number of wells, with the
    eigenvector obtained by exchanging halves and flipping the exciton signs. *)
Theorem C55_pairs a p M ws kind H : construct a p M ws kind = Ok H -> let N := ph_N p in let K := (M * List.length ws)%nat in
  forall l v, eigvec (2 * (N + K)) H l v -> eigvec (2 * (N + K)) H (- l)%C (mirror N K v).
Proof. exact (construct_pair a p M ws kind H). Qed.
Print Assumptions C55_pairs.
(** Zero oscillator strength in all wells: the bare energies with both signs. *)
Theorem C55_dark a p M ws kind H : construct a p M ws kind = Ok H -> (forall s, In s ws -> dark s) -> exists f fi ens,
  SymModel.get (ph_freqs p) kind = Ok f /\ SymModel.get (ph_ims p) kind = Ok fi /\ mapM (fun s => eners_at s kind) ws = Ok ens /\
  let N := ph_N p in let K := (M * List.length ws)%nat in
  forall l, eigval (2 * (N + K)) H l <->
    (exists n, (n < N)%nat /\ (l = RtoC (h_eV_Hz * c_light / a) * (RtoC (nth n f 0) + Ci * RtoC (nth n fi 0)) \/ l = - (RtoC (h_eV_Hz * c_light / a) * (RtoC (nth n f 0) + Ci * RtoC (nth n fi 0)))))%C \/
    (exists j, (j < K)%nat /\ (l = nth j (List.concat ens) (RtoC 0) \/ l = - nth j (List.concat ens) (RtoC 0)))%C.
Proof. exact (all_dark a p M ws kind H). Qed.
Print Assumptions C55_dark.
(** Systems of wells with oscillator strengths o1 :: os, photonic energies w and
    amplitudes x, reached by __init__ and run. *)
Example C55_cases argsort eigh L E0 w x os o1 : sorts argsort -> diagonalises eigh -> lattice_init (LatName "square") = Ok L ->
  E0 <> 0 -> List.length w = List.length x -> (forall o, In o (o1 :: os) -> 0 <= o) -> exists q ws us H,
  pol_init 0 (toy_phc L E0 (o1 :: os)) 0 "tbt" = Some (Ok q) /\ po_a q = 1 /\ run_wells argsort eigh (po_exc q) [(0, 0)] 1 = (ws, Ok tt) /\
  List.length ws = S (List.length os) /\ Forall2 (ready E0) (o1 :: os) ws /\ List.length us = S (List.length os) /\ (forall u, In u us -> Cmod u = 1) /\
  construct (po_a q) (light w x) 1 ws 0 = Ok H /\
  let n := (2 * (List.length x + S (List.length os)))%nat in
  meq n n H (hopfield (List.length x) (S (List.length os)) (bare E0 w (o1 :: os) x) (coupl (o1 :: os) x us) (diam E0 (last (o1 :: os) 0) x) (fun _ => RtoC E0)).
Proof. exact (fun Hs He HL => toy_system argsort eigh Hs He L HL E0 w x os o1). Qed.

(** C56.  The fractions stored by a run lie in [0, 1] and add up to 1. *)
Theorem C56_fractions eig cargsort argsort eigh : solves eig -> csorts cargsort ->
  forall gme_run o ks m ws res mat, pol_run eig cargsort argsort eigh gme_run o ks m = (ws, Ok (res, mat)) ->
  forall r, In r res -> List.length (kr_fx r) = List.length (kr_e r) /\ List.length (kr_fp r) = List.length (kr_e r) /\
  forall b, (b < List.length (kr_e r))%nat -> 0 <= nth b (kr_fx r) 0 <= 1 /\ 0 <= nth b (kr_fp r) 0 <= 1 /\ nth b (kr_fx r) 0 + nth b (kr_fp r) 0 = 1.
Proof. exact (run_fractions eig cargsort argsort eigh). Qed.
Print Assumptions C56_fractions.
Theorem C56_unit N K v : cdot (2 * (N + K)) v v = RtoC 1 -> let (x, p) := fractions N K v in 0 <= x <= 1 /\ 0 <= p <= 1 /\ x + p = 1.
Proof. exact (fractions_unit N K v). Qed.
Print Assumptions C56_unit.
Example C56_half : exists v, cdot (2 * (1 + 1)) v v = RtoC 1 /\ v 0%nat <> RtoC 0 /\ v 1%nat <> RtoC 0.
Proof.
  exists (fun i => match i with 0%nat => RtoC (3 / 5) | 1%nat => RtoC (4 / 5) | _ => RtoC 0 end). split; [|split; apply RtoC_neq0; lra].
  unfold cdot. cbn [csum Nat.mul Nat.add]. rewrite !Cconj_R. apply Ceq; simpl; field.
Qed.

(** C57.  With several wells the off-diagonal blocks lack the D of all wells but the
    last ... *)
Theorem C57_all_wells_refuted argsort eigh L : sorts argsort -> diagonalises eigh -> lattice_init (LatName "square") = Ok L ->
  exists P q p ws H, pol_init 0 P 0 "tbt" = Some (Ok q) /\ run_wells argsort eigh (po_exc q) [(0, 0)] 1 = (ws, Ok tt) /\ construct (po_a q) p 1 ws 0 = Ok H /\
  List.length ws = 2%nat /\ filled 1 0 ws /\
  exists n1 n2, (n1 < ph_N p)%nat /\ (n2 < ph_N p)%nat /\ H n1 (ph_N p + 2 + n2)%nat <> (- RtoC 2 * dia_of (ph_N p) 2 H n1 n2)%C.
Proof. exact (fun Hs He HL => dia_missing argsort eigh Hs He L HL). Qed.
Print Assumptions C57_all_wells_refuted.
(** ... the diagonal photonic blocks have the real part of the sum over all wells ... *)
Theorem C57_photon_block_partial a p M ws kind H : construct a p M ws kind = Ok H -> let N := ph_N p in let K := (M * List.length ws)%nat in
  filled M kind ws -> exists f fi, SymModel.get (ph_freqs p) kind = Ok f /\ SymModel.get (ph_ims p) kind = Ok fi /\
  forall n1 n2, (n1 < N)%nat -> (n2 < N)%nat ->
  let bare := if Nat.eqb n1 n2 then (RtoC (h_eV_Hz * c_light / a) * (RtoC (nth n1 f 0) + Ci * RtoC (nth n1 fi 0)))%C else RtoC 0 in
  H n1 n2 = (bare + RtoC (2 * fst (dia_of N K H n1 n2)))%C /\ H (N + K + n1)%nat (N + K + n2)%nat = (- H n1 n2)%C.
Proof. exact (photon_block a p M ws kind H). Qed.
Print Assumptions C57_photon_block_partial.
(** The hypothesis [filled] of the theorems here and below holds after every run. *)
Theorem C57_levels argsort eigh ws0 ks m ws a p kind H : run_wells argsort eigh ws0 ks m = (ws, Ok tt) ->
  construct a p m ws kind = Ok H -> (0 < ph_N p)%nat -> filled m kind ws.
Proof. exact (filled_after argsort eigh ws0 ks m ws a p kind H). Qed.
Print Assumptions C57_levels.
(** ... and with one well the off-diagonal blocks are complete. *)
Theorem C57_one_well_partial a p M ws kind H : construct a p M ws kind = Ok H -> let N := ph_N p in let K := (M * List.length ws)%nat in
  List.length ws = 1%nat -> filled M kind ws -> forall n1 n2, (n1 < N)%nat -> (n2 < N)%nat ->
  H n1 (N + K + n2)%nat = (- RtoC 2 * dia_of N K H n1 n2)%C /\ H (N + K + n1)%nat n2 = (RtoC 2 * dia_of N K H n1 n2)%C.
Proof. exact (off_block a p M ws kind H). Qed.
Print Assumptions C57_one_well_partial.
Example C57_one_well_case argsort eigh L : sorts argsort -> diagonalises eigh -> lattice_init (LatName "square") = Ok L ->
  let p := light [7 / 16] [RtoC 1] in
  exists q ws H, pol_init 0 (toy_phc L 2 [25 / 16]) 0 "tbt" = Some (Ok q) /\ run_wells argsort eigh (po_exc q) [(0, 0)] 1 = (ws, Ok tt) /\ construct (po_a q) p 1 ws 0 = Ok H /\
  List.length ws = 1%nat /\ filled 1 0 ws /\ ph_N p = 1%nat /\ SymModel.get (ph_freqs p) 0 = Ok [7 / 16 / conversion 1] /\ SymModel.get (ph_ims p) 0 = Ok [0] /\ 0 < 7 / 16 / conversion 1 /\
  exciton_of 1 H 0 = RtoC 2 /\ Cmod (coupling_of 1 H 0 0) = 5 / 4 /\ dia_of 1 1 H 0 0 = RtoC (25 / 32).
Proof. exact (one_well argsort eigh L). Qed.

(** C58.  A positive energy can be missing from the result ... *)
Theorem C58_all_positive_refuted eig cargsort argsort eigh L : solves eig -> csorts cargsort -> sorts argsort -> diagonalises eigh -> lattice_init (LatName "square") = Ok L ->
  exists P q p ws r H, pol_init 0 P 0 "tbt" = Some (Ok q) /\
  pol_run eig cargsort argsort eigh (fun _ => Ok p) q [(0, 0)] 1 = (ws, Ok ([r], H)) /\
  exists l, eigval (2 * (ph_N p + 1 * List.length ws)) H l /\ 0 < fst l /\ ~ In (fst l) (kr_e r).
Proof. exact (fun H1 H2 H3 H4 H5 => dropped eig cargsort argsort eigh H1 H2 H3 H4 L H5). Qed.
Print Assumptions C58_all_positive_refuted.
(** ... what is reported are the first N + K - 1 modes of non-negative energy, in
    ascending order ... *)
Theorem C58_lowest_partial eig cargsort argsort eigh : solves eig -> csorts cargsort ->
  forall gme_run o ks m ws res mat, pol_run eig cargsort argsort eigh gme_run o ks m = (ws, Ok (res, mat)) -> exists p, gme_run ks = Ok p /\
  run_wells argsort eigh (po_exc o) ks m = (ws, Ok tt) /\ List.length res = List.length ks /\
  forall i r, nth_error res i = Some r -> exists H ms, construct (po_a o) p m ws i = Ok H /\
    positive_modes (2 * (ph_N p + m * List.length ws)) H ms /\
    let kept := firstn (ph_N p + m * List.length ws - 1) ms in
    r = KRes (map (fun m => fst (fst m)) kept) (map (fun m => snd (fst m)) kept) (map snd kept)
          (map (fun x => fst (fractions (ph_N p) (m * List.length ws) (snd x))) kept) (map (fun x => snd (fractions (ph_N p) (m * List.length ws) (snd x))) kept).
Proof. exact (run_inv eig cargsort argsort eigh). Qed.
Print Assumptions C58_lowest_partial.
(** ... out of N + K, when the matrix has a basis of eigenvectors and no eigenvalue
    on the imaginary axis: the highest one is lost. *)
Theorem C58_one_lost_partial N K A c d e ms : let n := (2 * (N + K))%nat in let H := hopfield N K A c d e in
  positive_modes n H ms -> (exists ls V, eigenbasis n H ls V) -> (forall l, eigval n H l -> fst l <> 0) ->
  List.length ms = (N + K)%nat.
Proof. exact (half_positive N K A c d e ms). Qed.
Print Assumptions C58_one_lost_partial.

(** C90.  Without losses the energies need not be real with two wells ... *)
Theorem C90_real_refuted argsort eigh L : sorts argsort -> diagonalises eigh -> lattice_init (LatName "square") = Ok L ->
  exists P q p ws H f fi, pol_init 0 P 0 "tbt" = Some (Ok q) /\ run_wells argsort eigh (po_exc q) [(0, 0)] 1 = (ws, Ok tt) /\ construct (po_a q) p 1 ws 0 = Ok H /\
  let K := List.length ws in filled 1 0 ws /\ SymModel.get (ph_freqs p) 0 = Ok f /\ SymModel.get (ph_ims p) 0 = Ok fi /\
  (forall n, (n < ph_N p)%nat -> 0 < nth n f 0 /\ nth n fi 0 = 0) /\
  (forall j, (j < K)%nat -> 0 < fst (exciton_of (ph_N p) H j) /\ snd (exciton_of (ph_N p) H j) = 0) /\
  (forall n1 n2, (n1 < ph_N p)%nat -> (n2 < ph_N p)%nat -> snd (dia_of (ph_N p) K H n1 n2) = 0) /\
  exists l, eigval (2 * (ph_N p + K)) H l /\ snd l <> 0.
Proof. exact (fun Hs He HL => complex_energy argsort eigh Hs He L HL). Qed.
Print Assumptions C90_real_refuted.
(** ... with one well and real D they are real and not zero. *)
Theorem C90_one_well_partial a p M ws kind H f fi : construct a p M ws kind = Ok H -> let N := ph_N p in let K := (M * List.length ws)%nat in
  List.length ws = 1%nat -> filled M kind ws ->
  SymModel.get (ph_freqs p) kind = Ok f -> SymModel.get (ph_ims p) kind = Ok fi ->
  (forall n, (n < N)%nat -> 0 < nth n f 0 /\ nth n fi 0 = 0) ->
  (forall j, (j < K)%nat -> 0 < fst (exciton_of N H j) /\ snd (exciton_of N H j) = 0) ->
  (forall n1 n2, (n1 < N)%nat -> (n2 < N)%nat -> snd (dia_of N K H n1 n2) = 0) ->
  forall l, eigval (2 * (N + K)) H l -> snd l = 0 /\ fst l <> 0.
Proof. exact (lossless_real a p M ws kind H f fi). Qed.
Print Assumptions C90_one_well_partial.

(** C91.  The energies change when a photonic mode is multiplied by a phase ... *)
Theorem C91_phase_refuted argsort eigh L : sorts argsort -> diagonalises eigh -> lattice_init (LatName "square") = Ok L ->
  exists P q p p' th ws H H', pol_init 0 P 0 "tbt" = Some (Ok q) /\ run_wells argsort eigh (po_exc q) [(0, 0)] 1 = (ws, Ok tt) /\ List.length ws = 1%nat /\ filled 1 0 ws /\
  same_light 0 th p p' /\ (forall n, Cmod (th n) = 1) /\ construct (po_a q) p 1 ws 0 = Ok H /\ construct (po_a q) p' 1 ws 0 = Ok H' /\
  exists l, eigval (2 * (ph_N p + 1)) H l /\ ~ eigval (2 * (ph_N p + 1)) H' l.
Proof. exact (fun Hs He HL => phase_matters argsort eigh Hs He L HL). Qed.
Print Assumptions C91_phase_refuted.
(** ... but not when the phases of the photonic modes differ at most by signs; the
    phases of the envelope functions never matter. *)
Theorem C91_harmless_partial a p p' M ws ws' kind th fi H : (0 < M)%nat -> same_light kind th p p' ->
  List.length ws' = List.length ws -> (forall w s s', nth_error ws w = Some s -> nth_error ws' w = Some s' -> same_well kind (fi w) s s') ->
  (forall n1 n2, (n1 < ph_N p)%nat -> (n2 < ph_N p)%nat -> (Cconj (th n1) * th n2 = RtoC 1 \/ Cconj (th n1) * th n2 = RtoC (- 1))%C) -> (forall n, (n < ph_N p)%nat -> (Cconj (th n) * th n = RtoC 1)%C) ->
  (forall w nu, (Cconj (fi w nu) * fi w nu = RtoC 1)%C) ->
  construct a p M ws kind = Ok H -> exists H', construct a p' M ws' kind = Ok H' /\
  forall l, eigval (2 * (ph_N p + M * List.length ws)) H' l <-> eigval (2 * (ph_N p + M * List.length ws)) H l.
Proof. exact (construct_phase a p p' M ws ws' kind th fi H). Qed.
Print Assumptions C91_harmless_partial.

(** C92.  One photonic mode and one exciton level without losses: the energies are the
    roots of the secular equation. *)
Theorem C92_secular a p ws kind H f fi : construct a p 1 ws kind = Ok H -> ph_N p = 1%nat -> List.length ws = 1%nat -> filled 1 kind ws ->
  SymModel.get (ph_freqs p) kind = Ok f -> SymModel.get (ph_ims p) kind = Ok fi -> nth 0 fi 0 = 0 -> nth 0 f 0 <> 0 ->
  let w := h_eV_Hz * c_light / a * nth 0 f 0 in let E := fst (exciton_of 1 H 0) in let g := Cmod (coupling_of 1 H 0 0) ^ 2 in
  snd (exciton_of 1 H 0) = 0 -> E <> 0 ->
  forall l, eigval 4 H l <-> (l * l * (l * l) - RtoC (w ^ 2 + E ^ 2 + 4 * w * g / E) * (l * l) + RtoC (w ^ 2 * E ^ 2) = RtoC 0)%C.
Proof. exact (two_oscillators a p ws kind H f fi). Qed.
Print Assumptions C92_secular.

(** C93.  The energies depend on the order in which the wells were added. *)
Theorem C93_order_refuted argsort eigh L : sorts argsort -> diagonalises eigh -> lattice_init (LatName "square") = Ok L ->
  exists P P' q q' p ws ws' H H' q1 q2, pc_qws P = [q1; q2] /\ pc_qws P' = [q2; q1] /\ pc_lattice P = pc_lattice P' /\ pc_layers P = pc_layers P' /\
  pol_init 0 P 0 "tbt" = Some (Ok q) /\ run_wells argsort eigh (po_exc q) [(0, 0)] 1 = (ws, Ok tt) /\ construct (po_a q) p 1 ws 0 = Ok H /\
  pol_init 0 P' 0 "tbt" = Some (Ok q') /\ run_wells argsort eigh (po_exc q') [(0, 0)] 1 = (ws', Ok tt) /\ construct (po_a q') p 1 ws' 0 = Ok H' /\
  exists l, eigval (2 * (ph_N p + 2)) H l /\ ~ eigval (2 * (ph_N p + 2)) H' l.
Proof. exact (fun Hs He HL => order_matters argsort eigh Hs He L HL). Qed.
Print Assumptions C93_order_refuted.
(** Only the last well matters: the others may come in any order.  The matrices differ
    by the numbering of rows and columns, the energies are the same. *)
Theorem C93_last_well_kept_partial argsort eigh ws w ws' ks m us a p kind H : run_wells argsort eigh (ws ++ [w]) ks m = (us, Ok tt) ->
  construct a p m us kind = Ok H -> (0 < ph_N p)%nat -> Permutation ws ws' ->
  exists us' H' t, run_wells argsort eigh (ws' ++ [w]) ks m = (us', Ok tt) /\ construct a p m us' kind = Ok H' /\
    let n := (2 * (ph_N p + m * S (List.length ws)))%nat in
    permutes n t /\ (forall i j, (i < n)%nat -> (j < n)%nat -> H' i j = H (t i) (t j)) /\
    forall l, eigval n H' l <-> eigval n H l.
Proof. exact (order_free argsort eigh ws w ws' ks m us a p kind H). Qed.
Print Assumptions C93_last_well_kept_partial.
Example C93_last_well_kept_case argsort eigh L : sorts argsort -> diagonalises eigh -> lattice_init (LatName "square") = Ok L ->
  exists P q s1 s2 s3 p us H, pol_init 0 P 0 "tbt" = Some (Ok q) /\ po_exc q = [s1; s2] ++ [s3] /\ (0 < ph_N p)%nat /\
  run_wells argsort eigh ([s1; s2] ++ [s3]) [(0, 0)] 1 = (us, Ok tt) /\ construct (po_a q) p 1 us 0 = Ok H /\
  exists i, (i < 3)%nat /\ H 0%nat (1 + i)%nat <> RtoC 0.
Proof. exact (three_wells argsort eigh L). Qed.

(** C94.  Wrong use: no wells, wells with different a, no k-points. *)
Theorem C94_no_wells fuel P gmax tr : pc_qws P = [] -> pol_init fuel P gmax tr = Some (Raise ValueError).
Proof. exact (no_wells fuel P gmax tr). Qed.
Print Assumptions C94_no_wells.
Theorem C94_unequal_a fuel P gmax tr ws : init_wells fuel P gmax tr (pc_qws P) = Some (Ok ws) -> (exists s, In s ws /\ 1 / 10 ^ 15 <= Rabs (ex_a s - nth 0 (map ex_a ws) 0)) ->
  pol_init fuel P gmax tr = Some (Raise ValueError).
Proof. exact (unequal_a fuel P gmax tr ws). Qed.
Print Assumptions C94_unequal_a.
Theorem C94_no_k eig cargsort argsort eigh gme_run o m : (exists p, gme_run [] = Ok p) ->
  snd (pol_run eig cargsort argsort eigh gme_run o [] m) = Raise UnboundLocalError.
Proof. exact (empty_k eig cargsort argsort eigh gme_run o m). Qed.
Print Assumptions C94_no_k.
(** the first well whose run raises ends the run: its error is reported, earlier wells
    keep their new results, later wells keep their old ones *)
Theorem C94_well_fails eig cargsort argsort eigh gme_run o ks m e pre s s' post : po_exc o = pre ++ s :: post ->
  (exists p, gme_run ks = Ok p) -> exc_run argsort eigh s ks m = (s', Raise e) ->
  (forall w, In w pre -> exists u, snd (exc_run argsort eigh w ks m) = Ok u) ->
  pol_run eig cargsort argsort eigh gme_run o ks m = (map (fun w => fst (exc_run argsort eigh w ks m)) pre ++ s' :: post, Raise e).
Proof. exact (run_stops eig cargsort argsort eigh gme_run o ks m e pre s s' post). Qed.
Print Assumptions C94_well_fails.
Example C94_well_fails_case argsort eigh s m : exists s', exc_run argsort eigh s [] m = (s', Raise UnboundLocalError).
Proof. exists (fst (exc_run argsort eigh s [] m)). rewrite <- (proj1 (ExcProofs4.exc_no_k argsort eigh s m)). apply surjective_pairing. Qed.
