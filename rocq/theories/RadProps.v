(** Properties C46-C48, C80, C81 and C111: radiative losses. *)
From Verif Require Import Py CBase SlabModel SlabSpec MatElModel MatElSpec RadSpec RadModel RadProofs RadProofs2 RadProofs3 RadProofs4.
Open Scope R_scope.
Open Scope list_scope.

(** C46.  Every reported rate y is the only non-negative solution of
    (x + 2 pi i y)^2 = omega^2 + i T, where T is the sum of the squared moduli of
    the reported couplings; it is zero only for T = 0 and grows with T. *)
Theorem C46_loss_rates dl e n fs vs minds im rs : compute_rad dl e n fs vs minds = Ok (im, rs) ->
  forall i m f y, nth_error minds i = Some m -> nth_error fs m = Some f -> nth_error im i = Some y ->
  exists r, nth_error rs i = Some r /\
    let T := total (rr_lte r ++ rr_ute r ++ rr_ltm r ++ rr_utm r) in
    loss_rate (2 * PI * f) T (2 * PI * y) /\ (forall y', loss_rate (2 * PI * f) T y' -> y' = 2 * PI * y) /\
    0 <= y /\ (y = 0 <-> T = 0) /\
    (forall T' y', 0 <= T' -> loss_rate (2 * PI * f) T' (2 * PI * y') -> (y' < y <-> T' < T)).
Proof. exact (C46_lem dl e n fs vs minds im rs). Qed.
Print Assumptions C46_loss_rates.
Example C46_example : exists n v im rs, fst v = n /\ compute_rad 0 (ex_rad (0, 1)) 1 [1] [v] [0%nat] = Ok (im, rs).
Proof. exact (ex_compute 1). Qed.
(** such a rate exists for every coupling *)
Theorem C46_rate_exists w T : 0 <= T -> loss_rate w T (im_sqrt w T).
Proof. exact (im_sqrt_rate w T). Qed.
Print Assumptions C46_rate_exists.
(** the computation does not fail: the mode numbers, their sizes and the length
    of the eigenvector belong together, and there is at least one layer *)
Theorem C46_no_failure dl e f v : consistent e (fst v) -> (List.length (re_ds e) + 2 = List.length (re_eps e))%nat -> re_ds e <> [] ->
  exists r, rad_one dl e f v = Ok r.
Proof. exact (rad_one_ok dl e f v). Qed.
Print Assumptions C46_no_failure.
Example C46_consistent_example : exists n, consistent (ex_rad (0, 1)) n.
Proof. exact (ex_rad_consistent (0, 1)). Qed.

(** exactly the stored modes can be asked for *)
Theorem C46_stored_modes dl e fs vs minds : minds <> [] -> Forall (fun i => (i < List.length fs)%nat) minds -> List.length vs = List.length fs ->
  Forall (fun v => consistent e (fst v)) vs -> (List.length (re_ds e) + 2 = List.length (re_eps e))%nat -> re_ds e <> [] ->
  exists im rs, compute_rad dl e (List.length fs) fs vs minds = Ok (im, rs) /\ List.length im = List.length minds.
Proof. exact (compute_in_range dl e fs vs minds). Qed.
Print Assumptions C46_stored_modes.
Theorem C46_other_modes dl e n fs vs minds i : In i minds -> (n <= i)%nat ->
  compute_rad dl e n fs vs minds = Raise ValueError /\ compute_rad_sp dl e n fs vs minds = Raise ValueError.
Proof. exact (compute_out_of_range dl e n fs vs minds i). Qed.
Print Assumptions C46_other_modes.
Example C46_other_example : In 2%nat [0%nat; 2%nat] /\ (2 <= 2)%nat /\ Forall (fun i => (i < List.length [1; 2])%nat) [0%nat; 1%nat].
Proof. split; [simpl; auto|]. split; [lia|]. repeat constructor. Qed.

(** C47.  Below both light lines: no channels, zero loss, unbalance 1/2. *)
Theorem C47_below_light_line dl n ks im ub rss : run_im dl n ks = Ok (im, ub, rss) ->
  forall k e fs vs i f, nth_error ks k = Some (e, fs, vs) -> (i < n)%nat -> nth_error fs i = Some f ->
  Forall (below_light_line (re_clad_l e) (2 * PI * f) (re_dgx e) (re_k e)) (re_gvec e) ->
  Forall (below_light_line (re_clad_u e) (2 * PI * f) (re_dgx e) (re_k e)) (re_gvec e) ->
  nth_error (nth k im []) i = Some 0 /\ nth_error (nth k ub []) i = Some (1 / 2) /\
  exists r, nth_error (nth k rss []) i = Some r /\ rr_gl r = [] /\ rr_gu r = [] /\
    rr_lte r = [] /\ rr_ltm r = [] /\ rr_ute r = [] /\ rr_utm r = [].
Proof. exact (C47_lem dl n ks im ub rss). Qed.
Print Assumptions C47_below_light_line.
(** ... and the computation itself does not fail there *)
Theorem C47_no_failure dl e f v : consistent e (fst v) ->
  Forall (below_light_line (re_clad_l e) (2 * PI * f) (re_dgx e) (re_k e)) (re_gvec e) ->
  Forall (below_light_line (re_clad_u e) (2 * PI * f) (re_dgx e) (re_k e)) (re_gvec e) ->
  rad_one dl e f v = Ok (RadRes 0 0 0 [] [] [] [] [] []).
Proof. exact (below_ok dl e f v). Qed.
Print Assumptions C47_no_failure.
Example C47_example : let e := ex_rad (0, 1) in let f := / (2 * PI) in
  (exists n v im ub rss, fst v = n /\ run_im 0 1 [(e, [f], [v])] = Ok (im, ub, rss)) /\
  Forall (below_light_line (re_clad_l e) (2 * PI * f) (re_dgx e) (re_k e)) (re_gvec e) /\
  Forall (below_light_line (re_clad_u e) (2 * PI * f) (re_dgx e) (re_k e)) (re_gvec e).
Proof.
  cbv zeta. pose proof PI_RGT_0. split; [apply ex_run_im|].
  assert (K : below_light_line 1 (2 * PI * / (2 * PI)) 0 (0, 1) (2, 0)).
  { unfold below_light_line, sq_len. cbn [fst snd]. rewrite Rinv_r by lra. lra. }
  split; (constructor; [exact K|constructor]).
Qed.

(** C48.  The unbalance lies in [0,1), is 1/2 without loss, and otherwise lies
    below or above 1/2 according to the TE and TM rates; these never exceed the
    total rate, which never exceeds their sum. *)
Theorem C48_unbalance dl n ks im ub rss : run_im dl n ks = Ok (im, ub, rss) ->
  forall k e fs vs i, nth_error ks k = Some (e, fs, vs) -> (i < n)%nat ->
  exists f r y te tm, nth_error fs i = Some f /\ nth_error (nth k rss []) i = Some r /\ nth_error (nth k im []) i = Some y /\
    loss_rate (2 * PI * f) (total (rr_lte r ++ rr_ute r ++ rr_ltm r ++ rr_utm r)) (2 * PI * y) /\
    loss_rate (2 * PI * f) (total (rr_lte r ++ rr_ute r)) (2 * PI * te) /\
    loss_rate (2 * PI * f) (total (rr_ltm r ++ rr_utm r)) (2 * PI * tm) /\
    te <= y /\ tm <= y /\ y <= te + tm /\
    exists u, nth_error (nth k ub []) i = Some u /\ 0 <= u < 1 /\ (y = 0 -> u = 1 / 2) /\
      (1 / 10 ^ 15 <= y -> (u < 1 / 2 <-> te < tm + 1 / 10 ^ 15) /\ (1 / 2 < u <-> tm + 1 / 10 ^ 15 < te)).
Proof. exact (C46_parts_lem dl n ks im ub rss). Qed.
Print Assumptions C48_unbalance.
Example C48_example : exists n v im ub rss, fst v = n /\ run_im 0 1 [(ex_rad (0, 1), [1], [v])] = Ok (im, ub, rss).
Proof. exact (ex_run_im 1). Qed.

(** C80.  Multiplying the eigenvector by a phase factor multiplies the couplings
    by its conjugate and leaves the rates and the channels alone. *)
Theorem C80_phase dl e f v c r : fst c * fst c + snd c * snd c = 1 -> rad_one dl e f v = Ok r ->
  exists r', rad_one dl e f (fst v, fun i => Cmult c (snd v i)) = Ok r' /\
    rr_tot r' = rr_tot r /\ rr_te r' = rr_te r /\ rr_tm r' = rr_tm r /\
    rr_lte r' = map (Cmult (Cconj c)) (rr_lte r) /\ rr_ltm r' = map (Cmult (Cconj c)) (rr_ltm r) /\
    rr_ute r' = map (Cmult (Cconj c)) (rr_ute r) /\ rr_utm r' = map (Cmult (Cconj c)) (rr_utm r) /\
    rr_gl r' = rr_gl r /\ rr_gu r' = rr_gu r.
Proof. exact (rad_one_scaled dl e f v c r). Qed.
Print Assumptions C80_phase.
Example C80_example : fst Ci * fst Ci + snd Ci * snd Ci = 1 /\ exists n v r, fst v = n /\ rad_one 0 (ex_rad (0, 1)) 1 v = Ok r.
Proof. split; [simpl; lra|]. exact (ex_rad_ok (0, 1) 1). Qed.

(** C81.  Partial: the channels of each cladding are exactly the plane waves not
    below its light line, with one coupling per channel and polarisation.
    Missing: a plane wave exactly on the light line is a channel, and its density
    of states divides by zero. *)
Theorem C81_channels_partial dl e f v r : rad_one dl e f v = Ok r ->
  (forall G, In G (rr_gl r) <-> In G (re_gvec e) /\ ~ below_light_line (re_clad_l e) (2 * PI * f) (re_dgx e) (re_k e) G) /\
  (forall G, In G (rr_gu r) <-> In G (re_gvec e) /\ ~ below_light_line (re_clad_u e) (2 * PI * f) (re_dgx e) (re_k e) G) /\
  List.length (rr_lte r) = List.length (rr_gl r) /\ List.length (rr_ltm r) = List.length (rr_gl r) /\
  List.length (rr_ute r) = List.length (rr_gu r) /\ List.length (rr_utm r) = List.length (rr_gu r).
Proof. exact (C81_lem dl e f v r). Qed.
Print Assumptions C81_channels_partial.
Theorem C81_on_light_line_refuted : exists dl e f v r G, rad_one dl e f v = Ok r /\ 0 < f /\ In G (rr_gl r) /\
  re_clad_l e * ((2 * PI * f) * (2 * PI * f)) - sq_len G (re_k e) (re_dgx e) = 0.
Proof. exact C81_cx. Qed.
Print Assumptions C81_on_light_line_refuted.
Example C81_example : exists n v r, fst v = n /\ rad_one 0 (ex_rad (0, 1)) 1 v = Ok r.
Proof. exact (ex_rad_ok (0, 1) 1). Qed.

(** C111.  The coupling of a mode to an open channel of the lower or upper
    cladding is the square root of pi times the density of states, times the
    overlap of the mode's curl field with that of the one state that comes in
    from that cladding (C108); the factor -i belongs to TE. *)
Theorem C111_couplings_are_overlaps dl e f v r (gm : nat -> gmode) (up te : bool) j G c : rad_one dl e f v = Ok r ->
  (forall n m, nth_error (re_inc e) n = Some m -> re_get e m = Ok (gm n)) ->
  (List.length (re_ds e) + 2 = List.length (re_eps e))%nat -> re_ds e <> [] ->
  nth_error (if up then rr_gu r else rr_gl r) j = Some G ->
  nth_error (if up then (if te then rr_ute r else rr_utm r) else if te then rr_lte r else rr_ltm r) j = Some c ->
  let w := 2 * PI * f in let g := sqrt (sq_len G (re_k e) (re_dgx e)) in let Nl := List.length (re_eps e) in
  let ec := if up then re_clad_u e else re_clad_l e in
  let e_in := if up then last (re_eps e) 0 else hd 0 (re_eps e) in
  let ep il := nth il (re_eps e) 0 in
  / 10 ^ 10 <= g -> Forall (fun x => 0 < x /\ chi w g x <> RtoC 0) (re_eps e) -> g * g < e_in * (w * w) ->
  (forall n i, (n < List.length (re_inc e))%nat -> (i < nth n (re_numg e) 0)%nat ->
     md_A (gm n) 0 i = RtoC 0 /\ md_B (gm n) (Nl - 1) i = RtoC 0 /\ 0 < snd (md_chi (gm n) 0 i) /\ 0 < snd (md_chi (gm n) (Nl - 1) i) /\
     forall il, (0 < il < Nl - 1)%nat -> apart dl (md_chi (gm n) il i) (chi w g (ep il))) ->
  let F n i il := let q := nth (md_g (gm n) i) (re_gvec e) (0, 0) in
     curl_field (Nat.even (nth n (re_inc e) 0%nat)) (fst q + fst (re_k e) + re_dgx e) (snd q + snd (re_k e)) (md_om (gm n) i) (ep il)
       (md_chi (gm n) il i) (md_A (gm n) il i) (md_B (gm n) il i) in
  exists (As Bs : list C) (idx : nat) (V : nat -> nat -> nat -> C),
    let Frad il := curl_field te (fst G + fst (re_k e) + re_dgx e) (snd G + snd (re_k e)) w (ep il)
       (chi w g (ep il)) (nth il As (RtoC 0)) (nth il Bs (RtoC 0)) in
    scattering te (if up then 1 else 0) (re_eps e) (map (chi w g) (re_eps e)) (0 :: map (fun x => x / 2) (re_ds e) ++ [0]) As Bs
      (if te then RtoC (1 / (sqrt e_in * w)) else RtoC 1) /\
    nth_error (re_gvec e) idx = Some G /\
    (forall n i il, (n < List.length (re_inc e))%nat -> (i < nth n (re_numg e) 0)%nat -> (il < Nl)%nat ->
       is_layer_int dl il Nl (re_ds e) (fun z => hdot (F n i il z) (Frad il z)) (V n i il)) /\
    c = (RtoC (sqrt (ec / (4 * sqrt (ec * (w * w) - g * g)))) * ((if te then - Ci else RtoC 1) *
      csum (List.length (re_inc e)) (fun n => csum (nth n (re_numg e) 0%nat) (fun i =>
        Cconj (snd v (list_sum (firstn n (re_numg e)) + i)%nat) * csum Nl (fun il => re_einv e il (md_g (gm n) i) idx * V n i il)))))%C.
Proof. exact (couplings_overlap dl e f v r gm up te j G c). Qed.
Print Assumptions C111_couplings_are_overlaps.
Example C111_example : let e := ex_rad2 in let w := 2 * PI * (3 / (2 * PI)) in
  exists r, rad_one 0 e (3 / (2 * PI)) (1%nat, fun _ => RtoC 1) = Ok r /\ nth_error (rr_gl r) 0 = Some (2, 0) /\
  let g := sqrt (sq_len (2, 0) (re_k e) (re_dgx e)) in
  / 10 ^ 10 <= g /\ Forall (fun x => 0 < x /\ chi w g x <> RtoC 0) (re_eps e) /\ g * g < hd 0 (re_eps e) * (w * w) /\
  (forall n i, (n < List.length (re_inc e))%nat -> (i < nth n (re_numg e) 0)%nat ->
     md_A ex_gm 0 i = RtoC 0 /\ md_B ex_gm 2 i = RtoC 0 /\ 0 < snd (md_chi ex_gm 0 i) /\ 0 < snd (md_chi ex_gm 2 i) /\
     forall il, (0 < il < 3 - 1)%nat -> apart 0 (md_chi ex_gm il i) (chi w g (nth il (re_eps e) 0))).
Proof. exact ex_rad2_ok. Qed.
