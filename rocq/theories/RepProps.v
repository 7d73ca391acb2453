(** C142, C143: the reports printed at the end of a run. *)
From Verif Require Import Py CBase RecipModel MiscModel RepModel MiscSpec MiscProofs RepSpec RepProofs RepProofs2 RepProofs3.
Open Scope R_scope.
Open Scope list_scope.

(** ten seconds for the guided modes, one for every other step *)
Definition slow_guided (n : nat) : R := if Nat.eqb n 1 then 10 else 1.
Lemma slow_guided_pos n : 0 <= slow_guided n.
Proof. unfold slow_guided. destruct (Nat.eqb n 1); lra. Qed.
Lemma slow_run : tm_creat (snd (gme_timed slow_guided "interp" false 1 0)) = - 8 /\ tm_total (snd (gme_timed slow_guided "interp" false 1 0)) = 20.
Proof. cbv -[Rplus Rminus Ropp IZR]. split; lra. Qed.
Lemma slow_bar : List.length (load_bar (fun x => x) (-8 / 20 * 100) 20) = 30%nat.
Proof.
  rewrite (proj2 (proj2 (bar_shape (fun x => x) (-8 / 20 * 100) 20))). replace (-8 / 20 * 100 / 100 * 20) with (- IZR 8) by lra.
  replace (np_int (- IZR 8)) with (-8)%Z; [reflexivity|].
  unfold np_int. rewrite (proj2 (Rleb_false _ _)) by lra. rewrite Ropp_involutive.
  pose proof (np_int_Z 8 ltac:(lia)) as H. unfold np_int in H. rewrite (proj2 (Rleb_true _ _)) in H by lra. rewrite H. reflexivity.
Qed.

(** C142.  With gmode_compute='interp' the guided modes are computed before the
    loop, yet their time is subtracted from that of the matrices: a run of 20
    seconds reports that the matrices took -8 seconds, -40 percent, and its bar is
    8 characters too long. *)
Theorem C142_times_refuted : exists d nk ls rows, (forall n, 0 <= d n) /\
  gme_report (snd (gme_timed d "interp" false nk 0)) true false (Some false) = Ok ls /\
  gme_report_rich (fun x => x) (snd (gme_timed d "interp" false nk 0)) true false (Some false) = Ok rows /\
  ~ Forall (honest (ck_done (fst (gme_timed d "interp" false nk 0)))) ls /\ Exists (fun x => ln_sec x < 0 /\ shown x < 0) ls /\
  Exists (fun x => List.length (snd x) = 30%nat) rows.
Proof.
  destruct slow_run as [A B]. destruct (percents_def (snd (gme_timed slow_guided "interp" false 1 0))) as [p P]; [rewrite B; lra|].
  pose proof (percents_ok _ _ P) as [_ E]. rewrite A, B in E.
  do 4 eexists. split; [exact slow_guided_pos|]. unfold gme_report, gme_report_rich.
  repeat match goal with |- context [gme_timed slow_guided "interp" false ?k 0] => is_evar k; unify k 1%nat end.
  rewrite P, E. cbn [bind]. split; [reflexivity|]. split; [reflexivity|]. split; [|split].
  - intros F. pose proof (Forall_inv (Forall_inv_tail (Forall_inv_tail (Forall_inv_tail (Forall_inv_tail F))))) as [F5 _]. cbn [ln_sec ln_what] in F5. rewrite A in F5.
    pose proof (spent_pos SBuild _ (long_run slow_guided "interp" false 1 0 slow_guided_pos)). lra.
  - do 4 apply Exists_cons_tl. apply Exists_cons_hd. unfold shown. cbn [ln_sec ln_perc]. rewrite A. lra.
  - cbn [app]. do 3 apply Exists_cons_tl. apply Exists_cons_hd. cbn [snd]. exact slow_bar.
Qed.
Print Assumptions C142_times_refuted.
(** What holds of every run: all the other lines are right, and that line lacks
    the time of the interpolated guided modes. *)
Theorem C142_lines_partial d compute sep nk t0 v kz sp ls :
  let '(c, t) := gme_timed d compute sep nk t0 in
  gme_report t v kz sp = Ok ls ->
  Forall (honest (ck_done c)) (filter (fun x => negb (of_step SBuild x)) ls) /\
  Forall (fun x => ln_sec x = spent SBuild (ck_done c) - (if String.eqb (lower compute) "interp" then spent SGuided (ck_done c) else 0)) (filter (of_step SBuild) ls) /\
  (if v then List.length ls = (if kz then 6%nat else 5%nat) else ls = []).
Proof. exact (lines_ok d compute sep nk t0 v kz sp ls). Qed.
Print Assumptions C142_lines_partial.
(** Without the interpolation every line is right, the shares lie between 0 and
    100 and add up to no more than 100. *)
Theorem C142_exact_partial d compute sep nk t0 v kz sp ls : String.eqb (lower compute) "interp" = false ->
  let '(c, t) := gme_timed d compute sep nk t0 in gme_report t v kz sp = Ok ls -> Forall (honest (ck_done c)) ls.
Proof. exact (honest_run d compute sep nk t0 v kz sp ls). Qed.
Print Assumptions C142_exact_partial.
Theorem C142_shares_partial d compute sep nk t0 v kz sp ls : (forall n, 0 <= d n) -> String.eqb (lower compute) "interp" = false ->
  gme_report (snd (gme_timed d compute sep nk t0)) v kz sp = Ok ls ->
  Forall (fun x => 0 <= shown x <= 100) ls /\ rsuml (map shown ls) <= 100.
Proof. exact (shares_run d compute sep nk t0 v kz sp ls). Qed.
Print Assumptions C142_shares_partial.
Theorem C142_bars_partial rnd d compute sep nk t0 kz sp rows : (forall n, 0 <= d n) -> rounding rnd [0%Z; 1%Z; 20%Z] -> String.eqb (lower compute) "interp" = false ->
  gme_report_rich rnd (snd (gme_timed d compute sep nk t0)) true kz sp = Ok rows ->
  Forall (fun x => List.length (snd x) = 22%nat) rows.
Proof. exact (bars_run rnd d compute sep nk t0 kz sp rows). Qed.
Print Assumptions C142_bars_partial.
(** The table of rich shows the numbers of the plain text. *)
Theorem C142_same_partial rnd t kz sp ls : gme_report t true kz sp = Ok ls -> exists rows, gme_report_rich rnd t true kz sp = Ok rows /\
  Forall (fun x => snd x = load_bar rnd (shown (fst x)) 20) rows /\ map fst rows = tl ls ++ [Line None (tm_total t) (Some 100)] /\ hd_error ls = Some (Line None (tm_total t) None).
Proof. exact (same_lines rnd t kz sp ls). Qed.
Print Assumptions C142_same_partial.
Example C142_case : exists ls rows, gme_report (snd (gme_timed slow_guided "exact" true 2 5)) true true (Some true) = Ok ls /\ List.length ls = 6%nat /\
  gme_report_rich (fun x => x) (snd (gme_timed slow_guided "Exact" true 2 5)) true true (Some false) = Ok rows /\ List.length rows = 6%nat /\
  spent SGuided (ck_done (fst (gme_timed slow_guided "exact" true 2 5))) = 2 /\ spent SBuild (ck_done (fst (gme_timed slow_guided "exact" true 2 5))) = 4.
Proof.
  assert (T : tm_total (snd (gme_timed slow_guided "exact" true 2 5)) = 29) by (cbv -[Rplus Rminus Ropp IZR]; lra).
  destruct (percents_def (snd (gme_timed slow_guided "exact" true 2 5))) as [[[[[g e] di] cr] s] P]; [rewrite T; lra|].
  do 2 eexists. unfold gme_report, gme_report_rich. change (gme_timed slow_guided "Exact" true 2 5) with (gme_timed slow_guided "exact" true 2 5). rewrite P. cbn [bind].
  split; [reflexivity|]. split; [reflexivity|]. split; [reflexivity|]. split; [reflexivity|]. cbv -[Rplus Rminus Ropp IZR]; split; lra.
Qed.

(** C143.  The report of a guided-mode run divides by the total time whether or not
    anything is printed: on a clock that has not moved a silent run raises
    ZeroDivisionError. *)
Theorem C143_silent_refuted : exists d nk, (forall n, 0 <= d n) /\
  gme_report (snd (gme_timed d "exact" false nk 0)) false false (Some false) = Raise ZeroDivisionError /\
  forall rnd, gme_report_rich rnd (snd (gme_timed d "exact" false nk 0)) false false (Some false) = Raise ZeroDivisionError.
Proof.
  exists (fun _ => 0), 1%nat. assert (T : tm_total (snd (gme_timed (fun _ => 0) "exact" false 1 0)) = 0) by (cbv -[Rplus Rminus Ropp IZR]; lra).
  split; [intros n; lra|]. split; [apply report_cases; exact T|]. intros rnd. apply rich_cases. exact T.
Qed.
Print Assumptions C143_silent_refuted.
(** That is the only clock for which it does; the exciton report divides only when
    it prints a table, the polariton report never. *)
Theorem C143_gme_partial rnd d compute sep nk t0 v kz sp : let '(c, t) := gme_timed d compute sep nk t0 in
  (gme_report t v kz sp = Raise ZeroDivisionError <-> elapsed (ck_done c) = 0) /\
  (gme_report_rich rnd t v kz sp = Raise ZeroDivisionError <-> elapsed (ck_done c) = 0) /\
  (elapsed (ck_done c) <> 0 -> sp <> None -> exists ls rows, gme_report t v kz sp = Ok ls /\ gme_report_rich rnd t v kz sp = Ok rows /\ (v = false -> ls = [] /\ rows = [])).
Proof.
  pose proof (facts d compute sep nk t0) as (_ & _ & _ & _ & _ & F). destruct (gme_timed d compute sep nk t0) as [c t]. cbn [fst snd] in F. rewrite <- F.
  split; [apply report_cases|]. split; [apply rich_cases|]. intros N S. destruct (percents_def t N) as [p P].
  unfold gme_report, gme_report_rich. rewrite P. cbn [bind]. destruct p as [[[[g e] di] cr] s]. destruct sp as [sp|]; [|contradiction].
  destruct kz, v; cbn [bind]; do 2 eexists; (split; [reflexivity|split; [reflexivity|intros V; try discriminate V; split; reflexivity]]).
Qed.
Print Assumptions C143_gme_partial.
Theorem C143_exciton_partial d nk t0 v ls : let '(c, (te, total)) := exc_timed d nk t0 in (forall n, 0 <= d n) ->
  (exc_report te total v = Ok ls -> Forall (honest (ck_done c)) ls) /\ (exc_report_rich te total v = Ok ls -> Forall (honest (ck_done c)) ls) /\
  (exc_report_rich te total v = Raise ZeroDivisionError <-> v = true /\ elapsed (ck_done c) = 0).
Proof. exact (exc_lines d nk t0 v ls). Qed.
Print Assumptions C143_exciton_partial.
Example C143_case : elapsed (ck_done (fst (gme_timed slow_guided "exact" true 2 5))) = 29 /\ elapsed (ck_done (fst (exc_timed slow_guided 2 0))) = 16.
Proof. cbv -[Rplus Rminus Ropp IZR]. split; lra. Qed.
