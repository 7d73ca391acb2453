(** Model of the timers of a run and of the reports printed at its end:
    print_utils.py 58-235, the time.time() calls of GuidedModeExp.run
    (gme/gme.py 872-1171, 533-537), ExcitonSchroedEq.run (exc/exc.py 327-380) and
    HopfieldPol.run (pol/pol.py 303-350).  Paths are relative to /repo/legume.
    What a step computes is left out here; a step only takes time. *)
From Verif Require Import Py CBase MiscModel.
Open Scope R_scope.
Open Scope list_scope.

(** what the program is doing (the comments of gme/gme.py 957-1171) *)
Inductive step := SGuided | SEpsInv | SBuild | SSymm | SDiag | SOther.
(** the clock and the steps done since the start, latest last (gme/gme.py 872-1169) *)
Record clock := Clock { ck_now : R; ck_done : list (step * R) }.
(** a step which takes the time [d n], where n counts the steps (gme/gme.py 872-1169) *)
Definition work (d : nat -> R) (a : step) (c : clock) : clock :=
  let x := d (List.length (ck_done c)) in Clock (ck_now c + x) (ck_done c ++ [(a, x)]).

(** the attributes t_guided, t_eps_inv, t_eig, t_symmetry, t_creat_mat, total_time
    (gme/gme.py 969-975, 1166-1170) *)
Record times := Times { tm_guided : R; tm_eps : R; tm_eig : R; tm_symm : R; tm_creat : R; tm_total : R }.

(** _construct_mat, gme/gme.py 523-537: its guided modes are timed when they are
    computed in it.  The new t_guided is returned *)
Definition construct_timed (d : nat -> R) (exact : bool) (tg : R) (c : clock) : clock * R :=
  let c := work d SBuild c in
  let (c, tg) :=
    if exact then let t := ck_now c in let c := work d SGuided c in (c, tg + (ck_now c - t)) else (c, tg) in
  (work d SBuild c, tg).
(** the body of the loop, gme/gme.py 995-1148; [sep]: eig_solver is 'eigh' and
    kz_symmetry is set.  The accumulators are t_guided, t_creat_mat, t_eig, t_symmetry *)
Definition one_k_timed (d : nat -> R) (exact sep : bool) (x : clock * (R * R * R * R)) : clock * (R * R * R * R) :=
  let '(c, (tg, tc, te, ts)) := x in
  let c := work d SOther c in
  let t_create := ck_now c in
  let (c, tg) := construct_timed d exact tg c in
  let tc := tc + (ck_now c - t_create) in
  let c := work d SOther c in
  let t_eig := ck_now c in
  let (c, ts) :=
    if sep then let t_sym := ck_now c in let c := work d SSymm c in (c, ts + (ck_now c - t_sym)) else (c, ts) in
  let c := work d SDiag c in
  let te := te + (ck_now c - t_eig) in
  (work d SOther c, (tg, tc, te, ts)).
(** the timers of a run over [nk] k-points that raises nothing, gme/gme.py 872-1170;
    [compute] is gmode_compute, [t0] the time at the start *)
Definition gme_timed (d : nat -> R) (compute : string) (sep : bool) (nk : nat) (t0 : R) : clock * times :=
  let c := Clock t0 [] in
  let t_start := ck_now c in
  let c := work d SOther c in
  let (c, tg) :=
    if String.eqb (lower compute) "interp" then
      let t := ck_now c in let c := work d SGuided c in (c, ck_now c - t)
    else (c, 0) in
  let t := ck_now c in
  let c := work d SEpsInv c in
  let t_eps := ck_now c - t in
  let c := work d SOther c in
  let '(c, (tg, tc, te, ts)) :=
    Nat.iter nk (one_k_timed d (String.eqb (lower compute) "exact") sep) (c, (tg, 0, 0, 0)) in
  let c := work d SOther c in
  let tc := tc - tg in
  (c, Times tg t_eps te ts tc (ck_now c - t_start)).

(** one line of a report: what it is about, the seconds and the percentage shown.
    Numbers stand for their decimals (.3f, .0f) *)
Record line := Line { ln_what : option step; ln_sec : R; ln_perc : option R }.
(** x / t_tot of Python floats (print_utils.py 60-66) *)
Definition pydiv (x y : R) : result R := if Reqb y 0 then Raise ZeroDivisionError else Ok (x / y).
(** the percentages, print_utils.py 60-66 and 118-124: computed even if nothing is printed *)
Definition percents (t : times) : result (R * R * R * R * R) :=
  let* g := pydiv (tm_guided t) (tm_total t) in
  let* e := pydiv (tm_eps t) (tm_total t) in
  let* di := pydiv (tm_eig t - tm_symm t) (tm_total t) in
  let* cr := pydiv (tm_creat t) (tm_total t) in
  let* s := pydiv (tm_symm t) (tm_total t) in
  Ok (g * 100, e * 100, di * 100, cr * 100, s * 100).
(** print_GME_report, print_utils.py 116-149.  [kz]: kz_symmetry is set; [sparse] is
    use_sparse, [None] a value that is neither True nor False *)
Definition gme_report (t : times) (verbose kz : bool) (sparse : option bool) : result (list line) :=
  let* (g, e, di, cr, s) := percents t in
  let ls := [Line None (tm_total t) None; Line (Some SGuided) (tm_guided t) (Some g); Line (Some SEpsInv) (tm_eps t) (Some e);
             Line (Some SDiag) (tm_eig t - tm_symm t) (Some di); Line (Some SBuild) (tm_creat t) (Some cr)] in
  let* ls := if kz then match sparse with
                        | Some _ => Ok (ls ++ [Line (Some SSymm) (tm_symm t) (Some s)])
                        | None => Raise UnboundLocalError
                        end
             else Ok ls in
  Ok (if verbose then ls else []).
(** print_GME_report_rich, print_utils.py 58-113: the rows and the bars of the
    table; the last row is the total.  The decoration of the table is left out *)
Definition gme_report_rich (rnd : R -> R) (t : times) (verbose kz : bool) (sparse : option bool) : result (list (line * list Z)) :=
  let* (g, e, di, cr, s) := percents t in
  let row a x p := (Line a x (Some p), load_bar rnd p 20) in
  if verbose then
    let ls := [row (Some SGuided) (tm_guided t) g; row (Some SEpsInv) (tm_eps t) e;
               row (Some SDiag) (tm_eig t - tm_symm t) di; row (Some SBuild) (tm_creat t) cr] in
    let* ls := if kz then match sparse with
                          | Some _ => Ok (ls ++ [row (Some SSymm) (tm_symm t) s])
                          | None => Raise UnboundLocalError
                          end
               else Ok ls in
    Ok (ls ++ [row None (tm_total t) 100])
  else Ok [].

(** the timers of ExcitonSchroedEq.run, exc/exc.py 327-379: t_eig and total_time *)
Definition exc_timed (d : nat -> R) (nk : nat) (t0 : R) : clock * (R * R) :=
  let c := Clock t0 [] in
  let t_start := ck_now c in
  let c := work d SOther c in
  let (c, te) := Nat.iter nk (fun x : clock * R =>
    let (c, te) := x in
    let c := work d SBuild c in
    let t_eig := ck_now c in
    let c := work d SDiag c in
    (work d SOther c, te + (ck_now c - t_eig))) (c, 0) in
  (c, (te, ck_now c - t_start)).
(** print_ESE_report, print_utils.py 202-209 *)
Definition exc_report (te total : R) (verbose : bool) : result (list line) :=
  Ok (if verbose then [Line None total None; Line (Some SDiag) te None] else []).
(** print_ESE_report_rich, print_utils.py 177-199 *)
Definition exc_report_rich (te total : R) (verbose : bool) : result (list line) :=
  if verbose then let* p := pydiv te total in Ok [Line (Some SDiag) te (Some (p * 100)); Line None total (Some 100)] else Ok [].
(** print_HP_report, print_utils.py 231-235 *)
Definition pol_report (total : R) (verbose : bool) : result (list line) := Ok (if verbose then [Line None total None] else []).
(** print_HP_report_rich, print_utils.py 212-228; the caption reads exc_list[0] *)
Definition pol_report_rich (numeigs_ex : list nat) (total : R) (verbose : bool) : result (list line) :=
  if verbose then match numeigs_ex with [] => Raise IndexError | _ => Ok [Line None total None] end else Ok [].
