(** Proofs about the reports. *)
From Verif Require Import Py CBase MiscModel RepModel MiscSpec MiscProofs RepSpec RepProofs.
Open Scope R_scope.
Open Scope list_scope.

Lemma long_k d exact sep x : (forall n, 0 <= d n) -> long (ck_done (fst x)) -> long (ck_done (fst (one_k_timed d exact sep x))).
Proof.
  intros Hd H. destruct x as [c [[[tg tc] te] ts]]. cbn [fst] in H. unfold one_k_timed, construct_timed.
  destruct exact, sep; cbv zeta; cbn [fst]; repeat (apply work_long; [exact Hd|]); exact H.
Qed.
Lemma long_run d compute sep nk t0 : (forall n, 0 <= d n) -> long (ck_done (fst (gme_timed d compute sep nk t0))).
Proof.
  intros Hd. unfold gme_timed. cbv zeta.
  assert (K : forall exact c0 y, long (ck_done c0) -> long (ck_done (fst (Nat.iter nk (one_k_timed d exact sep) (c0, y))))).
  { intros exact c0 y H. induction nk as [|n IH]; [exact H|]. cbn [Nat.iter]. apply long_k; [exact Hd|exact IH]. }
  assert (E : long (ck_done (Clock t0 []))) by constructor.
  destruct (String.eqb (lower compute) "interp").
  - match goal with |- context [Nat.iter nk (one_k_timed d ?ex sep) (?c0, ?y)] => assert (H : long (ck_done c0)) by (repeat (apply work_long; [exact Hd|]); exact E); specialize (K ex c0 y H); destruct (Nat.iter nk (one_k_timed d ex sep) (c0, y)) as [c [[[tg tc] te] ts]] end.
    cbn [fst] in *. apply work_long; assumption.
  - match goal with |- context [Nat.iter nk (one_k_timed d ?ex sep) (?c0, ?y)] => assert (H : long (ck_done c0)) by (repeat (apply work_long; [exact Hd|]); exact E); specialize (K ex c0 y H); destruct (Nat.iter nk (one_k_timed d ex sep) (c0, y)) as [c [[[tg tc] te] ts]] end.
    cbn [fst] in *. apply work_long; assumption.
Qed.

Lemma percents_ok t p : percents t = Ok p -> tm_total t <> 0 /\
  p = (tm_guided t / tm_total t * 100, tm_eps t / tm_total t * 100, (tm_eig t - tm_symm t) / tm_total t * 100, tm_creat t / tm_total t * 100, tm_symm t / tm_total t * 100).
Proof.
  unfold percents, pydiv. destruct (Reqb (tm_total t) 0) eqn:E; cbn [bind]; [discriminate|]. intros H. inversion H. split; [apply Reqb_false; exact E|reflexivity].
Qed.
Lemma percents_raise t : tm_total t = 0 -> percents t = Raise ZeroDivisionError.
Proof. intros H. unfold percents, pydiv. rewrite (proj2 (Reqb_true _ _) H). reflexivity. Qed.
Lemma percents_def t : tm_total t <> 0 -> exists p, percents t = Ok p.
Proof. intros H. unfold percents, pydiv. rewrite (proj2 (Reqb_false _ _) H). cbn [bind]. eexists. reflexivity. Qed.

Section Honest.
Context (d : nat -> R) (compute : string) (sep : bool) (nk : nat) (t0 : R).
Let c := fst (gme_timed d compute sep nk t0).
Let t := snd (gme_timed d compute sep nk t0).
Let l := ck_done c.
Lemma facts : tm_guided t = spent SGuided l /\ tm_eps t = spent SEpsInv l /\ tm_eig t = spent SDiag l + spent SSymm l /\ tm_symm t = spent SSymm l /\
  tm_creat t = spent SBuild l + (if String.eqb (lower compute) "exact" then 0 else - spent SGuided l) /\ tm_total t = elapsed l.
Proof.
  pose proof (times_ok d compute sep nk t0) as H. subst l t c. destruct (gme_timed d compute sep nk t0) as [c0 tt0]. exact H.
Qed.
End Honest.

(** without the interpolation no guided mode is computed outside _construct_mat *)
Lemma iter_guided d sep n x : spent SGuided (ck_done (fst (Nat.iter n (one_k_timed d false sep) x))) = spent SGuided (ck_done (fst x)).
Proof.
  induction n as [|n IH]; [reflexivity|]. change (Nat.iter (S n) (one_k_timed d false sep) x) with (one_k_timed d false sep (Nat.iter n (one_k_timed d false sep) x)). rewrite <- IH. destruct (Nat.iter n _ x) as [c [[[tg tc] te] ts]].
  unfold one_k_timed, construct_timed. destruct sep; cbv zeta beta iota; unfold work; cbn [fst ck_done]; steps; lra.
Qed.
Lemma no_guided d compute sep nk t0 : String.eqb (lower compute) "interp" = false -> String.eqb (lower compute) "exact" = false ->
  spent SGuided (ck_done (fst (gme_timed d compute sep nk t0))) = 0.
Proof.
  intros Hi He. unfold gme_timed. rewrite Hi, He. cbv zeta.
  match goal with |- context [Nat.iter nk ?f ?x] => pose proof (iter_guided d sep nk x) as H; destruct (Nat.iter nk f x) as [c [[[tg tc] te] ts]] end.
  cbn [fst] in *. steps. rewrite H. unfold spent. cbn. lra.
Qed.
Lemma creat_ok d compute sep nk t0 : String.eqb (lower compute) "interp" = false ->
  let '(c, t) := gme_timed d compute sep nk t0 in tm_creat t = spent SBuild (ck_done c).
Proof.
  intros Hi. pose proof (facts d compute sep nk t0) as (_ & _ & _ & _ & H & _).
  destruct (String.eqb (lower compute) "exact") eqn:E.
  - destruct (gme_timed d compute sep nk t0) as [c t]. cbn [fst snd] in H. lra.
  - pose proof (no_guided d compute sep nk t0 Hi E) as N. destruct (gme_timed d compute sep nk t0) as [c t]. cbn [fst snd] in *. lra.
Qed.
Lemma share x e : e <> 0 -> x / e * 100 * e = 100 * x.
Proof. intros H. field. exact H. Qed.

Lemma lines_ok d compute sep nk t0 v kz sp ls :
  let '(c, t) := gme_timed d compute sep nk t0 in
  gme_report t v kz sp = Ok ls ->
  Forall (honest (ck_done c)) (filter (fun x => negb (of_step SBuild x)) ls) /\
  Forall (fun x => ln_sec x = spent SBuild (ck_done c) - (if String.eqb (lower compute) "interp" then spent SGuided (ck_done c) else 0)) (filter (of_step SBuild) ls) /\
  (if v then List.length ls = (if kz then 6%nat else 5%nat) else ls = []).
Proof.
  pose proof (facts d compute sep nk t0) as (F1 & F2 & F3 & F4 & F5 & F6).
  assert (C : String.eqb (lower compute) "interp" = false -> tm_creat (snd (gme_timed d compute sep nk t0)) = spent SBuild (ck_done (fst (gme_timed d compute sep nk t0)))).
  { intros Hi. pose proof (creat_ok d compute sep nk t0 Hi). destruct (gme_timed d compute sep nk t0). exact H. }
  destruct (gme_timed d compute sep nk t0) as [c t]. cbn [fst snd] in *. unfold gme_report. intros H.
  apply bind_ok in H. destruct H as (p & P & H). apply percents_ok in P. destruct P as [T ->].
  assert (B : tm_creat t = spent SBuild (ck_done c) - (if String.eqb (lower compute) "interp" then spent SGuided (ck_done c) else 0)).
  { destruct (String.eqb (lower compute) "interp") eqn:Ei; [rewrite (compute_cases _ Ei) in F5; lra|rewrite C by reflexivity; lra]. }
  rewrite F6 in T.
  destruct kz; [destruct sp as [sp|]; cbn [bind] in H; [|discriminate]|cbn [bind] in H]; destruct v; inversion H; subst ls; clear H; cbn [filter app of_step ln_what negb same_step List.length];
    (split; [|split]); repeat constructor; cbn [ln_sec ln_perc ln_what]; rewrite ?F6, ?F1, ?F2, ?F3, ?F4; rewrite ?share by exact T; try lra; try exact B.
Qed.

(** a run without interpolation: every line honest, shares between 0 and 100 *)
Lemma honest_run d compute sep nk t0 v kz sp ls : String.eqb (lower compute) "interp" = false ->
  let '(c, t) := gme_timed d compute sep nk t0 in gme_report t v kz sp = Ok ls -> Forall (honest (ck_done c)) ls.
Proof.
  intros Hi. pose proof (facts d compute sep nk t0) as (F1 & F2 & F3 & F4 & _ & F6).
  pose proof (creat_ok d compute sep nk t0 Hi) as F5. destruct (gme_timed d compute sep nk t0) as [c t]. cbn [fst snd] in *. unfold gme_report. intros H.
  apply bind_ok in H. destruct H as (p & P & H). apply percents_ok in P. destruct P as [T ->]. rewrite F6 in T.
  destruct kz; [destruct sp as [sp|]; cbn [bind] in H; [|discriminate]|cbn [bind] in H]; destruct v; inversion H; subst ls; clear H; cbn [app];
    repeat constructor; cbn [ln_sec ln_perc ln_what]; rewrite ?F6, ?F1, ?F2, ?F3, ?F4, ?F5; rewrite ?share by exact T; lra.
Qed.
