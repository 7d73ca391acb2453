(** Proofs about the timers and the reports. *)
From Verif Require Import Py CBase MiscModel RepModel MiscSpec MiscProofs RepSpec.
Open Scope R_scope.
Open Scope list_scope.

Lemma rsuml_app l m : rsuml (l ++ m) = rsuml l + rsuml m.
Proof. induction l as [|x l IH]; cbn [rsuml fold_right app]; [unfold rsuml; cbn; lra|]. unfold rsuml in *. rewrite IH. lra. Qed.
Lemma spent_app a l m : spent a (l ++ m) = spent a l + spent a m.
Proof. unfold spent. rewrite filter_app, map_app. apply rsuml_app. Qed.
Lemma elapsed_app l m : elapsed (l ++ m) = elapsed l + elapsed m.
Proof. unfold elapsed. rewrite map_app. apply rsuml_app. Qed.
Lemma spent_one a b x : spent a [(b, x)] = if same_step a b then x else 0.
Proof. unfold spent. cbn. destruct (same_step a b); cbn; lra. Qed.
Lemma elapsed_one b x : elapsed [(b, x)] = x.
Proof. unfold elapsed. cbn. lra. Qed.
Definition all_spent (l : list (step * R)) := spent SGuided l + spent SEpsInv l + spent SBuild l + spent SSymm l + spent SDiag l + spent SOther l.
Lemma elapsed_parts l : elapsed l = all_spent l.
Proof.
  induction l as [|[a x] l IH]; [unfold all_spent, elapsed, spent; cbn; lra|].
  change ((a, x) :: l) with ([(a, x)] ++ l). unfold all_spent in *. rewrite elapsed_app, !spent_app, !spent_one, elapsed_one, IH.
  destruct a; cbn [same_step]; lra.
Qed.

(** the log only grows by nonnegative durations *)
Definition timed (c : clock) (t0 : R) : Prop := ck_now c = t0 + elapsed (ck_done c).
Lemma work_now d a c t0 : timed c t0 -> timed (work d a c) t0.
Proof. unfold timed, work. cbn [ck_now ck_done]. intros H. rewrite elapsed_app, elapsed_one, H. lra. Qed.
Definition long (l : list (step * R)) : Prop := Forall (fun x => 0 <= snd x) l.
Lemma work_long d a c : (forall n, 0 <= d n) -> long (ck_done c) -> long (ck_done (work d a c)).
Proof. unfold work, long. cbn [ck_done]. intros Hd H. apply Forall_app. split; [exact H|]. constructor; [apply Hd|constructor]. Qed.
Lemma spent_pos a l : long l -> 0 <= spent a l.
Proof.
  unfold spent. induction 1 as [|[b x] l Hx _ IH]; [cbn; lra|]. cbn [filter]. destruct (same_step a (fst (b, x))); [|exact IH].
  cbn [map rsuml fold_right snd] in *. unfold rsuml in IH. lra.
Qed.

(** the invariant of the loop *)
Definition inv (exact : bool) (t0 eps : R) (x : clock * (R * R * R * R)) : Prop :=
  let '(c, (tg, tc, te, ts)) := x in let l := ck_done c in
  timed c t0 /\ tg = spent SGuided l /\ tc = spent SBuild l + (if exact then spent SGuided l else 0) /\
  te = spent SDiag l + spent SSymm l /\ ts = spent SSymm l /\ eps = spent SEpsInv l.
Ltac steps := unfold timed in *; cbn [work ck_now ck_done] in *; rewrite ?spent_app, ?spent_one, ?elapsed_app, ?elapsed_one; cbn [same_step].
Lemma inv_step d exact sep t0 eps x : inv exact t0 eps x -> inv exact t0 eps (one_k_timed d exact sep x).
Proof.
  destruct x as [c [[[tg tc] te] ts]]. unfold inv. intros (H & Hg & Hc & He & Hs & Hp).
  unfold one_k_timed, construct_timed. destruct exact, sep; cbv zeta; repeat split; steps; lra.
Qed.
Lemma inv_iter d exact sep t0 eps n x : inv exact t0 eps x -> inv exact t0 eps (Nat.iter n (one_k_timed d exact sep) x).
Proof. intros H. induction n as [|n IH]; [exact H|]. cbn [Nat.iter]. apply inv_step. exact IH. Qed.

Lemma compute_cases c : String.eqb (lower c) "interp" = true -> String.eqb (lower c) "exact" = false.
Proof. intros H. apply String.eqb_eq in H. rewrite H. reflexivity. Qed.
Lemma times_ok d compute sep nk t0 : let '(c, t) := gme_timed d compute sep nk t0 in let l := ck_done c in
  tm_guided t = spent SGuided l /\ tm_eps t = spent SEpsInv l /\ tm_eig t = spent SDiag l + spent SSymm l /\ tm_symm t = spent SSymm l /\
  tm_creat t = spent SBuild l + (if String.eqb (lower compute) "exact" then 0 else - spent SGuided l) /\ tm_total t = elapsed l.
Proof.
  unfold gme_timed. cbv zeta.
  assert (Hcase : forall exact c0 tg0 eps, String.eqb (lower compute) "exact" = exact -> inv exact t0 eps (c0, (tg0, 0, 0, 0)) ->
    let '(c, t) := let '(c, (tg, tc, te, ts)) := Nat.iter nk (one_k_timed d exact sep) (c0, (tg0, 0, 0, 0)) in
      (work d SOther c, Times tg eps te ts (tc - tg) (ck_now (work d SOther c) - t0)) in let l := ck_done c in
    tm_guided t = spent SGuided l /\ tm_eps t = spent SEpsInv l /\ tm_eig t = spent SDiag l + spent SSymm l /\ tm_symm t = spent SSymm l /\
    tm_creat t = spent SBuild l + (if exact then 0 else - spent SGuided l) /\ tm_total t = elapsed l).
  { intros exact c0 tg0 eps _ H0. apply (inv_iter d exact sep t0 eps nk) in H0.
    destruct (Nat.iter nk _ _) as [c [[[tg tc] te] ts]]. destruct H0 as (H & Hg & Hc & He & Hs & Hp).
    cbv zeta. cbn [tm_guided tm_eps tm_eig tm_symm tm_creat tm_total]. repeat split; steps; destruct exact; lra. }
  destruct (String.eqb (lower compute) "interp") eqn:Ei.
  - pose proof (compute_cases _ Ei) as Ee. rewrite Ee.
    match goal with |- context [Nat.iter nk _ (?c0, (?tg0, 0, 0, 0))] => match goal with |- context [Times _ ?eps _ _ _ _] => specialize (Hcase false c0 tg0 eps Ee) end end.
    apply Hcase. unfold inv. repeat split; steps; unfold elapsed, spent; cbn; lra.
  - destruct (String.eqb (lower compute) "exact") eqn:Ee;
    match goal with |- context [Nat.iter nk (one_k_timed d ?ex sep) (?c0, (?tg0, 0, 0, 0))] => match goal with |- context [Times _ ?eps _ _ _ _] => specialize (Hcase ex c0 tg0 eps eq_refl) end end;
    apply Hcase; unfold inv; repeat split; steps; unfold elapsed, spent; cbn; lra.
Qed.
