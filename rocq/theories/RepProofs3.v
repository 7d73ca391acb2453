(** Proofs about the reports: shares, errors, the table of rich, excitons and
    polaritons. *)
From Verif Require Import Py CBase MiscModel RepModel MiscSpec MiscProofs RepSpec RepProofs RepProofs2.
Open Scope R_scope.
Open Scope list_scope.

Lemma elapsed_pos l : long l -> 0 <= elapsed l.
Proof. unfold elapsed, rsuml. induction 1 as [|x l Hx _ IH]; cbn; [lra|]. lra. Qed.
Lemma shares_run d compute sep nk t0 v kz sp ls : (forall n, 0 <= d n) -> String.eqb (lower compute) "interp" = false ->
  gme_report (snd (gme_timed d compute sep nk t0)) v kz sp = Ok ls ->
  Forall (fun x => 0 <= shown x <= 100) ls /\ rsuml (map shown ls) <= 100.
Proof.
  intros Hd Hi. pose proof (facts d compute sep nk t0) as (F1 & F2 & F3 & F4 & _ & F6).
  pose proof (creat_ok d compute sep nk t0 Hi) as F5. pose proof (long_run d compute sep nk t0 Hd) as HL.
  destruct (gme_timed d compute sep nk t0) as [c t]. cbn [fst snd] in *. unfold gme_report. intros H.
  apply bind_ok in H. destruct H as (p & P & H). apply percents_ok in P. destruct P as [T ->]. rewrite F6 in *.
  pose proof (elapsed_pos _ HL) as E0. pose proof (elapsed_parts (ck_done c)) as EP. unfold all_spent in EP.
  set (l := ck_done c) in *. set (e := elapsed l) in *.
  pose proof (spent_pos SGuided _ HL) as P1. pose proof (spent_pos SEpsInv _ HL) as P2. pose proof (spent_pos SBuild _ HL) as P3.
  pose proof (spent_pos SSymm _ HL) as P4. pose proof (spent_pos SDiag _ HL) as P5. pose proof (spent_pos SOther _ HL) as P6. fold l in P1, P2, P3, P4, P5, P6.
  assert (EE : 0 < e) by lra.
  assert (Q : forall x, 0 <= x <= e -> 0 <= x / e * 100 <= 100).
  { intros x Hx. assert (0 <= x / e) by (apply Rmult_le_pos; [lra|left; apply Rinv_0_lt_compat; lra]).
    assert (x / e <= 1) by (apply (Rmult_le_reg_r e); [lra|unfold Rdiv; rewrite Rmult_assoc, Rinv_l by lra; lra]). lra. }
  assert (SS : forall a b c0 d0 e0, a + b + c0 + d0 + e0 <= e -> a / e * 100 + (b / e * 100 + (c0 / e * 100 + (d0 / e * 100 + (e0 / e * 100 + 0)))) <= 100).
  { intros a b c0 d0 e0 Hs. replace (a / e * 100 + (b / e * 100 + (c0 / e * 100 + (d0 / e * 100 + (e0 / e * 100 + 0))))) with ((a + b + c0 + d0 + e0) / e * 100) by (field; lra).
    assert ((a + b + c0 + d0 + e0) / e <= 1) by (apply (Rmult_le_reg_r e); [lra|unfold Rdiv; rewrite Rmult_assoc, Rinv_l by lra; lra]). lra. }
  assert (Sh : forall w s p0, shown (Line w s (Some p0)) = p0) by reflexivity. assert (Sn : forall w s, shown (Line w s None) = 0) by reflexivity.
  rewrite F1, F2, F3, F4, F5 in H.
  destruct kz; [destruct sp as [sp|]; cbn [bind] in H; [|discriminate]|cbn [bind] in H]; destruct v; inversion H; subst ls; clear H; cbn [app];
    (split; [repeat (apply Forall_cons; [rewrite ?Sh, ?Sn; try apply Q; lra|]); apply Forall_nil|]); cbn [map rsuml fold_right]; rewrite ?Sh, ?Sn; try lra.
  - rewrite Rplus_0_l. apply SS. lra.
  - rewrite Rplus_0_l. assert (X := SS (spent SGuided l) (spent SEpsInv l) (spent SDiag l + spent SSymm l - spent SSymm l) (spent SBuild l) 0).
    replace (0 / e * 100 + 0) with 0 in X by (field; lra). apply X. lra.
Qed.

Lemma report_cases t v kz sp : gme_report t v kz sp = Raise ZeroDivisionError <-> tm_total t = 0.
Proof.
  split.
  - intros H. destruct (Req_EM_T (tm_total t) 0) as [e|n]; [exact e|]. destruct (percents_def t n) as [p P].
    unfold gme_report in H. rewrite P in H. cbn [bind] in H. destruct p as [[[[g e] di] cr] s]. destruct kz, sp; cbn [bind] in H; discriminate.
  - intros H. unfold gme_report. rewrite (percents_raise t H). reflexivity.
Qed.
Lemma rich_cases rnd t v kz sp : gme_report_rich rnd t v kz sp = Raise ZeroDivisionError <-> tm_total t = 0.
Proof.
  split.
  - intros H. destruct (Req_EM_T (tm_total t) 0) as [e|n]; [exact e|]. destruct (percents_def t n) as [p P].
    unfold gme_report_rich in H. rewrite P in H. cbn [bind] in H. destruct p as [[[[g e] di] cr] s]. destruct v, kz, sp; cbn [bind] in H; discriminate.
  - intros H. unfold gme_report_rich. rewrite (percents_raise t H). reflexivity.
Qed.
(** the table shows what the text shows *)
Lemma same_lines rnd t kz sp ls : gme_report t true kz sp = Ok ls -> exists rows, gme_report_rich rnd t true kz sp = Ok rows /\
  Forall (fun x => snd x = load_bar rnd (shown (fst x)) 20) rows /\ map fst rows = tl ls ++ [Line None (tm_total t) (Some 100)] /\ hd_error ls = Some (Line None (tm_total t) None).
Proof.
  unfold gme_report, gme_report_rich. intros H. apply bind_ok in H. destruct H as (p & -> & H). cbn [bind]. destruct p as [[[[g e] di] cr] s].
  destruct kz; [destruct sp as [sp|]; cbn [bind] in H |- *; [|discriminate]|cbn [bind] in H |- *]; inversion H; subst ls; eexists; (split; [reflexivity|]); cbn [app];
    (split; [repeat constructor|split; reflexivity]).
Qed.
Lemma bars_run rnd d compute sep nk t0 kz sp rows : (forall n, 0 <= d n) -> rounding rnd [0%Z; 1%Z; 20%Z] -> String.eqb (lower compute) "interp" = false ->
  gme_report_rich rnd (snd (gme_timed d compute sep nk t0)) true kz sp = Ok rows ->
  Forall (fun x => List.length (snd x) = 22%nat) rows.
Proof.
  intros Hd Hr Hi H.
  assert (L : exists ls, gme_report (snd (gme_timed d compute sep nk t0)) true kz sp = Ok ls).
  { unfold gme_report_rich in H. unfold gme_report. apply bind_ok in H. destruct H as (p & -> & H). cbn [bind]. destruct p as [[[[g e] di] cr] s].
    destruct kz; [destruct sp; cbn [bind] in H |- *; [|discriminate]|]; eexists; reflexivity. }
  destruct L as [ls L]. destruct (same_lines rnd _ kz sp ls L) as (rows' & E & B & M & _). rewrite E in H. inversion H; subst rows'.
  destruct (shares_run d compute sep nk t0 true kz sp ls Hd Hi L) as [S _].
  assert (A : Forall (fun x => 0 <= shown x <= 100) (map fst rows)).
  { rewrite M. apply Forall_app. split; [destruct ls; [constructor|inversion S; assumption]|]. constructor; [unfold shown; cbn; lra|constructor]. }
  clear - A B Hr. rewrite Forall_forall in *. intros x Hx. rewrite (B x Hx). rewrite (proj1 (bar_width rnd _ 20 ltac:(lia) Hr (A _ (in_map fst _ _ Hx)))). reflexivity.
Qed.

(** ** excitons and polaritons *)
Lemma exc_inv d m t0 c0 te0 : timed c0 t0 -> te0 = spent SDiag (ck_done c0) -> long (ck_done c0) -> (forall n, 0 <= d n) ->
  let '(c, te) := Nat.iter m (fun x : clock * R => let (c, te) := x in let c := work d SBuild c in let t_eig := ck_now c in let c := work d SDiag c in (work d SOther c, te + (ck_now c - t_eig))) (c0, te0) in
  timed c t0 /\ te = spent SDiag (ck_done c) /\ long (ck_done c).
Proof.
  intros H1 H2 H3 Hd. induction m as [|m IH]; [cbn; auto|].
  match goal with |- context [Nat.iter (S m) ?f ?x] => change (Nat.iter (S m) f x) with (f (Nat.iter m f x)); destruct (Nat.iter m f x) as [c te] end.
  destruct IH as (I1 & I2 & I3). cbv zeta beta iota. split; [|split].
  - repeat apply work_now. exact I1.
  - steps. lra.
  - repeat (apply work_long; [exact Hd|]). exact I3.
Qed.
Lemma exc_ok d nk t0 : (forall n, 0 <= d n) -> let '(c, (te, total)) := exc_timed d nk t0 in
  te = spent SDiag (ck_done c) /\ total = elapsed (ck_done c) /\ 0 <= te <= total.
Proof.
  intros Hd. unfold exc_timed. cbv zeta.
  match goal with |- context [Nat.iter nk ?f (?c0, ?te0)] => pose proof (exc_inv d nk t0 c0 te0) as H; destruct (Nat.iter nk f (c0, te0)) as [c te] end.
  destruct H as (H1 & H2 & H3).
  - apply work_now. unfold timed, elapsed. cbn. lra.
  - unfold spent. cbn. lra.
  - apply work_long; [exact Hd|constructor].
  - exact Hd.
  - unfold timed in H1. cbn [ck_now] in *. rewrite H1, H2. pose proof (elapsed_parts (ck_done c)) as E. unfold all_spent in E.
    pose proof (spent_pos SGuided _ H3). pose proof (spent_pos SEpsInv _ H3). pose proof (spent_pos SBuild _ H3).
    pose proof (spent_pos SSymm _ H3). pose proof (spent_pos SDiag _ H3). pose proof (spent_pos SOther _ H3). split; [reflexivity|split]; lra.
Qed.
Lemma exc_lines d nk t0 v ls : let '(c, (te, total)) := exc_timed d nk t0 in (forall n, 0 <= d n) ->
  (exc_report te total v = Ok ls -> Forall (honest (ck_done c)) ls) /\ (exc_report_rich te total v = Ok ls -> Forall (honest (ck_done c)) ls) /\
  (exc_report_rich te total v = Raise ZeroDivisionError <-> v = true /\ elapsed (ck_done c) = 0).
Proof.
  pose proof (exc_ok d nk t0) as H. destruct (exc_timed d nk t0) as [c [te total]]. intros Hd. destruct (H Hd) as (H1 & H2 & H3). clear H.
  unfold exc_report, exc_report_rich, pydiv. split; [|split].
  - destruct v; intros H; inversion H; subst ls; repeat constructor; cbn; auto.
  - destruct v; [|intros H; inversion H; constructor]. destruct (Reqb total 0) eqn:E; cbn [bind]; [discriminate|]. apply Reqb_false in E.
    intros H; inversion H; subst ls; repeat constructor; cbn [ln_sec ln_what ln_perc]; try assumption; rewrite <- ?H2; try lra. apply share. exact E.
  - destruct v; [|split; [discriminate|intros [? _]; discriminate]]. rewrite <- H2. destruct (Reqb total 0) eqn:E; cbn [bind].
    + apply Reqb_true in E. split; auto.
    + apply Reqb_false in E. split; [discriminate|intros [_ ?]; contradiction].
Qed.
