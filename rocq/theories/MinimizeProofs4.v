(** Adam never fails on sound input; lbfgs; bounds; cases. *)
From Verif Require Import Py MinimizeModel MinimizeSpec MinimizeProofs MinimizeProofs2 MinimizeProofs3.
Open Scope R_scope.
Open Scope list_scope.

Lemma step_total eps g m v it b1 b2 : List.length m = List.length g -> List.length v = List.length g -> exists ga m' v', step_adam eps g m v it b1 b2 = Ok (ga, m', v') /\
  List.length ga = List.length g /\ List.length m' = List.length g /\ List.length v' = List.length g.
Proof.
  intros H1 H2. unfold step_adam. destruct (zipw_def (fun x y => b1 * x + (1 - b1) * y) m g H1) as [m1 E1]. destruct (zipw_def (fun x y => b2 * x + (1 - b2) * (y * y)) v g H2) as [v1 E2].
  rewrite E1, E2. cbn [bind]. apply zipw_ok in E1 as (_ & L1 & _). apply zipw_ok in E2 as (_ & L2 & _).
  destruct (zipw_def (fun x y => x / (sqrt y + eps)) (map (fun x => x / (1 - b1 ^ (it + 1))) m1) (map (fun x => x / (1 - b2 ^ (it + 1))) v1)) as [g1 E3]; [rewrite !map_length; lia|].
  rewrite E3. cbn [bind]. apply zipw_ok in E3 as (_ & L3 & _). rewrite map_length in L3. exists g1, m1, v1. repeat split; auto; lia.
Qed.
Lemma snap_total lbs ubs p : List.length lbs = List.length p -> List.length ubs = List.length p -> exists q, snap lbs ubs p = Ok q.
Proof.
  intros H1 H2. unfold snap. destruct (zipw_def (fun x l => if Rltb x l then l else x) p lbs ltac:(lia)) as [p1 E1]. rewrite E1. cbn [bind]. apply zipw_ok in E1 as (_ & L1 & _). apply zipw_def. lia.
Qed.
Section Total.
Context {A : Type} (obj : objective A) (nep : nat) (step b1 b2 : R) (args : list (arg A)) (n : nat)
  (Ho : forall h c, List.length (ca_x c) = n -> exists o g, obj (h ++ [c]) = Ok (o, g) /\ List.length g = n).
Lemma epoch_total given it mv s : (mi_params s < List.length (mi_heap s))%nat -> List.length (cur s) = n ->
  ((0 < it)%nat -> List.length (fst mv) = n /\ List.length (snd mv) = n) ->
  (given = true -> exists bs lbs ubs, mi_bounds s = Some bs /\ limits bs 0 = Ok lbs /\ limits bs 1 = Ok ubs /\ List.length lbs = n /\ List.length ubs = n) ->
  exists s' mv', adam_epoch obj None nep step b1 b2 args given it mv s = (s', Ok mv') /\ List.length (cur s') = n /\ List.length (fst mv') = n /\ List.length (snd mv') = n.
Proof.
  intros Hp Hn Hm Hb. assert (X : exists s' mv', adam_epoch obj None nep step b1 b2 args given it mv s = (s', Ok mv')).
  { unfold adam_epoch, ask. cbn [mi_iter mi_of mi_params mi_bounds mi_nep mi_last mi_heap mi_calls]. set (c := Call _ _ _).
    destruct (Ho (mi_calls s) c Hn) as (o & g & EO & Lg). rewrite EO. cbn [mi_iter mi_of mi_params mi_bounds mi_nep mi_last mi_heap mi_calls].
    set (mv0 := if Nat.eqb it 0 then _ else _). assert (Lm : List.length (fst mv0) = n /\ List.length (snd mv0) = n).
    { unfold mv0. destruct (Nat.eqb_spec it 0); [cbn; rewrite !map_length; auto|apply Hm; lia]. }
    destruct (step_total epsilon g (fst mv0) (snd mv0) it b1 b2) as (ga & m' & v' & ES & L1 & L2 & L3); [lia|lia|]. rewrite ES.
    unfold cur. cbn [mi_iter mi_of mi_params mi_bounds mi_nep mi_last mi_heap mi_calls]. fold (cur s).
    assert (SN : forall p, List.length p = n -> given = true -> exists q, (match mi_bounds s with Some bs => let* lbs := limits bs 0 in let* ubs := limits bs 1 in snap lbs ubs p | None => Raise TypeError end) = Ok q).
    { intros p Lp Eg. destruct (Hb Eg) as (bs & lbs & ubs & -> & -> & -> & Q1 & Q2). cbn [bind]. apply snap_total; lia. }
    destruct (Nat.ltb (it + 1) nep).
    - destruct (zipw_def (fun p g => p - step * g) (cur s) ga ltac:(lia)) as [p EZ]. rewrite EZ. cbn [mi_iter mi_of mi_params mi_bounds mi_nep mi_last mi_heap mi_calls]. rewrite read_last.
      apply zipw_ok in EZ as (_ & Lz & _). destruct given; [|eauto]. destruct (SN p ltac:(lia) eq_refl) as [q ->]. eauto.
    - cbn [mi_iter mi_of mi_params mi_bounds mi_nep mi_last mi_heap mi_calls]. fold (cur s). destruct given; [|eauto]. destruct (SN (cur s) Hn eq_refl) as [q ->]. eauto. }
  destruct X as (s' & mv' & E). exists s', mv'. split; [exact E|].
  destruct (epoch_inv _ _ _ _ _ _ _ _ _ _ _ _ _ E Hp) as (of & g & ga & p & q & EO & EC & EF & EI & EB & EN & EL & ES & EM & EQ & Ecu & Hp' & EH).
  destruct (Ho (mi_calls s) (Call (cur s) args (View (mi_iter s + 1) (mi_of s) (cur s) (mi_nep s))) Hn) as (o & g' & EO' & Lg). rewrite EO in EO'. injection EO' as <- <-. cbv zeta in ES.
  destruct (step_inv _ _ _ _ _ _ _ _ _ _ ES) as (S1 & S2 & S3 & S4 & S5 & _). split; [|split; lia]. rewrite Ecu.
  assert (Lp : List.length p = n) by (destruct (Nat.ltb _ _); [apply zipw_ok in EM; lia|subst p; exact Hn]).
  destruct given; [destruct EQ as (bs' & l' & u' & _ & _ & _ & EQ); apply snap_nth in EQ; lia|subst q; exact Lp].
Qed.
Lemma loop_total given todo it mv s : (mi_params s < List.length (mi_heap s))%nat -> List.length (cur s) = n ->
  ((0 < it)%nat -> List.length (fst mv) = n /\ List.length (snd mv) = n) ->
  (given = true -> exists bs lbs ubs, mi_bounds s = Some bs /\ limits bs 0 = Ok lbs /\ limits bs 1 = Ok ubs /\ List.length lbs = n /\ List.length ubs = n) ->
  exists s', adam_loop obj None nep step b1 b2 args given todo it mv s = (s', Ok tt).
Proof.
  revert it mv s; induction todo as [|t IH]; intros it mv s Hp Hn Hm Hb; [exists s; reflexivity|]. cbn [adam_loop].
  destruct (epoch_total given it mv s Hp Hn Hm Hb) as (s' & mv' & E & L1 & L2 & L3). rewrite E.
  destruct (epoch_inv _ _ _ _ _ _ _ _ _ _ _ _ _ E Hp) as (of & g & ga & p & q & EO & EC & EF & EI & EB & EN & EL & ES & EM & EQ & Ecu & Hp' & EH).
  apply IH; auto. rewrite EB. exact Hb.
Qed.
End Total.
Lemma adam_total {A} (obj : objective A) pstart nep b step b1 b2 args ps s : (pstart < List.length (mi_heap s))%nat ->
  (forall h c, exists o g, obj (h ++ [c]) = Ok (o, g) /\ List.length g = List.length (ca_x c)) ->
  b = PNone \/ (exists lbs ubs, documented (List.length (read (mi_heap s) pstart)) b lbs ubs) ->
  exists s' r ofs, adam obj pstart nep b step b1 b2 args ps None s = (s', Ok (r, ofs)).
Proof.
  intros Hp Ho Hb. unfold adam, cur. cbn [mi_heap mi_params]. set (n := List.length (read (mi_heap s) pstart)) in *.
  assert (Ho' : forall h c, List.length (ca_x c) = n -> exists o g, obj (h ++ [c]) = Ok (o, g) /\ List.length g = n) by (intros h c Hc; destruct (Ho h c) as (o & g & E & L); exists o, g; split; [exact E|lia]).
  assert (X : exists bs, parse_bounds n b = Ok bs /\ (truthy b = true -> exists bs' lbs ubs, bs = Some bs' /\ limits bs' 0 = Ok lbs /\ limits bs' 1 = Ok ubs /\ List.length lbs = n /\ List.length ubs = n)).
  { destruct Hb as [->|(lbs & ubs & HD)]; [exists None; split; [reflexivity|discriminate]|]. destruct (parse_documented _ _ _ _ HD) as (bs' & EP' & ET & E0 & E1 & L0 & L1). exists (Some bs'). split; [exact EP'|]. intros _. eauto 10. }
  destruct X as (bs & -> & HB). destruct (loop_total obj nep step b1 b2 (with_self ps args) n Ho' (truthy b) nep 0 ([], []) (Mi 0 [] pstart bs nep (mi_last s) (mi_heap s) (mi_calls s)) Hp eq_refl ltac:(lia) HB) as [s' E].
  rewrite E. eauto.
Qed.

(** lbfgs. *)
Lemma drive_inv {A} (obj : objective A) cb args p s s' x : drive obj cb args p s = (s', Ok x) ->
  exists cs vs, mi_calls s' = mi_calls s ++ cs /\ Forall (fun c => ca_args c = args) cs /\ mi_of s' = mi_of s ++ vs /\ mi_iter s' = (mi_iter s + List.length vs)%nat.
Proof.
  revert s; induction p as [y k IH|y k IH|y]; cbn [drive]; intros s H.
  - unfold ask in H. destruct (obj _) as [o|e]; [|discriminate]. apply IH in H as (cs & vs & H1 & H2 & H3 & H4). cbn [mi_iter mi_of mi_params mi_bounds mi_nep mi_last mi_heap mi_calls] in *.
    eexists (_ :: cs), vs. split; [rewrite H1, <- app_assoc; reflexivity|]. split; [constructor; [reflexivity|exact H2]|auto].
  - cbn [mi_last] in H. destruct (mi_last s) as [o|] eqn:EL; [|discriminate].
    match goal with H : match cb with Some _ => _ | None => drive _ _ _ _ ?s2 end = _ |- _ => assert (H' : drive obj cb args k s2 = (s', Ok x)) by (destruct cb as [c|]; [destruct (c _); [exact H|discriminate]|exact H]) end.
    apply IH in H' as (cs & vs & H1 & H2 & H3 & H4). cbn [mi_iter mi_of mi_params mi_bounds mi_nep mi_last mi_heap mi_calls] in *. exists cs, (o :: vs). split; [exact H1|]. split; [exact H2|]. split; [rewrite H3, <- app_assoc; reflexivity|cbn [List.length]; lia].
  - injection H as <- <-. exists [], []. rewrite !app_nil_r. cbn. repeat split; auto.
Qed.
Lemma drive_honest {A} (obj : objective A) (f : list R -> R) cb args p s s' x (Hf : forall h c o, obj (h ++ [c]) = Ok o -> fst o = f (ca_x c)) l : drive obj cb args p s = (s', Ok x) ->
  honest l p -> (forall y, l = Some y -> mi_last s = Some (f y)) ->
  exists xs, mi_of s' = mi_of s ++ map f xs /\ (xs = [] -> mi_params s' = mi_params s /\ mi_heap s' = mi_heap s) /\ (xs <> [] -> cur s' = last xs []).
Proof.
  revert s l; induction p as [y k IH|y k IH|y]; cbn [drive honest]; intros s l H HH HL.
  - unfold ask in H. destruct (obj _) as [o|e] eqn:EO; [|discriminate]. apply Hf in EO. cbn [ca_x] in EO. destruct (IH o _ (Some y) H (HH o)) as (xs & X1 & X2 & X3); [cbn; intros z Hz; injection Hz as <-; rewrite EO; reflexivity|]. exists xs. auto.
  - destruct HH as [-> HH]. cbn [mi_last] in H. rewrite (HL y eq_refl) in H.
    match goal with H : match cb with Some _ => _ | None => drive _ _ _ _ ?s2 end = _ |- _ => assert (H' : drive obj cb args k s2 = (s', Ok x)) by (destruct cb as [c|]; [destruct (c _); [exact H|discriminate]|exact H]) end.
    destruct (IH _ (Some y) H' HH) as (xs & X1 & X2 & X3); [cbn; intros z Hz; injection Hz as <-; reflexivity|]. exists (y :: xs). cbn [mi_iter mi_of mi_params mi_bounds mi_nep mi_last mi_heap mi_calls] in *.
    split; [rewrite X1, <- app_assoc; reflexivity|]. split; [discriminate|]. intros _. destruct xs as [|z xs]; [destruct (X2 eq_refl) as [P1 P2]; unfold cur; rewrite P1, P2; cbn; apply read_last|rewrite X3 by discriminate; reflexivity].
  - injection H as <- <-. exists []. rewrite app_nil_r. repeat split; auto. congruence.
Qed.
Lemma lbfgs_inv {A} (obj : objective A) solver pstart nep b args ps cb s s' x ofs : lbfgs obj solver pstart nep b args ps cb s = (s', Ok (x, ofs)) ->
  exists bs o g, parse_bounds (List.length (read (mi_heap s) pstart)) b = Ok bs /\ mi_of s' = ofs /\
  let c := Call (read (mi_heap s) pstart) (map AUser args) (View 0 [] (read (mi_heap s) pstart) nep) in obj (mi_calls s ++ [c]) = Ok (o, g) /\
  drive obj cb (with_self ps args) (solver (read (mi_heap s) pstart) bs nep) (Mi 0 [o] pstart bs nep (mi_last s) (mi_heap s) (mi_calls s ++ [c])) = (s', Ok x).
Proof.
  unfold lbfgs, ask, cur. cbn [mi_iter mi_of mi_params mi_bounds mi_nep mi_last mi_heap mi_calls]. destruct (parse_bounds _ b) as [bs|] eqn:EP; [|discriminate]. destruct (obj _) as [[o g]|e] eqn:EO; [|discriminate].
  cbn [mi_iter mi_of mi_params mi_bounds mi_nep mi_last mi_heap mi_calls app]. destruct (drive _ _ _ _ _) as [s4 [y|]] eqn:ED; [|discriminate]. intros H; injection H as <- <- <-. exists bs, o, g. auto.
Qed.
Lemma lbfgs_calls {A} (obj : objective A) solver pstart nep b args ps cb s s' x ofs : lbfgs obj solver pstart nep b args ps cb s = (s', Ok (x, ofs)) ->
  List.length ofs = S (mi_iter s') /\ exists c0 cs, mi_calls s' = mi_calls s ++ c0 :: cs /\ ca_x c0 = read (mi_heap s) pstart /\ ca_args c0 = map AUser args /\ Forall (fun c => ca_args c = with_self ps args) cs.
Proof.
  intros H. apply lbfgs_inv in H as (bs & o & g & EP & EF & EO & ED). apply drive_inv in ED as (cs & vs & H1 & H2 & H3 & H4). cbn [mi_iter mi_of mi_params mi_bounds mi_nep mi_last mi_heap mi_calls] in *.
  split; [rewrite <- EF, H3; cbn; lia|]. eexists _, cs. split; [rewrite H1, <- app_assoc; reflexivity|]. auto.
Qed.
Lemma lbfgs_values {A} (obj : objective A) f solver pstart nep b args ps cb s s' x ofs : (forall h c o, obj (h ++ [c]) = Ok o -> fst o = f (ca_x c)) -> (forall x bs n, honest None (solver x bs n)) ->
  lbfgs obj solver pstart nep b args ps cb s = (s', Ok (x, ofs)) -> exists xs, ofs = map f (read (mi_heap s) pstart :: xs) /\ cur s' = last (read (mi_heap s) pstart :: xs) [].
Proof.
  intros Hf Hh H. apply lbfgs_inv in H as (bs & o & g & EP & EF & EO & ED). apply Hf in EO. cbn [fst ca_x] in EO.
  destruct (drive_honest obj f _ _ _ _ _ _ Hf None ED (Hh _ _ _)) as (xs & X1 & X2 & X3); [discriminate|]. cbn [mi_iter mi_of mi_params mi_bounds mi_nep mi_last mi_heap mi_calls app] in *.
  exists xs. split; [rewrite <- EF, X1, EO; reflexivity|]. destruct xs as [|z xs]; [destruct (X2 eq_refl) as [P1 P2]; unfold cur; rewrite P1, P2; reflexivity|rewrite X3 by discriminate; reflexivity].
Qed.
Lemma lbfgs_no_self {A} (obj : objective A) solver pstart nep b (args : list A) ps cb s : wants_self obj -> (exists bs, parse_bounds (List.length (read (mi_heap s) pstart)) b = Ok bs) ->
  snd (lbfgs obj solver pstart nep b args ps cb s) = Raise TypeError.
Proof.
  intros Hw [bs EP]. unfold lbfgs, ask, cur. cbn [mi_iter mi_of mi_params mi_bounds mi_nep mi_last mi_heap mi_calls]. rewrite EP. rewrite Hw; [reflexivity|]. cbn [ca_args]. intros l E.
  destruct args as [|a args] using rev_ind; [destruct l; discriminate|]. rewrite map_app in E. apply app_inj_tail in E as [_ E]. discriminate.
Qed.

(** _parse_bounds. *)
Lemma parse_sound n b r : parse_bounds n b = Ok r -> (b = PNone /\ r = None) \/ exists bs, r = Some bs /\ List.length bs = n /\ forall x, In x bs -> exists u v, x = PTuple [u; v] \/ x = PList [u; v].
Proof.
  unfold parse_bounds. destruct (parse_inner n b) as [r'|] eqn:E; [|discriminate]. intros H; injection H as <-. destruct b as [|q|l|l]; [left; injection E as <-; auto| discriminate| |].
  all: right; unfold parse_inner in E; cbn [seq_of item bind] in E; destruct (nth_error l 0) as [b0|]; cbn [bind] in E; [|discriminate].
  all: destruct (negb (is_tuple b0)).
  all: try (destruct (Nat.eqb_spec (List.length l) 2) as [L2|]; [|discriminate]; injection E as <-; eexists; split; [reflexivity|]; split; [apply repeat_length|]; intros x Hx; apply repeat_spec in Hx; subst x; destruct l as [|u [|v [|]]]; try discriminate; eauto).
  all: destruct (Nat.eqb_spec (List.length l) n) as [L2|]; [|discriminate]; destruct (mapM _ l) as [ls|] eqn:EM; cbn [bind] in E; [|discriminate]; destruct (forallb _ ls) eqn:EF; [|discriminate]; injection E as <-; exists l; split; [reflexivity|]; split; [exact L2|].
  all: intros x Hx; apply In_nth_error in Hx as [i Hi]; destruct (mapM_ok_nth _ _ _ EM i x Hi) as (y & Ey & Hy); apply nth_error_In in Hy; rewrite forallb_forall in EF; specialize (EF _ Hy); apply Nat.eqb_eq in EF; subst y.
  all: destruct x as [| |s|s]; cbn [seq_of bind] in Ey; try discriminate; injection Ey as Ey; destruct s as [|u [|v [|]]]; try discriminate; exists u, v; auto.
Qed.
Lemma parse_error n b e : parse_bounds n b = Raise e -> e = ValueError.
Proof. unfold parse_bounds. destruct (parse_inner n b); [discriminate|]. intros H; injection H as <-. reflexivity. Qed.

(** Cases. *)
Definition fresh_opt (h : list (list R)) : minst R := Mi 0 [] 0 None 0 None h [].
Definition bowl : objective R := fun h => match rev h with [] => Raise ValueError | c :: _ => Ok (rsuml (map (fun x => x * x) (ca_x c)), map (fun x => 2 * x) (ca_x c)) end.
Lemma bowl_smooth : smooth bowl (fun x => rsuml (map (fun x => x * x) x)) (map (fun x => 2 * x)).
Proof. split; [intros h c; unfold bowl; rewrite rev_app_distr; reflexivity|]. intros x. apply map_length. Qed.
Definition unit_bounds : pyv := PList [PNum 0; PNum 1].
Lemma one_epoch : exists s' r, adam bowl 0 1 unit_bounds (1 / 100) (9 / 10) (999 / 1000) [] false None (fresh_opt [[5]]) = (s', Ok (r, [25])) /\ r = 0%nat /\ mi_heap s' = [[1]].
Proof.
  eexists _, _. lazy -[Rltb Rplus Rmult Rdiv Rminus Ropp Rinv sqrt pow IZR rsuml]. replace (Rltb 5 0) with false by (symmetry; apply Rltb_false; lra). replace (Rltb 1 5) with true by (symmetry; apply Rltb_true; lra).
  replace (rsuml [5 * 5]) with 25 by (cbn; ring). repeat split; reflexivity.
Qed.
Definition bowl_mem (h : list (call R)) (c : call R) : bowl (h ++ [c]) = Ok (rsuml (map (fun x => x * x) (ca_x c)), map (fun x => 2 * x) (ca_x c)) := proj1 bowl_smooth h c.
Lemma history_off : exists obj f df pstart b (s s' : minst R) r ofs, smooth obj f df /\ (pstart < List.length (mi_heap s))%nat /\ (exists lbs ubs, documented (List.length (read (mi_heap s) pstart)) b lbs ubs /\ consistent lbs ubs) /\
  adam obj pstart 1 b (1 / 100) (9 / 10) (999 / 1000) [] false None s = (s', Ok (r, ofs)) /\ last ofs 0 <> f (read (mi_heap s') r) /\ read (mi_heap s') pstart <> read (mi_heap s) pstart.
Proof.
  destruct one_epoch as (s' & r & E & Er & Eh). exists bowl, (fun x => rsuml (map (fun x => x * x) x)), (map (fun x => 2 * x)), 0%nat, unit_bounds, (fresh_opt [[5]]), s', r, [25].
  split; [exact bowl_smooth|]. split; [cbn; lia|]. split; [exists [0], [1]; split; [apply (doc_two 1)|intros [|i] Hi; cbn in Hi |- *; [lra|lia]]|]. split; [exact E|]. rewrite Er, Eh. cbn. split; [lra|]. intros H. injection H as H. lra.
Qed.
Lemma bowl_runs pstart nep b step b1 b2 args ps s : (pstart < List.length (mi_heap s))%nat -> b = PNone \/ (exists lbs ubs, documented (List.length (read (mi_heap s) pstart)) b lbs ubs) ->
  exists s' r ofs, adam bowl pstart nep b step b1 b2 args ps None s = (s', Ok (r, ofs)).
Proof. intros Hp Hb. apply adam_total; auto. intros h c. rewrite bowl_mem. eexists _, _. split; [reflexivity|apply map_length]. Qed.
(** A scipy that evaluates at the start, calls back and stops; an objective wanting the
    optimiser. *)
Definition lazy_solver (x : list R) (_ : option (list pyv)) (_ : nat) : scipy := SEval x (fun _ => SCallback x (SDone x)).
Lemma lazy_honest x bs n : honest None (lazy_solver x bs n).
Proof. cbn. auto. Qed.
Definition selfish : objective R := fun h => match rev h with [] => Raise ValueError | c :: _ => match rev (ca_args c) with ASelf :: _ => Ok (0, []) | _ => Raise TypeError end end.
Lemma selfish_wants : wants_self selfish.
Proof.
  intros h c H. unfold selfish. rewrite rev_app_distr. cbn [rev app]. destruct (rev (ca_args c)) as [|[a|] l] eqn:E; try reflexivity.
  exfalso. apply (H (rev l)). rewrite <- (rev_involutive (ca_args c)), E. reflexivity.
Qed.
Lemma lbfgs_first : exists s' x ofs c, lbfgs bowl lazy_solver 0 5 PNone [] true None (fresh_opt [[1]]) = (s', Ok (x, ofs)) /\ In c (mi_calls s') /\ forall l, ca_args c <> l ++ [ASelf].
Proof.
  destruct (lbfgs bowl lazy_solver 0 5 PNone [] true None (fresh_opt [[1]])) as [s' [[x ofs]|e]] eqn:E; [|exfalso; vm_compute in E; discriminate].
  destruct (lbfgs_calls _ _ _ _ _ _ _ _ _ _ _ _ E) as (_ & c0 & cs & EC & _ & EA & _). exists s', x, ofs, c0. split; [reflexivity|]. split; [rewrite EC; apply in_or_app; right; left; reflexivity|]. intros l H. rewrite EA in H. destruct l; discriminate.
Qed.
(** Undocumented bounds. *)
Lemma lists_accepted : exists b bs, parse_bounds 2 b = Ok (Some bs) /\ (forall lbs ubs, ~ documented 2 b lbs ubs) /\ exists e, snd (adam bowl 0 3 b (1 / 100) (9 / 10) (999 / 1000) [] false None (fresh_opt [[5; 6]])) = Raise e.
Proof.
  exists (PList [PList [PNum 0; PNum 1]; PList [PNum 2; PNum 3]]). eexists. split; [reflexivity|]. split.
  - intros lbs ubs H. inversion H as [|ls us Hn Hl E1 E2]. destruct ls as [|a [|b [|]]]; try discriminate. destruct us as [|u [|v [|]]]; try discriminate.
  - exists TypeError. lazy -[Rltb Rplus Rmult Rdiv Rminus Ropp Rinv sqrt pow IZR rsuml]. reflexivity.
Qed.
(** A spike in the gradient after many zeros. *)
Lemma moment_spike b t : moment b (fun k => if Nat.eqb k t then 1 else 0) (S t) = 1 - b.
Proof.
  cbn [moment]. rewrite Nat.eqb_refl. rewrite (moment_ext b _ (fun _ => 0)); [rewrite moment_const; ring|]. intros k Hk. destruct (Nat.eqb_spec k t); [lia|reflexivity].
Qed.
Lemma spike_large : exists g t, (0 < t)%nat /\ 2 < direction (1 / 10 ^ 8) (9 / 10) (999 / 1000) g t.
Proof.
  exists (fun k => if Nat.eqb k 999 then 1 else 0), 1000%nat. split; [lia|]. unfold direction. rewrite moment_spike.
  rewrite (moment_ext _ (fun k => _ * _) (fun k => if Nat.eqb k 999 then 1 else 0)) by (intros k _; destruct (Nat.eqb k 999); ring). rewrite moment_spike.
  assert (P : (999 / 1000) ^ 1000 < 51 / 100).
  { replace (999 / 1000) with (/ (1 + / 999)) by field. rewrite pow_inv. assert (B : 1 + INR 1000 * / 999 <= (1 + / 999) ^ 1000) by (apply poly; lra).
    apply (Rlt_le_trans _ (/ 2)); [|lra]. apply Rinv_lt_contravar; [apply Rmult_lt_0_compat; [lra|]|]; rewrite INR_IZR_INZ in B; cbn [Z.of_nat] in B; [|]; change (Z.of_nat 1000) with 1000%Z in B; lra. }
  pose proof (pow_lt1 (9 / 10) 1000 ltac:(lra) ltac:(lia)) as P1. pose proof (pow_lt (9 / 10) 1000 ltac:(lra)) as P0. pose proof (pow_lt (999 / 1000) 1000 ltac:(lra)) as P2.
  set (x := (9 / 10) ^ 1000) in *. set (y := (999 / 1000) ^ 1000) in *.
  assert (M : 1 / 10 <= (1 - 9 / 10) / (1 - x)). { apply (Rmult_le_reg_r (1 - x)); [lra|]. unfold Rdiv at 2. rewrite Rmult_assoc, Rinv_l by lra. lra. }
  assert (V : (1 - 999 / 1000) / (1 - y) <= 49 / 1000 * (49 / 1000)). { apply (Rmult_le_reg_r (1 - y)); [lra|]. unfold Rdiv at 1. rewrite Rmult_assoc, Rinv_l by lra. lra. }
  assert (Sq : sqrt ((1 - 999 / 1000) / (1 - y)) <= 49 / 1000). { rewrite <- (sqrt_square (49 / 1000)) by lra. apply sqrt_le_1_alt. exact V. }
  pose proof (sqrt_pos ((1 - 999 / 1000) / (1 - y))) as S0. set (r := sqrt _) in *.
  assert (E8 : 0 < 1 / 10 ^ 8 < 1 / 1000) by (split; lra).
  apply (Rmult_lt_reg_r (r + 1 / 10 ^ 8)); [lra|]. unfold Rdiv at 2. rewrite Rmult_assoc, Rinv_l by lra. lra.
Qed.
