(** Adam: one epoch, bounds. *)
From Verif Require Import Py MinimizeModel MinimizeSpec.
Open Scope R_scope.
Open Scope list_scope.

Lemma zipw_ok f a b c : zipw f a b = Ok c -> List.length a = List.length b /\ List.length c = List.length a /\
  forall i, (i < List.length a)%nat -> nth i c 0 = f (nth i a 0) (nth i b 0).
Proof.
  unfold zipw. destruct (Nat.eqb_spec (List.length a) (List.length b)) as [E|]; [|discriminate]. intros H; injection H as <-.
  split; [exact E|]. split; [rewrite map_length, combine_length; lia|]. intros i Hi.
  rewrite (nth_indep _ 0 (f (fst (0, 0)) (snd (0, 0)))) by (rewrite map_length, combine_length; lia).
  rewrite (map_nth (fun p => f (fst p) (snd p)) (combine a b) (0, 0)). rewrite combine_nth by exact E. reflexivity.
Qed.
Lemma zipw_def f a b : List.length a = List.length b -> exists c, zipw f a b = Ok c.
Proof. intros E. unfold zipw. rewrite E, Nat.eqb_refl. eauto. Qed.
Lemma read_write_same h r v : (r < List.length h)%nat -> read (write h r v) r = v.
Proof. revert r; induction h as [|x t IH]; intros [|r] Hr; cbn in *; try lia; auto. apply IH. lia. Qed.
Lemma read_write_other h r r' v : r <> r' -> read (write h r v) r' = read h r'.
Proof. revert r r'; induction h as [|x t IH]; intros [|r] [|r'] Hr; cbn; auto; try lia. apply IH; lia. Qed.
Lemma write_length h r v : List.length (write h r v) = List.length h.
Proof. revert r; induction h as [|x t IH]; intros [|r]; cbn; auto. Qed.
Lemma write_read h r : write h r (read h r) = h.
Proof. revert r; induction h as [|x t IH]; intros [|r]; cbn; auto. f_equal; apply IH. Qed.
Lemma read_app h t r : (r < List.length h)%nat -> read (h ++ t) r = read h r.
Proof. intros H. unfold read. apply app_nth1; exact H. Qed.
Lemma read_last h v : read (h ++ [v]) (List.length h) = v.
Proof. unfold read. rewrite app_nth2, Nat.sub_diag by lia. reflexivity. Qed.

Lemma snap_within lbs ubs p q : consistent lbs ubs -> List.length lbs = List.length p -> snap lbs ubs p = Ok q -> within lbs ubs q.
Proof.
  unfold snap. intros C Ll H. destruct (zipw _ p lbs) as [p1|] eqn:E1; [|discriminate]. cbn [bind] in H.
  apply zipw_ok in E1 as (_ & L1 & N1). apply zipw_ok in H as (L2 & L3 & N2). split; [lia|]. intros i Hi.
  specialize (C i ltac:(lia)). rewrite N2, N1 by lia. destruct (Rltb (nth i p 0) (nth i lbs 0)) eqn:B1.
  - apply Rltb_true in B1. destruct (Rltb (nth i ubs 0) _) eqn:B2; [apply Rltb_true in B2|apply Rltb_false in B2]; lra.
  - apply Rltb_false in B1. destruct (Rltb (nth i ubs 0) _) eqn:B2; [apply Rltb_true in B2|apply Rltb_false in B2]; lra.
Qed.
Lemma snap_id lbs ubs p q : within lbs ubs p -> snap lbs ubs p = Ok q -> q = p.
Proof.
  unfold snap. intros [Lw W] H. destruct (zipw _ p lbs) as [p1|] eqn:E1; [|discriminate]. cbn [bind] in H.
  apply zipw_ok in E1 as (_ & L1 & N1). apply zipw_ok in H as (L2 & L3 & N2).
  apply (nth_ext _ _ 0 0); [lia|]. intros i Hi. specialize (W i ltac:(lia)). rewrite N2, N1 by lia.
  destruct (Rltb (nth i p 0) (nth i lbs 0)) eqn:B1; [apply Rltb_true in B1; lra|]. destruct (Rltb (nth i ubs 0) _) eqn:B2; [apply Rltb_true in B2; lra|reflexivity].
Qed.

(** The documented bounds go through the parser and mean their limits. *)
Lemma limits_repeat l n i r : item (PTuple l) i = Ok (PNum r) -> limits (repeat (PTuple l) n) i = Ok (repeat r n).
Proof. intros H. induction n as [|n IH]; [reflexivity|]. unfold limits in *. cbn [repeat mapM]. rewrite H. cbn [bind num]. rewrite IH. reflexivity. Qed.
Lemma limits_pairs lbs ubs : List.length ubs = List.length lbs -> let bs := map (fun p => PTuple [PNum (fst p); PNum (snd p)]) (combine lbs ubs) in
  limits bs 0 = Ok lbs /\ limits bs 1 = Ok ubs.
Proof.
  revert ubs; induction lbs as [|l ls IH]; intros [|u us]; cbn [List.length]; try discriminate; [split; reflexivity|].
  intros E. destruct (IH us ltac:(lia)) as [A B]. unfold limits in *. cbn [combine map mapM fst snd]. cbn [item seq_of bind nth_error num]. rewrite A, B. split; reflexivity.
Qed.
Lemma parse_documented n b lbs ubs : documented n b lbs ubs -> exists bs, parse_bounds n b = Ok (Some bs) /\ truthy b = true /\ limits bs 0 = Ok lbs /\ limits bs 1 = Ok ubs /\
  List.length lbs = n /\ List.length ubs = n.
Proof.
  intros [m l u|ls us Hn E].
  - exists (repeat (PTuple [PNum l; PNum u]) m). split; [reflexivity|]. split; [reflexivity|]. split; [apply limits_repeat; reflexivity|]. split; [apply limits_repeat; reflexivity|]. rewrite !repeat_length; auto.
  - exists (map (fun p => PTuple [PNum (fst p); PNum (snd p)]) (combine ls us)). destruct (limits_pairs ls us E) as [A B]. split; [|split; [|auto]].
    + destruct ls as [|l ls]; [congruence|]. destruct us as [|u us]; [discriminate|]. unfold parse_bounds, parse_inner. cbn [combine map fst snd item seq_of bind nth_error is_tuple negb].
      replace (List.length (_ :: map _ _)) with (List.length (l :: ls)) by (cbn; rewrite map_length, combine_length; cbn in E; lia). rewrite Nat.eqb_refl.
      assert (G : forall q : list (R * R), mapM (fun x => let* s := seq_of x in Ok (List.length s)) (map (fun p => PTuple [PNum (fst p); PNum (snd p)]) q) = Ok (repeat 2%nat (List.length q))).
      { induction q as [|x t IH]; [reflexivity|]. cbn [map mapM seq_of bind List.length repeat]. rewrite IH. reflexivity. }
      specialize (G ((l, u) :: combine ls us)). cbn [map fst snd] in G. rewrite G. cbn [bind].
      replace (forallb _ _) with true; [reflexivity|]. symmetry. apply forallb_forall. intros x Hx. apply repeat_spec in Hx. subst x. reflexivity.
    + destruct ls as [|l ls]; [congruence|]. destruct us as [|u us]; [discriminate|]. reflexivity.
Qed.

Section One.
Context {A : Type} (obj : objective A) (callback : option (view -> result unit)) (nep : nat) (step b1 b2 : R) (args : list (arg A)).

(** What one epoch does. *)
Lemma epoch_inv given it mv s s' mv' : adam_epoch obj callback nep step b1 b2 args given it mv s = (s', Ok mv') ->
  (mi_params s < List.length (mi_heap s))%nat ->
  let c := Call (cur s) args (View (mi_iter s + 1) (mi_of s) (cur s) (mi_nep s)) in
  exists of grad ga p q,
  obj (mi_calls s ++ [c]) = Ok (of, grad) /\ mi_calls s' = mi_calls s ++ [c] /\ mi_of s' = mi_of s ++ [of] /\ mi_iter s' = (mi_iter s + 1)%nat /\
  mi_bounds s' = mi_bounds s /\ mi_nep s' = mi_nep s /\ mi_last s' = mi_last s /\
  (let mv0 := if Nat.eqb it 0 then (map (fun _ => 0) grad, map (fun _ => 0) grad) else mv in step_adam epsilon grad (fst mv0) (snd mv0) it b1 b2 = Ok (ga, fst mv', snd mv')) /\
  (if Nat.ltb (it + 1) nep then zipw (fun p g => p - step * g) (cur s) ga = Ok p else p = cur s) /\
  (if given then exists bs lbs ubs, mi_bounds s = Some bs /\ limits bs 0 = Ok lbs /\ limits bs 1 = Ok ubs /\ snap lbs ubs p = Ok q else q = p) /\
  cur s' = q /\ (mi_params s' < List.length (mi_heap s'))%nat /\
  (if Nat.ltb (it + 1) nep then mi_params s' = List.length (mi_heap s) /\ mi_heap s' = mi_heap s ++ [q] else mi_params s' = mi_params s /\ mi_heap s' = write (mi_heap s) (mi_params s) q).
Proof.
  unfold adam_epoch, ask. cbn [mi_iter mi_of mi_params mi_bounds mi_nep mi_last mi_heap mi_calls]. unfold cur at 1 2 3. cbn [mi_heap mi_params mi_nep mi_of mi_iter].
  fold (cur s). set (c := Call _ _ _). intros H Hp.
  destruct (obj (mi_calls s ++ [c])) as [[of grad]|e] eqn:EO; [|discriminate]. cbn [mi_iter mi_of mi_params mi_bounds mi_nep mi_last mi_heap mi_calls] in H.
  set (mv0 := if Nat.eqb it 0 then _ else _) in *. destruct (step_adam epsilon grad (fst mv0) (snd mv0) it b1 b2) as [[[ga m'] v']|e] eqn:ES; [|discriminate].
  unfold cur in H. cbn [mi_iter mi_of mi_params mi_bounds mi_nep mi_last mi_heap mi_calls] in H. fold (cur s) in H.
  set (moved := if Nat.ltb (it + 1) nep then _ else _) in H. destruct moved as [p|e] eqn:EM; [|discriminate]. subst moved.
  destruct (Nat.ltb (it + 1) nep) eqn:EL; cbn [mi_iter mi_of mi_params mi_bounds mi_nep mi_last mi_heap mi_calls] in H.
  - rewrite read_last in H. set (sn := if given then _ else _) in H. destruct sn as [q|e] eqn:EN; [|discriminate]. subst sn.
    assert (HS : s' = Mi (mi_iter s + 1) (mi_of s ++ [of]) (List.length (mi_heap s)) (mi_bounds s) (mi_nep s) (mi_last s) (mi_heap s ++ [q]) (mi_calls s ++ [c]) /\ mv' = (m', v') /\
      (if given then exists bs lbs ubs, mi_bounds s = Some bs /\ limits bs 0 = Ok lbs /\ limits bs 1 = Ok ubs /\ snap lbs ubs p = Ok q else q = p)).
    { assert (W : forall h : list (list R), write (h ++ [p]) (List.length h) q = h ++ [q]) by (induction h as [|x t IH]; cbn; [reflexivity|f_equal; exact IH]).
      destruct given; cbn [mi_iter mi_of mi_params mi_bounds mi_nep mi_last mi_heap mi_calls] in H.
      - rewrite W in H. split; [destruct callback as [cb|]; [destruct (cb _); [|discriminate]|]; injection H as <- _; reflexivity|]. split; [destruct callback as [cb|]; [destruct (cb _); [|discriminate]|]; injection H as _ <-; reflexivity|].
        destruct (mi_bounds s) as [bs|]; [|discriminate]. destruct (limits bs 0) as [lbs|] eqn:E0; [|discriminate]. cbn [bind] in EN. destruct (limits bs 1) as [ubs|] eqn:E1; [|discriminate]. cbn [bind] in EN. eauto 9.
      - injection EN as <-. split; [destruct callback as [cb|]; [destruct (cb _); [|discriminate]|]; injection H as <- _; reflexivity|]. split; [destruct callback as [cb|]; [destruct (cb _); [|discriminate]|]; injection H as _ <-; reflexivity|reflexivity]. }
    destruct HS as (-> & -> & HS). exists of, grad, ga, p, q. cbn [mi_iter mi_of mi_params mi_bounds mi_nep mi_last mi_heap mi_calls fst snd].
    repeat (split; [first [reflexivity|assumption|unfold cur; cbn; apply read_last|rewrite app_length; cbn; lia]|]). auto.
  - injection EM as <-. fold (cur s) in H. set (sn := if given then _ else _) in H. destruct sn as [q|e] eqn:EN; [|discriminate]. subst sn.
    assert (HS : s' = Mi (mi_iter s + 1) (mi_of s ++ [of]) (mi_params s) (mi_bounds s) (mi_nep s) (mi_last s) (write (mi_heap s) (mi_params s) q) (mi_calls s ++ [c]) /\ mv' = (m', v') /\
      (if given then exists bs lbs ubs, mi_bounds s = Some bs /\ limits bs 0 = Ok lbs /\ limits bs 1 = Ok ubs /\ snap lbs ubs (cur s) = Ok q else q = cur s)).
    { destruct given; cbn [mi_iter mi_of mi_params mi_bounds mi_nep mi_last mi_heap mi_calls] in H.
      - split; [destruct callback as [cb|]; [destruct (cb _); [|discriminate]|]; injection H as <- _; reflexivity|]. split; [destruct callback as [cb|]; [destruct (cb _); [|discriminate]|]; injection H as _ <-; reflexivity|].
        destruct (mi_bounds s) as [bs|]; [|discriminate]. destruct (limits bs 0) as [lbs|] eqn:E0; [|discriminate]. cbn [bind] in EN. destruct (limits bs 1) as [ubs|] eqn:E1; [|discriminate]. cbn [bind] in EN. eauto 9.
      - injection EN as <-. unfold cur. rewrite write_read. split; [destruct callback as [cb|]; [destruct (cb _); [|discriminate]|]; injection H as <- _; reflexivity|]. split; [destruct callback as [cb|]; [destruct (cb _); [|discriminate]|]; injection H as _ <-; reflexivity|reflexivity]. }
    destruct HS as (-> & -> & HS). exists of, grad, ga, (cur s), q. cbn [mi_iter mi_of mi_params mi_bounds mi_nep mi_last mi_heap mi_calls fst snd].
    repeat (split; [first [reflexivity|assumption|unfold cur; cbn; apply read_write_same; exact Hp|rewrite write_length; exact Hp]|]). auto.
Qed.

(** The loop, following the calls. *)
Inductive trace (given : bool) : nat -> nat -> (list R * list R) -> minst A -> minst A -> list (call A) -> Prop :=
| tr_nil it mv s : trace given 0 it mv s s []
| tr_cons t it mv s s1 mv1 s2 c cs : adam_epoch obj callback nep step b1 b2 args given it mv s = (s1, Ok mv1) ->
    c = Call (cur s) args (View (mi_iter s + 1) (mi_of s) (cur s) (mi_nep s)) -> trace given t (it + 1) mv1 s1 s2 cs -> trace given (S t) it mv s s2 (c :: cs).
Lemma loop_trace given todo it mv s s' : adam_loop obj callback nep step b1 b2 args given todo it mv s = (s', Ok tt) -> exists cs, trace given todo it mv s s' cs.
Proof.
  revert it mv s; induction todo as [|t IH]; cbn [adam_loop]; intros it mv s H.
  - injection H as <-. eexists; constructor.
  - destruct (adam_epoch _ _ _ _ _ _ _ _ _ _ _) as [s1 [mv1|e]] eqn:E; [|discriminate]. destruct (IH _ _ _ H) as [cs T]. eexists. econstructor; eauto.
Qed.
Lemma trace_basic given todo it mv s s' cs : trace given todo it mv s s' cs -> (mi_params s < List.length (mi_heap s))%nat ->
  mi_calls s' = mi_calls s ++ cs /\ List.length cs = todo /\ mi_iter s' = (mi_iter s + todo)%nat /\ mi_bounds s' = mi_bounds s /\ mi_nep s' = mi_nep s /\
  (mi_params s' < List.length (mi_heap s'))%nat /\ List.length (mi_of s') = (List.length (mi_of s) + todo)%nat /\ Forall (fun c => ca_args c = args) cs.
Proof.
  induction 1 as [|t it mv s s1 mv1 s2 c cs E -> T IH]; intros Hp.
  - rewrite app_nil_r. repeat split; auto; lia.
  - destruct (epoch_inv _ _ _ _ _ _ E Hp) as (of & g & ga & p & q & EO & EC & EF & EI & EB & EN & EL & ES & EM & EQ & Ecu & Hp' & EH).
    destruct (IH Hp') as (I1 & I2 & I3 & I4 & I5 & I6 & I7 & I8). rewrite I1, EC, I3, EI, I4, EB, I5, EN, I7, EF, app_length, <- app_assoc. cbn [List.length]. repeat split; auto; lia.
Qed.
(** Bounds hold after every epoch. *)
Lemma trace_within lbs ubs todo it mv s s' cs bs : trace true todo it mv s s' cs -> (mi_params s < List.length (mi_heap s))%nat ->
  mi_bounds s = Some bs -> limits bs 0 = Ok lbs -> limits bs 1 = Ok ubs -> consistent lbs ubs -> List.length (cur s) = List.length lbs ->
  ((0 < todo)%nat -> within lbs ubs (cur s')) /\ (forall c t, cs = c :: t -> Forall (fun c => within lbs ubs (ca_x c)) t) /\ (within lbs ubs (cur s) -> Forall (fun c => within lbs ubs (ca_x c)) cs) /\ List.length (cur s') = List.length lbs.
Proof.
  induction 1 as [|t it mv s s1 mv1 s2 c cs E -> T IH]; intros Hp HB H0 H1 HC HL.
  - split; [lia|]. split; [discriminate|]. split; [intros _; constructor|exact HL].
  - destruct (epoch_inv _ _ _ _ _ _ E Hp) as (of & g & ga & p & q & EO & EC & EF & EI & EB & EN & EL & ES & EM & EQ & Ecu & Hp' & EH).
    destruct EQ as (bs' & l' & u' & HB' & H0' & H1' & EQ). rewrite HB in HB'; injection HB' as <-. rewrite H0 in H0'; injection H0' as <-. rewrite H1 in H1'; injection H1' as <-.
    assert (Lp : List.length p = List.length (cur s)). { destruct (Nat.ltb _ _); [apply zipw_ok in EM as (_ & E2 & _); exact E2|subst p; reflexivity]. }
    assert (W : within lbs ubs (cur s1)). { rewrite Ecu. apply (snap_within _ _ p); [exact HC|congruence|exact EQ]. }
    rewrite EB in IH. destruct (IH Hp' HB H0 H1 HC (proj1 W)) as (I1 & I2 & I3 & I4). split; [|split; [|split]].
    + intros _. destruct t as [|t]; [inversion T; subst; exact W|apply I1; lia].
    + intros c' t' Eq. injection Eq as <- <-. exact (I3 W).
    + intros W0. constructor; [exact W0|exact (I3 W)].
    + exact I4.
Qed.
End One.

(** Adam from outside: the loop starts on the caller's array. *)
Lemma adam_inv {A} (obj : objective A) pstart nep b step b1 b2 args ps cb s s' r ofs : adam obj pstart nep b step b1 b2 args ps cb s = (s', Ok (r, ofs)) ->
  exists bs, parse_bounds (List.length (read (mi_heap s) pstart)) b = Ok bs /\ mi_params s' = r /\ mi_of s' = ofs /\
  exists cs, trace obj cb nep step b1 b2 (with_self ps args) (truthy b) nep 0 ([], []) (Mi 0 [] pstart bs nep (mi_last s) (mi_heap s) (mi_calls s)) s' cs.
Proof.
  unfold adam, cur. cbn [mi_heap mi_params]. destruct (parse_bounds _ b) as [bs|] eqn:EP; [|discriminate]. intros H. exists bs. split; [reflexivity|].
  destruct (adam_loop _ _ _ _ _ _ _ _ _ _ _ _) as [s2 [[]|]] eqn:EL; [|discriminate]. injection H as <- <- <-. split; [reflexivity|]. split; [reflexivity|]. apply loop_trace; exact EL.
Qed.
Lemma adam_within {A} (obj : objective A) pstart nep b lbs ubs step b1 b2 args ps cb s s' r ofs : (pstart < List.length (mi_heap s))%nat -> (0 < nep)%nat ->
  documented (List.length (read (mi_heap s) pstart)) b lbs ubs -> consistent lbs ubs -> adam obj pstart nep b step b1 b2 args ps cb s = (s', Ok (r, ofs)) ->
  within lbs ubs (read (mi_heap s') r) /\ exists c0 cs, mi_calls s' = mi_calls s ++ c0 :: cs /\ ca_x c0 = read (mi_heap s) pstart /\ Forall (fun c => within lbs ubs (ca_x c)) cs.
Proof.
  intros Hp Hn HD HC H. destruct (adam_inv _ _ _ _ _ _ _ _ _ _ _ _ _ _ H) as (bs & EP & ER & _ & cs & T).
  destruct (parse_documented _ _ _ _ HD) as (bs' & EP' & ET & E0 & E1 & L0 & L1). rewrite EP' in EP; injection EP as <-. rewrite ET in T.
  destruct (trace_within _ _ _ _ _ _ _ lbs ubs _ _ _ _ _ _ bs' T Hp eq_refl E0 E1 HC) as (W & W2 & _); [symmetry; exact L0|].
  destruct (trace_basic _ _ _ _ _ _ _ _ _ _ _ _ _ _ T Hp) as (EC & Lc & _). split; [rewrite <- ER; exact (W Hn)|].
  destruct cs as [|c0 cs]; [cbn in Lc; lia|]. exists c0, cs. split; [exact EC|]. split; [inversion T; subst; reflexivity|exact (W2 _ _ eq_refl)].
Qed.
