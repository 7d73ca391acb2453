(** Adam: the history of values, the caller's array, a second call. *)
From Verif Require Import Py MinimizeModel MinimizeSpec MinimizeProofs.
Open Scope R_scope.
Open Scope list_scope.

Lemma clip_idem (x l u : R) : let clip x := if Rltb u (if Rltb x l then l else x) then u else if Rltb x l then l else x in clip (clip x) = clip x.
Proof. cbv zeta. unfold Rltb. repeat (destruct Rlt_dec; try lra). Qed.
Lemma snap_idem lbs ubs p q q' : snap lbs ubs p = Ok q -> snap lbs ubs q = Ok q' -> q' = q.
Proof.
  unfold snap. intros H H'. destruct (zipw _ p lbs) as [p1|] eqn:E1; [|discriminate]. cbn [bind] in H. destruct (zipw _ q lbs) as [q1|] eqn:E2; [|discriminate]. cbn [bind] in H'.
  apply zipw_ok in E1 as (L0 & L1 & N1). apply zipw_ok in H as (L2 & L3 & N2). apply zipw_ok in E2 as (L4 & L5 & N4). apply zipw_ok in H' as (L6 & L7 & N6).
  apply (nth_ext _ _ 0 0); [lia|]. intros i Hi. rewrite N6, N4, N2, N1 by lia.
  apply clip_idem.
Qed.

Section One.
Context {A : Type} (obj : objective A) (callback : option (view -> result unit)) (nep : nat) (step b1 b2 : R) (args : list (arg A)).
Notation tr := (trace obj callback nep step b1 b2 args).

(** of_list holds the answers of the objective. *)
Lemma trace_values given todo it mv s s' cs : tr given todo it mv s s' cs -> (mi_params s < List.length (mi_heap s))%nat ->
  exists ofs, mi_of s' = mi_of s ++ ofs /\ Forall2 (fun o a => exists g, a = Ok (o, g)) ofs (answers obj (mi_calls s) cs).
Proof.
  induction 1 as [|t it mv s s1 mv1 s2 c cs E -> T IH]; intros Hp.
  - exists []. rewrite app_nil_r. split; [reflexivity|constructor].
  - destruct (epoch_inv _ _ _ _ _ _ _ _ _ _ _ _ _ E Hp) as (of & g & ga & p & q & EO & EC & EF & EI & EB & EN & EL & ES & EM & EQ & Ecu & Hp' & EH).
    destruct (IH Hp') as (ofs & E1 & E2). exists (of :: ofs). split; [rewrite E1, EF, <- app_assoc; reflexivity|]. cbn [answers]. constructor; [eauto|rewrite <- EC; exact E2].
Qed.

Definition settled (given : bool) (s : minst A) : Prop := given = true -> forall bs lbs ubs q, mi_bounds s = Some bs -> limits bs 0 = Ok lbs -> limits bs 1 = Ok ubs -> snap lbs ubs (cur s) = Ok q -> q = cur s.
Lemma epoch_settles given it mv s s1 mv1 : adam_epoch obj callback nep step b1 b2 args given it mv s = (s1, Ok mv1) -> (mi_params s < List.length (mi_heap s))%nat -> settled given s1.
Proof.
  intros E Hp. destruct (epoch_inv _ _ _ _ _ _ _ _ _ _ _ _ _ E Hp) as (of & g & ga & p & q & EO & EC & EF & EI & EB & EN & EL & ES & EM & EQ & Ecu & Hp' & EH).
  intros -> bs lbs ubs q' HB H0 H1 H2. destruct EQ as (bs' & l' & u' & HB' & H0' & H1' & EQ). rewrite EB, HB' in HB; injection HB as <-. rewrite H0 in H0'; injection H0' as <-. rewrite H1 in H1'; injection H1' as <-.
  rewrite Ecu in H2 |- *. eapply snap_idem; eauto.
Qed.
(** The last call was made at the array in the end. *)
Lemma trace_last given todo it mv s s' cs : tr given todo it mv s s' cs -> (mi_params s < List.length (mi_heap s))%nat -> (it + todo = nep)%nat ->
  (todo = 1%nat -> settled given s) -> forall d, (0 < todo)%nat -> ca_x (last cs d) = cur s'.
Proof.
  induction 1 as [|t it mv s s1 mv1 s2 c cs E -> T IH]; intros Hp Hn Hs d H0; [lia|].
  destruct t as [|t].
  - inversion T; subst. cbn [last ca_x]. destruct (epoch_inv _ _ _ _ _ _ _ _ _ _ _ _ _ E Hp) as (of & g & ga & p & q & EO & EC & EF & EI & EB & EN & EL & ES & EM & EQ & Ecu & Hp' & EH).
    replace (Nat.ltb (it + 1) (it + 1)) with false in EM by (symmetry; apply Nat.ltb_irrefl). subst p. destruct given.
    + destruct EQ as (bs' & l' & u' & HB' & H0' & H1' & EQ). rewrite Ecu. symmetry. exact (Hs eq_refl eq_refl _ _ _ _ HB' H0' H1' EQ).
    + congruence.
  - destruct (epoch_inv _ _ _ _ _ _ _ _ _ _ _ _ _ E Hp) as (of & g & ga & p & q & EO & EC & EF & EI & EB & EN & EL & ES & EM & EQ & Ecu & Hp' & EH).
    pose proof (epoch_settles _ _ _ _ _ _ E Hp) as HSet. inversion T as [|? ? ? ? ? ? ? c' cs' E' Ec' T']; subst. change (last (_ :: ?c' :: cs') d) with (last (c' :: cs') d). apply IH; auto; lia.
Qed.
(** Arrays other than the current one are not written to. *)
Lemma trace_others given todo it mv s s' cs : tr given todo it mv s s' cs -> (mi_params s < List.length (mi_heap s))%nat ->
  forall r, (r < List.length (mi_heap s))%nat -> r <> mi_params s -> read (mi_heap s') r = read (mi_heap s) r.
Proof.
  induction 1 as [|t it mv s s1 mv1 s2 c cs E -> T IH]; intros Hp r Hr Hne; [reflexivity|].
  destruct (epoch_inv _ _ _ _ _ _ _ _ _ _ _ _ _ E Hp) as (of & g & ga & p & q & EO & EC & EF & EI & EB & EN & EL & ES & EM & EQ & Ecu & Hp' & EH).
  destruct (Nat.ltb (it + 1) nep); destruct EH as [P1 P2].
  - rewrite IH; [rewrite P2; apply read_app; exact Hr|exact Hp'|rewrite P2, app_length; lia|rewrite P1; lia].
  - rewrite IH; [rewrite P2; apply read_write_other; auto|exact Hp'|rewrite P2, write_length; lia|congruence].
Qed.
Lemma trace_start given todo it mv s s' cs : tr given todo it mv s s' cs -> (mi_params s < List.length (mi_heap s))%nat -> (it + todo = nep)%nat ->
  (todo = 1%nat -> settled given s) -> read (mi_heap s') (mi_params s) = cur s.
Proof.
  intros T Hp Hn Hs. pose proof trace_others as TO. inversion T as [|t ? ? ? s1 mv1 ? c cs' E Ec T']; subst; [reflexivity|].
  destruct (epoch_inv _ _ _ _ _ _ _ _ _ _ _ _ _ E Hp) as (of & g & ga & p & q & EO & EC & EF & EI & EB & EN & EL & ES & EM & EQ & Ecu & Hp' & EH).
  destruct t as [|t].
  - inversion T'; subst. replace (Nat.ltb (it + 1) (it + 1)) with false in * by (symmetry; apply Nat.ltb_irrefl). destruct EH as [P1 P2]. rewrite P2, read_write_same by exact Hp. subst p.
    destruct given; [destruct EQ as (bs' & l' & u' & HB' & H0' & H1' & EQ); exact (Hs eq_refl eq_refl _ _ _ _ HB' H0' H1' EQ)|exact EQ].
  - replace (Nat.ltb (it + 1) (it + S (S t))) with true in EH by (symmetry; apply Nat.ltb_lt; lia). destruct EH as [P1 P2].
    rewrite (TO _ _ _ _ _ _ _ T' Hp'); [rewrite P2; apply read_app; exact Hp|rewrite P2, app_length; lia|rewrite P1; lia].
Qed.
End One.

Lemma harmless_settled {A} b nep bs (s : minst A) : parse_bounds (List.length (cur s)) b = Ok bs -> mi_bounds s = bs -> harmless b nep (cur s) -> nep = 1%nat -> settled (truthy b) s.
Proof.
  intros EP EB [->|[H|(lbs & ubs & HD & W)]] Hn; [intros H; discriminate|contradiction|].
  destruct (parse_documented _ _ _ _ HD) as (bs' & EP' & ET & E0 & E1 & L0 & L1). rewrite EP' in EP. injection EP as <-. intros _ bs l u q HB H0 H1 H2. rewrite EB in HB. injection HB as <-.
  rewrite E0 in H0; injection H0 as <-. rewrite E1 in H1; injection H1 as <-. eapply snap_id; eauto.
Qed.
Lemma adam_history {A} (obj : objective A) pstart nep b step b1 b2 args ps cb s s' r ofs : (pstart < List.length (mi_heap s))%nat ->
  adam obj pstart nep b step b1 b2 args ps cb s = (s', Ok (r, ofs)) -> List.length ofs = nep /\ mi_iter s' = nep /\
  exists cs, mi_calls s' = mi_calls s ++ cs /\ Forall2 (fun o a => exists g, a = Ok (o, g)) ofs (answers obj (mi_calls s) cs) /\
  Forall (fun c => ca_args c = with_self ps args) cs /\
  (harmless b nep (read (mi_heap s) pstart) -> (0 < nep)%nat -> forall d, ca_x (last cs d) = read (mi_heap s') r) /\
  (harmless b nep (read (mi_heap s) pstart) -> read (mi_heap s') pstart = read (mi_heap s) pstart) /\
  (forall r', (r' < List.length (mi_heap s))%nat -> r' <> pstart -> read (mi_heap s') r' = read (mi_heap s) r').
Proof.
  intros Hp H. destruct (adam_inv _ _ _ _ _ _ _ _ _ _ _ _ _ _ H) as (bs & EP & ER & EO & cs & T). set (s0 := Mi 0 [] pstart bs nep _ _ _) in T.
  assert (Hp0 : (mi_params s0 < List.length (mi_heap s0))%nat) by exact Hp.
  destruct (trace_basic _ _ _ _ _ _ _ _ _ _ _ _ _ _ T Hp0) as (I1 & I2 & I3 & I4 & I5 & I6 & I7 & I8). destruct (trace_values _ _ _ _ _ _ _ _ _ _ _ _ _ _ T Hp0) as (ofs' & E1 & E2). cbn [mi_of s0 app] in *.
  split; [rewrite <- EO; exact I7|]. split; [exact I3|]. exists cs. split; [exact I1|]. split; [rewrite <- EO, E1; exact E2|]. split; [exact I8|].
  assert (HS : harmless b nep (read (mi_heap s) pstart) -> nep = 1%nat -> settled (truthy b) s0) by (intros Hh; apply (harmless_settled b nep bs s0 EP eq_refl Hh)).
  split; [|split].
  - intros Hh Hn d. rewrite (trace_last _ _ _ _ _ _ _ _ _ _ _ _ _ _ T Hp0 ltac:(lia) (HS Hh) d Hn). unfold cur. rewrite ER. reflexivity.
  - intros Hh. exact (trace_start _ _ _ _ _ _ _ _ _ _ _ _ _ _ T Hp0 ltac:(lia) (HS Hh)).
  - intros r' Hr Hne. exact (trace_others _ _ _ _ _ _ _ _ _ _ _ _ _ _ T Hp0 r' Hr Hne).
Qed.

(** A call does not depend on what the object did before. *)
Section Afresh.
Context {A : Type} (obj : objective A) (f : call A -> result (R * list R)) (Hf : forall h c, obj (h ++ [c]) = f c).
Definition alike (s t : minst A) : Prop := mi_iter s = mi_iter t /\ mi_of s = mi_of t /\ mi_bounds s = mi_bounds t /\ mi_nep s = mi_nep t /\ cur s = cur t /\
  (mi_params s < List.length (mi_heap s))%nat /\ (mi_params t < List.length (mi_heap t))%nat.
Definition same {X} (a b : minst A * result X) : Prop := match snd a, snd b with Ok x, Ok y => x = y /\ alike (fst a) (fst b) | Raise e, Raise e' => e = e' | _, _ => False end.
Ltac fin := unfold alike, cur; cbn [fst snd mi_iter mi_of mi_params mi_bounds mi_nep mi_last mi_heap mi_calls];
  rewrite ?app_length, ?write_length, ?read_last, ?app_length; cbn [List.length]; repeat split; auto; try lia; rewrite ?read_write_same; rewrite ?app_length; cbn [List.length]; auto; lia.
Lemma epoch_alike cb nep step b1 b2 args given it mv s t : alike s t ->
  same (adam_epoch obj cb nep step b1 b2 args given it mv s) (adam_epoch obj cb nep step b1 b2 args given it mv t).
Proof.
  intros (E1 & E2 & E3 & E4 & E5 & P1 & P2). unfold adam_epoch, ask. cbn [mi_iter mi_of mi_params mi_bounds mi_nep mi_last mi_heap mi_calls]. unfold cur in *. cbn [mi_iter mi_of mi_params mi_bounds mi_nep mi_last mi_heap mi_calls].
  rewrite !Hf, <- E1, <- E2, <- E4, <- E5. destruct (f _) as [[of g]|e]; [|reflexivity]. cbn [mi_iter mi_of mi_params mi_bounds mi_nep mi_last mi_heap mi_calls].
  set (mv0 := if Nat.eqb it 0 then _ else _). destruct (step_adam _ _ _ _ _ _ _) as [[[ga m'] v']|e]; [|reflexivity].
  destruct (Nat.ltb (it + 1) nep).
  - rewrite <- ?E5. destruct (zipw _ (read (mi_heap s) (mi_params s)) ga) as [p|e]; [|reflexivity]. cbn [mi_iter mi_of mi_params mi_bounds mi_nep mi_last mi_heap mi_calls].
    rewrite !read_last, <- E3. destruct given.
    + destruct (match mi_bounds s with Some _ => _ | None => _ end) as [q|e]; [|reflexivity]. cbn [mi_iter mi_of mi_params mi_bounds mi_nep mi_last mi_heap mi_calls].
      rewrite !read_write_same by (rewrite app_length; cbn; lia). destruct cb as [k|]; [destruct (k _) as [w|e]; [|reflexivity]|]; (split; [reflexivity|]); fin.
    + cbn [mi_iter mi_of mi_params mi_bounds mi_nep mi_last mi_heap mi_calls]; rewrite ?read_last. destruct cb as [k|]; [destruct (k _) as [w|e]; [|reflexivity]|]; (split; [reflexivity|]); fin.
  - cbn [mi_iter mi_of mi_params mi_bounds mi_nep mi_last mi_heap mi_calls]. rewrite <- ?E3, <- ?E5. destruct given.
    + destruct (match mi_bounds s with Some _ => _ | None => _ end) as [q|e]; [|reflexivity]. cbn [mi_iter mi_of mi_params mi_bounds mi_nep mi_last mi_heap mi_calls].
      rewrite !read_write_same by assumption. destruct cb as [k|]; [destruct (k _) as [w|e]; [|reflexivity]|]; (split; [reflexivity|]); fin.
    + cbn [mi_iter mi_of mi_params mi_bounds mi_nep mi_last mi_heap mi_calls]; rewrite <- ?E5. destruct cb as [k|]; [destruct (k _) as [w|e]; [|reflexivity]|]; (split; [reflexivity|]); fin.
Qed.
Lemma loop_alike cb nep step b1 b2 args given todo it mv s t : alike s t ->
  same (adam_loop obj cb nep step b1 b2 args given todo it mv s) (adam_loop obj cb nep step b1 b2 args given todo it mv t).
Proof.
  revert it mv s t; induction todo as [|k IH]; intros it mv s t H; cbn [adam_loop]; [split; [reflexivity|exact H]|].
  pose proof (epoch_alike cb nep step b1 b2 args given it mv s t H) as E. unfold same in E.
  destruct (adam_epoch _ _ _ _ _ _ _ _ _ _ s) as [s1 [m1|e1]]; destruct (adam_epoch _ _ _ _ _ _ _ _ _ _ t) as [t1 [m2|e2]]; cbn [fst snd] in E; try contradiction.
  - destruct E as [<- E]. apply IH; exact E.
  - exact E.
Qed.
Lemma adam_afresh pstart pstart' nep b step b1 b2 args ps cb s t : read (mi_heap s) pstart = read (mi_heap t) pstart' ->
  (pstart < List.length (mi_heap s))%nat -> (pstart' < List.length (mi_heap t))%nat ->
  match adam obj pstart nep b step b1 b2 args ps cb s, adam obj pstart' nep b step b1 b2 args ps cb t with
  | (s', Ok (r, ofs)), (t', Ok (r', ofs')) => read (mi_heap s') r = read (mi_heap t') r' /\ ofs = ofs'
  | (_, Raise e), (_, Raise e') => e = e'
  | _, _ => False
  end.
Proof.
  intros E P1 P2. unfold adam. unfold cur. cbn [mi_heap mi_params]. rewrite <- E. destruct (parse_bounds _ b) as [bs|]; [|reflexivity].
  pose proof (loop_alike cb nep step b1 b2 (with_self ps args) (truthy b) nep 0 ([], []) (Mi 0 [] pstart bs nep (mi_last s) (mi_heap s) (mi_calls s)) (Mi 0 [] pstart' bs nep (mi_last t) (mi_heap t) (mi_calls t))) as H.
  specialize (H ltac:(repeat split; auto)). unfold same in H.
  destruct (adam_loop _ _ _ _ _ _ _ _ _ _ _ (Mi 0 [] pstart _ _ _ _ _)) as [s1 [[]|e1]]; destruct (adam_loop _ _ _ _ _ _ _ _ _ _ _ (Mi 0 [] pstart' _ _ _ _ _)) as [t1 [[]|e2]]; cbn [fst snd] in H; try contradiction; [|exact H].
  destruct H as [_ (E1 & E2 & _ & _ & E5 & _)]. split; [exact E5|exact E2].
Qed.
End Afresh.
