(** Property theorems for minimize.py: C59-C63, C95-C97. *)
From Verif Require Import Py MinimizeModel MinimizeSpec MinimizeProofs MinimizeProofs2 MinimizeProofs3 MinimizeProofs4.
Open Scope R_scope.
Open Scope list_scope.

(** C59.  Bounds hold for the result and for every evaluation after the first. *)
Theorem C59_bounds {A} (obj : objective A) pstart nep b lbs ubs step b1 b2 args ps cb s s' r ofs : (pstart < List.length (mi_heap s))%nat -> (0 < nep)%nat ->
  documented (List.length (read (mi_heap s) pstart)) b lbs ubs -> consistent lbs ubs -> adam obj pstart nep b step b1 b2 args ps cb s = (s', Ok (r, ofs)) ->
  within lbs ubs (read (mi_heap s') r) /\ exists c0 cs, mi_calls s' = mi_calls s ++ c0 :: cs /\ ca_x c0 = read (mi_heap s) pstart /\ Forall (fun c => within lbs ubs (ca_x c)) cs.
Proof. exact (adam_within obj pstart nep b lbs ubs step b1 b2 args ps cb s s' r ofs). Qed.
Print Assumptions C59_bounds.
(** Such runs exist: adam does not fail on documented bounds when the objective answers
    with gradients of the right shape. *)
Theorem C59_no_failure {A} (obj : objective A) pstart nep b step b1 b2 args ps s : (pstart < List.length (mi_heap s))%nat ->
  (forall h c, exists o g, obj (h ++ [c]) = Ok (o, g) /\ List.length g = List.length (ca_x c)) ->
  b = PNone \/ (exists lbs ubs, documented (List.length (read (mi_heap s) pstart)) b lbs ubs) ->
  exists s' r ofs, adam obj pstart nep b step b1 b2 args ps None s = (s', Ok (r, ofs)).
Proof. exact (adam_total obj pstart nep b step b1 b2 args ps s). Qed.
Print Assumptions C59_no_failure.
Example C59_case : exists s' r ofs, adam bowl 0 30 unit_bounds (1 / 100) (9 / 10) (999 / 1000) [] false None (fresh_opt [[5; 1 / 2]]) = (s', Ok (r, ofs)) /\ consistent [0; 0] [1; 1] /\ documented 2 unit_bounds [0; 0] [1; 1].
Proof.
  destruct (bowl_runs 0 30 unit_bounds (1 / 100) (9 / 10) (999 / 1000) [] false (fresh_opt [[5; 1 / 2]])) as (s' & r & ofs & E); [cbn; lia|right; exists [0; 0], [1; 1]; apply (doc_two 2)|].
  exists s', r, ofs. split; [exact E|]. split; [intros [|[|i]] Hi; cbn in Hi |- *; try lra; lia|apply (doc_two 2)].
Qed.

(** C60.  After one epoch the last value can belong to other parameters than those
    returned ... *)
Theorem C60_last_value_refuted : exists obj f df pstart b (s s' : minst R) r ofs, smooth obj f df /\ (pstart < List.length (mi_heap s))%nat /\ (exists lbs ubs, documented (List.length (read (mi_heap s) pstart)) b lbs ubs /\ consistent lbs ubs) /\
  adam obj pstart 1 b (1 / 100) (9 / 10) (999 / 1000) [] false None s = (s', Ok (r, ofs)) /\ last ofs 0 <> f (read (mi_heap s') r) /\ read (mi_heap s') pstart <> read (mi_heap s) pstart.
Proof. exact history_off. Qed.
Print Assumptions C60_last_value_refuted.
(** ... otherwise there are Nepochs values, each the answer to its call, and the last
    call was made at the parameters returned. *)
Theorem C60_history_partial {A} (obj : objective A) pstart nep b step b1 b2 args ps cb s s' r ofs : (pstart < List.length (mi_heap s))%nat ->
  adam obj pstart nep b step b1 b2 args ps cb s = (s', Ok (r, ofs)) -> List.length ofs = nep /\ mi_iter s' = nep /\
  exists cs, mi_calls s' = mi_calls s ++ cs /\ Forall2 (fun o a => exists g, a = Ok (o, g)) ofs (answers obj (mi_calls s) cs) /\
  Forall (fun c => ca_args c = with_self ps args) cs /\
  (harmless b nep (read (mi_heap s) pstart) -> (0 < nep)%nat -> forall d, ca_x (last cs d) = read (mi_heap s') r) /\
  (harmless b nep (read (mi_heap s) pstart) -> read (mi_heap s') pstart = read (mi_heap s) pstart) /\
  (forall r', (r' < List.length (mi_heap s))%nat -> r' <> pstart -> read (mi_heap s') r' = read (mi_heap s) r').
Proof. exact (adam_history obj pstart nep b step b1 b2 args ps cb s s' r ofs). Qed.
Print Assumptions C60_history_partial.
(** A call gives the same whatever the object did before. *)
Theorem C60_afresh_partial {A} (obj : objective A) f : (forall h c, obj (h ++ [c]) = f c) -> forall pstart pstart' nep b step b1 b2 args ps cb s t,
  read (mi_heap s) pstart = read (mi_heap t) pstart' -> (pstart < List.length (mi_heap s))%nat -> (pstart' < List.length (mi_heap t))%nat ->
  match adam obj pstart nep b step b1 b2 args ps cb s, adam obj pstart' nep b step b1 b2 args ps cb t with
  | (s', Ok (r, ofs)), (t', Ok (r', ofs')) => read (mi_heap s') r = read (mi_heap t') r' /\ ofs = ofs'
  | (_, Raise e), (_, Raise e') => e = e'
  | _, _ => False
  end.
Proof. exact (adam_afresh obj f). Qed.
Print Assumptions C60_afresh_partial.

(** C61.  The caller's array is changed by a run of one epoch with bounds ... *)
Theorem C61_untouched_refuted : exists (obj : objective R) pstart nep b step b1 b2 args ps cb s s' r ofs, (pstart < List.length (mi_heap s))%nat /\
  adam obj pstart nep b step b1 b2 args ps cb s = (s', Ok (r, ofs)) /\ read (mi_heap s') pstart <> read (mi_heap s) pstart.
Proof. destruct history_off as (o & f & df & p & b & s & s' & r & ofs & _ & H1 & _ & H2 & _ & H3). exact (ex_intro _ o (ex_intro _ p (ex_intro _ 1%nat (ex_intro _ b (ex_intro _ _ (ex_intro _ _ (ex_intro _ _ (ex_intro _ _ (ex_intro _ _ (ex_intro _ _ (ex_intro _ s (ex_intro _ s' (ex_intro _ r (ex_intro _ ofs (conj H1 (conj H2 H3)))))))))))))))). Qed.
Print Assumptions C61_untouched_refuted.
(** ... and not changed when Nepochs <> 1, without bounds or when it is within them. *)
Theorem C61_untouched_partial {A} (obj : objective A) pstart nep b step b1 b2 args ps cb s s' r ofs : (pstart < List.length (mi_heap s))%nat ->
  adam obj pstart nep b step b1 b2 args ps cb s = (s', Ok (r, ofs)) -> harmless b nep (read (mi_heap s) pstart) ->
  forall r', (r' < List.length (mi_heap s))%nat -> read (mi_heap s') r' = read (mi_heap s) r'.
Proof.
  intros Hp H Hh r' Hr. destruct (adam_history obj pstart nep b step b1 b2 args ps cb s s' r ofs Hp H) as (_ & _ & cs & _ & _ & _ & _ & H1 & H2).
  destruct (Nat.eq_dec r' pstart) as [->|Hne]; [exact (H1 Hh)|exact (H2 r' Hr Hne)].
Qed.
Print Assumptions C61_untouched_partial.

(** C62.  The parameters move by step_size times the bias-corrected direction of Adam,
    then are snapped ... *)
Theorem C62_path {A} (obj : objective A) pstart nep b step b1 b2 args ps cb s s' r ofs : (pstart < List.length (mi_heap s))%nat ->
  adam obj pstart nep b step b1 b2 args ps cb s = (s', Ok (r, ofs)) -> exists cs gs, mi_calls s' = mi_calls s ++ cs /\ List.length cs = nep /\
  Forall2 (fun g a => exists o, a = Ok (o, g)) gs (answers obj (mi_calls s) cs) /\
  forall snp, (b = PNone /\ snp = (fun _ x => x)) \/ (exists lbs ubs, documented (List.length (read (mi_heap s) pstart)) b lbs ubs /\ snp = (fun i x => clip (nth i lbs 0) (nth i ubs 0) x)) ->
  (forall t c c', nth_error cs t = Some c -> nth_error cs (S t) = Some c' -> List.length (ca_x c') = List.length (ca_x c) /\
    forall i, (i < List.length (ca_x c))%nat -> nth i (ca_x c') 0 = snp i (nth i (ca_x c) 0 - step * direction (1 / 10 ^ 8) b1 b2 (fun k => nth i (nth k gs []) 0) (S t))) /\
  (forall d, (0 < nep)%nat -> forall i, (i < List.length (ca_x (last cs d)))%nat -> nth i (read (mi_heap s') r) 0 = snp i (nth i (ca_x (last cs d)) 0)).
Proof. exact (adam_path obj pstart nep b step b1 b2 args ps cb s s' r ofs). Qed.
Print Assumptions C62_path.
(** ... which for a constant gradient is g / (|g| + eps) at every step ... *)
Theorem C62_constant eps b1 b2 g t : 0 <= b1 < 1 -> 0 <= b2 < 1 -> (0 < t)%nat -> direction eps b1 b2 (fun _ => g) t = g / (Rabs g + eps).
Proof. exact (direction_const eps b1 b2 g t). Qed.
Print Assumptions C62_constant.
(** ... and on the first step smaller than 1, with the sign of the gradient. *)
Theorem C62_first eps b1 b2 g : 0 < eps -> 0 <= b1 < 1 -> 0 <= b2 < 1 -> Rabs (direction eps b1 b2 g 1) < 1 /\ 0 <= direction eps b1 b2 g 1 * g 0%nat /\ (direction eps b1 b2 g 1 = 0 <-> g 0%nat = 0).
Proof. exact (direction_first eps b1 b2 g). Qed.
Print Assumptions C62_first.
Example C62_case : direction (1 / 10 ^ 8) (9 / 10) (999 / 1000) (fun _ => -3) 7 = -3 / (3 + 1 / 10 ^ 8).
Proof. rewrite direction_const by (lra || lia). rewrite Rabs_left by lra. f_equal. lra. Qed.

(** C63.  lbfgs makes its first call without the optimiser ... *)
Theorem C63_lbfgs_refuted : exists (obj : objective R) solver pstart nep b args s s' x ofs c, lbfgs obj solver pstart nep b args true None s = (s', Ok (x, ofs)) /\ In c (mi_calls s') /\ ~ In c (mi_calls s) /\ forall l, ca_args c <> l ++ [ASelf].
Proof. destruct lbfgs_first as (s' & x & ofs & c & H1 & H2 & H3). exact (ex_intro _ bowl (ex_intro _ lazy_solver (ex_intro _ 0%nat (ex_intro _ 5%nat (ex_intro _ PNone (ex_intro _ [] (ex_intro _ (fresh_opt [[1]]) (ex_intro _ s' (ex_intro _ x (ex_intro _ ofs (ex_intro _ c (conj H1 (conj H2 (conj (fun H => H) H3)))))))))))))). Qed.
Print Assumptions C63_lbfgs_refuted.
(** ... so that an objective that needs it always fails ... *)
Theorem C63_lbfgs_fails_partial {A} (obj : objective A) solver pstart nep b (args : list A) ps cb s : wants_self obj -> (exists bs, parse_bounds (List.length (read (mi_heap s) pstart)) b = Ok bs) ->
  snd (lbfgs obj solver pstart nep b args ps cb s) = Raise TypeError.
Proof. exact (lbfgs_no_self obj solver pstart nep b args ps cb s). Qed.
Print Assumptions C63_lbfgs_fails_partial.
Example C63_needy : wants_self selfish.
Proof. exact selfish_wants. Qed.
(** ... while all its other calls ... *)
Theorem C63_lbfgs_partial {A} (obj : objective A) solver pstart nep b args ps cb s s' x ofs : lbfgs obj solver pstart nep b args ps cb s = (s', Ok (x, ofs)) ->
  List.length ofs = S (mi_iter s') /\ exists c0 cs, mi_calls s' = mi_calls s ++ c0 :: cs /\ ca_x c0 = read (mi_heap s) pstart /\ ca_args c0 = map AUser args /\ Forall (fun c => ca_args c = with_self ps args) cs.
Proof. exact (lbfgs_calls obj solver pstart nep b args ps cb s s' x ofs). Qed.
Print Assumptions C63_lbfgs_partial.
(** ... and all calls of adam pass it. *)
Theorem C63_adam_partial {A} (obj : objective A) pstart nep b step b1 b2 args cb s s' r ofs : (pstart < List.length (mi_heap s))%nat ->
  adam obj pstart nep b step b1 b2 args true cb s = (s', Ok (r, ofs)) -> exists cs, mi_calls s' = mi_calls s ++ cs /\ List.length cs = nep /\ Forall (fun c => ca_args c = map AUser args ++ [ASelf]) cs.
Proof.
  intros Hp H. destruct (adam_history obj pstart nep b step b1 b2 args true cb s s' r ofs Hp H) as (_ & _ & cs & H1 & _ & H2 & _).
  destruct (adam_path obj pstart nep b step b1 b2 args true cb s s' r ofs Hp H) as (cs' & _ & H1' & H3 & _). rewrite H1 in H1'. apply app_inv_head in H1'. subst cs'. exists cs. auto.
Qed.
Print Assumptions C63_adam_partial.

(** C95.  Whatever the gradients were, a step is bounded ... *)
Theorem C95_bounded eps b1 b2 g t : 0 < eps -> 0 <= b1 < 1 -> 0 < b2 < 1 -> b1 ^ 2 < b2 -> (0 < t)%nat ->
  direction eps b1 b2 g t ^ 2 <= (1 - b1) ^ 2 * (1 - b2 ^ t) / ((1 - b1 ^ t) ^ 2 * (1 - b2) * (1 - b1 ^ 2 / b2)).
Proof. exact (direction_bound eps b1 b2 g t). Qed.
Print Assumptions C95_bounded.
Example C95_default : (9 / 10) ^ 2 < 999 / 1000.
Proof. lra. Qed.
(** ... but not by step_size: with the default betas it can be more than twice that. *)
Theorem C95_exceeds : exists g t, (0 < t)%nat /\ 2 < direction (1 / 10 ^ 8) (9 / 10) (999 / 1000) g t.
Proof. exact spike_large. Qed.
Print Assumptions C95_exceeds.

(** C96.  of_list of lbfgs: values at the start and at the points scipy reported, the
    last of which is self.params. *)
Theorem C96_history {A} (obj : objective A) f solver pstart nep b args ps cb s s' x ofs : (forall h c o, obj (h ++ [c]) = Ok o -> fst o = f (ca_x c)) -> (forall x bs n, honest None (solver x bs n)) ->
  lbfgs obj solver pstart nep b args ps cb s = (s', Ok (x, ofs)) -> exists xs, ofs = map f (read (mi_heap s) pstart :: xs) /\ cur s' = last (read (mi_heap s) pstart :: xs) [].
Proof. exact (lbfgs_values obj f solver pstart nep b args ps cb s s' x ofs). Qed.
Print Assumptions C96_history.
Example C96_case : (forall x bs n, honest None (lazy_solver x bs n)) /\ exists s' x ofs, lbfgs bowl lazy_solver 0 5 PNone [] true None (fresh_opt [[1]]) = (s', Ok (x, ofs)).
Proof. split; [exact lazy_honest|]. destruct lbfgs_first as (s' & x & ofs & c & H & _). exact (ex_intro _ s' (ex_intro _ x (ex_intro _ ofs H))). Qed.

(** C97.  _parse_bounds gives one pair for each parameter or ValueError ... *)
Theorem C97_pairs_partial n b : match parse_bounds n b with
  | Ok None => b = PNone
  | Ok (Some bs) => List.length bs = n /\ forall x, In x bs -> exists u v, x = PTuple [u; v] \/ x = PList [u; v]
  | Raise e => e = ValueError
  end.
Proof.
  destruct (parse_bounds n b) as [[bs|]|e] eqn:E; [| |exact (parse_error n b e E)]; destruct (parse_sound n b _ E) as [[H1 H2]|(bs' & H1 & H2 & H3)]; try discriminate; [|exact H1].
  injection H1 as <-. exact (conj H2 H3).
Qed.
Print Assumptions C97_pairs_partial.
Theorem C97_documented_partial n b lbs ubs : documented n b lbs ubs -> exists bs, parse_bounds n b = Ok (Some bs) /\ truthy b = true /\ limits bs 0 = Ok lbs /\ limits bs 1 = Ok ubs /\
  List.length lbs = n /\ List.length ubs = n.
Proof. exact (parse_documented n b lbs ubs). Qed.
Print Assumptions C97_documented_partial.
(** ... but takes two lists of two numbers for the one pair of limits, which fails later
    on. *)
Theorem C97_refused_refuted : exists b bs, parse_bounds 2 b = Ok (Some bs) /\ (forall lbs ubs, ~ documented 2 b lbs ubs) /\ exists e, snd (adam bowl 0 3 b (1 / 100) (9 / 10) (999 / 1000) [] false None (fresh_opt [[5; 6]])) = Raise e.
Proof. exact lists_accepted. Qed.
Print Assumptions C97_refused_refuted.
