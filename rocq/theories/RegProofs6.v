(** The nodes of the tables that the mode search builds decay (C147). *)
From Coq Require Import Lra Lia List String.
From Verif Require Import Py CBase SlabModel SlabSpec SlabProofs SlabProofs10 MatElModel MatElSpec RunModel RunSpec2 RunProofs11 SlabProofs9 OrthProofs2 RegSpec RegProofs5.
Open Scope R_scope.
Open Scope list_scope.

(** every row of guided_modes is a search at its node or the previous row *)
Lemma loop_calls root pol eps ds n step tol gs : forall st rs, guided_loop root pol eps ds n step tol st gs = Ok rs ->
  forall i, (i < List.length gs)%nat -> (exists lb ub, guided_mode_given_g root pol (Rmax (nth i gs 0) (/ 10 ^ 4)) eps ds n lb ub step tol = Ok (nth i rs ([], []))) \/
    (exists j, i = S j /\ nth i rs ([], []) = nth j rs ([], [])) \/ (i = 0%nat /\ st <> None).
Proof.
  induction gs as [|g t IH]; intros st rs H i Hi; cbn [List.length] in Hi; [lia|]. cbn [guided_loop] in H.
  destruct (guided_step root pol eps ds n step tol st g) as [r|] eqn:E; [cbn [bind] in H|discriminate H].
  destruct (guided_loop _ _ _ _ _ _ _ (Some (g, r)) t) as [rs'|] eqn:E'; [cbn [bind] in H|discriminate H].
  apply (f_equal (fun x => match x with Ok a => a | _ => [] end)) in H. subst rs. destruct i as [|i].
  - destruct st as [x|]; [right; right; split; [reflexivity|discriminate]|]. left. unfold guided_step in E. destruct (rmaxl _) as [m|]; [cbn [bind] in E|discriminate E].
    cbn [nth]. eexists; eexists; exact E.
  - cbn [nth]. destruct (IH _ _ E' i ltac:(lia)) as [A|[(j & -> & A)|[-> _]]]; [left; exact A|right; left; exists (S j); auto|].
    destruct t as [|g' t]; [cbn in Hi; lia|]. cbn [guided_loop] in E'. destruct (guided_step _ _ _ _ _ _ _ _ g') as [r'|] eqn:Es; [cbn [bind] in E'|discriminate E'].
    destruct (guided_loop _ _ _ _ _ _ _ (Some (g', r')) t) as [rs''|] eqn:E''; [cbn [bind] in E'|discriminate E']. 
    apply (f_equal (fun x => match x with Ok a => a | _ => [] end)) in E'. subst rs'. cbn [nth].
    unfold guided_step in Es. destruct (rmaxl _) as [m|]; [cbn [bind] in Es|discriminate Es]. destruct r as [om co].
    destruct (if Nat.eqb (List.length om) n then _ else _) as [ub|]; [cbn [bind] in Es|discriminate Es].
    destruct (Rltb _ _); [left; eexists; eexists; exact Es|]. right. left. exists 0%nat. split; [reflexivity|]. cbn [nth].
    apply (f_equal (fun x => match x with Ok a => a | _ => ([], []) end)) in Es. symmetry. exact Es.
Qed.

Lemma mth_nth {A} (d : A) l : forall m, (m < List.length l)%nat -> mth m l = [nth m l d].
Proof. unfold mth. induction l as [|x l IH]; intros m Hm; cbn [List.length] in Hm; [lia|]. destruct m as [|m]; [reflexivity|]. cbn [skipn nth]. apply IH. lia. Qed.

Section Found.
Variable root : (R -> R) -> R -> R -> R.
Variable te : bool.
Variables e0 el : R.
Variables ei ds : list R.
Variable n : nat.
Variables step tol : R.
Let pol := (if te then "TE" else "TM")%string.
Let eps := e0 :: ei ++ [el].
Hypothesis Hroot : forall g, finds_roots root (D22real pol g eps ds).
Hypothesis Hl : List.length ds = List.length ei.
Hypothesis Hne : ei <> [].
Hypothesis HP : Forall (fun e => 0 < e) eps.
Hypothesis Hs : 0 < step.
Hypothesis Ht : 0 < tol < 1.
Hypothesis Hn : (0 < n)%nat.
(** no guided frequency on the light line of a layer (for one layer there is none) *)
Hypothesis Off : off_lines pol e0 el ei ds.

Definition row_good (g : R) (r : list R * list (list (C * C))) : Prop :=
  List.length (snd r) = List.length (fst r) /\
  forall w co, In (w, co) (combine (fst r) (snd r)) -> 0 < w /\ e0 * (w * w) < g * g /\ el * (w * w) < g * g /\
    fst (nth 0 co (RtoC 0, RtoC 0)) = RtoC 0 /\ snd (nth (List.length eps - 1) co (RtoC 0, RtoC 0)) = RtoC 0.

Lemma given_good g lb ub r : guided_mode_given_g root pol g eps ds n lb ub step tol = Ok r ->
  (forall w, In w (fst r) -> D22real pol g eps ds w = 0 /\ 0 < w /\ (exists e, In e ei /\ g * g < e * (w * w)) /\ e0 * (w * w) < g * g /\ el * (w * w) < g * g) -> row_good g r.
Proof.
  intros E W. split; [eapply given_g_paired; exact E|]. intros w co Hin. destruct (W w (in_combine_l _ _ _ _ Hin)) as (Dw & W0 & (e & Ie & We) & W1 & W2).
  assert (S1 : List.length ei = 1%nat -> List.Forall (fun e => g * g < e * (w * w)) ei).
  { intros L1. destruct ei as [|x [|? ?]]; try discriminate L1. destruct Ie as [<-|[]]. constructor; [exact We|constructor]. }
  assert (Cn : List.Forall (fun e => chi w g e <> RtoC 0) ei).
  { apply Forall_forall. intros x Hx Z. assert (X : (chi w g x * chi w g x)%C = RtoC (x * (w * w) - g * g)) by apply chi_sq. rewrite Z in X. apply (f_equal fst) in X. cbn in X.
    destruct Off as [L1|Of].
    - specialize (S1 L1). rewrite Forall_forall in S1. specialize (S1 x Hx). lra.
    - apply (Of g w x Dw Hx W0). lra. }
  destruct r as [oms cs]. cbn [fst snd] in Hin.
  destruct (returned_raw root te g e0 el ei ds n lb ub step tol oms cs w co (Hroot g) Hl Hne HP E Hs Hin W0 W1 W2 S1 Cn) as (N & mid & A & -> & Lm & _).
  split; [exact W0|]. split; [exact W1|]. split; [exact W2|]. cbn [map nth]. split.
  - unfold SlabProofs9.divs. cbn [fst]. unfold Cdiv. apply Cmult_0_l.
  - unfold eps. cbn [List.length]. rewrite app_length. cbn [List.length]. replace (S (List.length ei + 1) - 1)%nat with (S (List.length ei)) by lia. cbn [nth].
    rewrite map_app, app_nth2; rewrite map_length, Lm; [|lia]. rewrite Nat.sub_diag. cbn [map nth]. unfold SlabProofs9.divs. cbn [snd]. unfold Cdiv. apply Cmult_0_l.
Qed.

Lemma rows_good gs rs : guided_modes root pol gs eps ds n step tol = Ok rs -> List.length rs = List.length gs /\
  forall i, (i < List.length gs)%nat -> exists i', (i' <= i)%nat /\ row_good (Rmax (nth i' gs 0) (/ 10 ^ 4)) (nth i rs ([], [])).
Proof.
  intros E. destruct (guided_all root te e0 el ei ds n step tol Hroot Hl Hne HP Hs Ht Hn gs) as (rs' & E' & L & H).
  fold pol eps in E'. rewrite E in E'. injection E' as <-. split; [exact L|].
  induction i as [i IH] using lt_wf_ind. intros Hi.
  assert (Cp : forall j, i = S j -> nth i rs ([], []) = nth j rs ([], []) -> exists i', (i' <= i)%nat /\ row_good (Rmax (nth i' gs 0) (/ 10 ^ 4)) (nth i rs ([], []))).
  { intros j -> Q. destruct (IH j ltac:(lia) ltac:(lia)) as (i' & A & B). exists i'. split; [lia|]. rewrite Q. exact B. }
  destruct (H i Hi) as [(_ & m & ub & _ & _ & _ & Sp & W & _)|(j & Q & _ & R)]; [|apply (Cp j Q R)].
  destruct (loop_calls root pol eps ds n step tol gs None rs E i Hi) as [(lb & ub' & G)|[(j & Q & R)|[_ X]]]; [|apply (Cp j Q R)|congruence].
  exists i. split; [lia|]. eapply given_good; [exact G|]. intros w Hw. split; [apply Sp; exact Hw|apply W; exact Hw].
Qed.

(** an entry of row m of a table comes from a node not after the one it is used at *)
Lemma concat_origin (rs : list (list R * list (list (C * C)))) m : paired rs ->
  let oms := List.concat (map (fun r => mth m (fst r)) rs) in let cs := List.concat (map (fun r => mth m (snd r)) rs) in
  (List.length oms <= List.length rs)%nat /\
  forall j, (j < List.length oms)%nat -> exists i, (i < List.length rs)%nat /\ (i <= List.length rs - List.length oms + j)%nat /\
    In (nth j oms 0, nth j cs []) (combine (fst (nth i rs ([], []))) (snd (nth i rs ([], [])))).
Proof.
  induction rs as [|r rs IH]; intros P; cbn [map List.concat]; cbv zeta; [split; [cbn; lia|cbn; intros; lia]|].
  destruct (IH (fun x Hx => P x (or_intror Hx))) as [L Q]. clear IH.
  set (oms := List.concat (map (fun r => mth m (fst r)) rs)) in *. set (cs := List.concat (map (fun r => mth m (snd r)) rs)) in *.
  specialize (P r (or_introl eq_refl)). destruct (Nat.lt_ge_cases m (List.length (fst r))) as [Hm|Hm].
  - assert (M : forall A (d : A) l, (m < List.length l)%nat -> mth m l = [nth m l d]).
    { intros A d l Hl'. apply (mth_nth d). exact Hl'. }
    rewrite (M R 0 (fst r)) by exact Hm. rewrite (M _ [] (snd r)) by lia. cbn [app List.length]. split; [lia|]. intros [|j] Hj.
    + exists 0%nat. split; [lia|]. split; [lia|]. cbn [nth]. rewrite <- combine_nth by lia. apply nth_In. rewrite combine_length. lia.
    + destruct (Q j ltac:(lia)) as (i & A & B & Cc). exists (S i). split; [lia|]. split; [lia|]. cbn [nth]. exact Cc.
  - assert (M : forall A (l : list A), (List.length l <= m)%nat -> mth m l = []) by (intros A l Hl'; unfold mth; rewrite skipn_all2 by exact Hl'; reflexivity).
    rewrite (M R) by exact Hm. rewrite (M _ (snd r)) by lia. cbn [app List.length]. split; [lia|]. intros j Hj.
    destruct (Q j Hj) as (i & A & B & Cc). exists (S i). split; [lia|]. split; [lia|]. cbn [nth]. exact Cc.
Qed.

Lemma found_entry garr rs tab m oms cs : guided_modes root pol garr eps ds n step tol = Ok rs -> MatElSpec.ascending garr -> tabulates rs tab -> nth_error tab m = Some (oms, cs) ->
  / 10 ^ 4 <= nth (List.length garr - List.length oms) garr 0 -> nodes_decay eps garr oms cs.
Proof.
  intros E HA HT En G0. destruct (rows_good garr rs E) as [L H]. destruct (guided_paired root pol eps ds n step tol garr None rs Logic.I E) as [_ P].
  specialize (HT m). rewrite En in HT. destruct HT as ((r & Hr & Hm) & EO & Lc & CO). destruct (concat_origin rs m P) as [L1 Q]. rewrite <- EO in L1, Q. rewrite L in L1, Q.
  assert (Lp : (0 < List.length oms)%nat).
  { rewrite EO. clear -Hr Hm. induction rs as [|x rs IH]; [destruct Hr|]. cbn [map List.concat]. rewrite app_length. destruct Hr as [->|Hr]; [|specialize (IH Hr); lia].
    unfold mth. rewrite firstn_length, skipn_length. lia. }
  split; [exact Lc|]. split; [lia|]. intros j Hj. cbv zeta. destruct (Q j Hj) as (i & I1 & I2 & Hin). destruct (H i I1) as (i' & I3 & _ & W).
  destruct (W _ _ Hin) as (W0 & W1 & W2 & W3 & W4). set (G := nth (List.length garr - List.length oms + j) garr 0).
  assert (A1 : nth i' garr 0 <= G) by (apply HA; lia). assert (A2 : nth (List.length garr - List.length oms) garr 0 <= G) by (apply HA; lia).
  assert (T4 : 0 < / 10 ^ 4) by (apply Rinv_0_lt_compat, pow_lt; lra). assert (A3 : Rmax (nth i' garr 0) (/ 10 ^ 4) <= G) by (apply Rmax_lub; lra).
  assert (A4 := Rmax_r (nth i' garr 0) (/ 10 ^ 4)). set (g' := Rmax _ _) in *. assert (A5 : g' * g' <= G * G) by nra.
  assert (NL : nth (List.length eps - 1) eps 0 = el).
  { unfold eps. cbn [List.length]. rewrite app_length. cbn [List.length]. replace (S (List.length ei + 1) - 1)%nat with (S (List.length ei)) by lia. cbn [nth]. rewrite app_nth2, Nat.sub_diag by lia. reflexivity. }
  split; [lra|]. split; [lra|]. split; [unfold eps; cbn [nth]; lra|]. split; [rewrite NL; lra|]. rewrite !CO by lia. split; assumption.
Qed.
End Found.
