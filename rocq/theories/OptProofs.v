(** Proofs about the run options. *)
From Verif Require Import Py OptModel OptSpec.
Open Scope string_scope.
Open Scope list_scope.
Open Scope R_scope.

Lemma lookup_dget d n : lookup d n = dget d n.
Proof.
  unfold lookup. induction d as [|[k v] d IH]; [reflexivity|]. cbn [find dget fst]. rewrite String.eqb_sym. destruct (String.eqb n k); [reflexivity|exact IH].
Qed.
Lemma dget_dset d k v n : dget (dset d k v) n = if String.eqb n k then Some v else dget d n.
Proof.
  induction d as [|[k' v'] d IH]; cbn [dset dget]; [reflexivity|]. destruct (String.eqb_spec k k') as [<-|Hk]; cbn [dget].
  - now destruct (String.eqb n k).
  - rewrite IH. destruct (String.eqb_spec n k') as [->|]; [|reflexivity]. destruct (String.eqb_spec k' k); [congruence|reflexivity].
Qed.
Lemma dget_set_all l : forall o n, NoDup (map fst l) -> dget (set_all o l) n = match dget l n with Some v => Some v | None => dget o n end.
Proof.
  unfold set_all. induction l as [|[k v] l IH]; intros o n N; [reflexivity|]. cbn [map fst] in N. inversion N as [|? ? Hn N']; subst.
  cbn [fold_left fst snd dget]. rewrite IH by exact N'. rewrite dget_dset. destruct (String.eqb_spec n k) as [->|]; [|reflexivity].
  destruct (dget l k) eqn:E; [|reflexivity]. exfalso. apply Hn. clear - E. induction l as [|[a b] l IH]; [discriminate|]. cbn [dget map fst] in *. destruct (String.eqb_spec k a); [now left|right; auto].
Qed.
Lemma dget_map (f : string -> pval -> pval) l n : dget (map (fun p => (fst p, f (fst p) (snd p))) l) n = option_map (f n) (dget l n).
Proof. induction l as [|[k v] l IH]; [reflexivity|]. cbn [map fst snd dget]. destruct (String.eqb_spec n k) as [->|]; [reflexivity|exact IH]. Qed.
Lemma dget_without names d n : ~ In n names -> dget (without names d) n = dget d n.
Proof.
  intros H. unfold without. induction d as [|[k v] d IH]; [reflexivity|]. cbn [filter fst dget]. destruct (String.eqb_spec n k) as [<-|Hk].
  - replace (existsb (String.eqb n) names) with false; [cbn [negb dget]; now rewrite String.eqb_refl|].
    symmetry. apply not_true_is_false. intros E. apply existsb_exists in E. destruct E as (x & Hx & Ex). apply String.eqb_eq in Ex. now subst.
  - destruct (negb _); [cbn [dget]; destruct (String.eqb_spec n k); [congruence|exact IH]|exact IH].
Qed.
Lemma dget_without_in names d n : In n names -> dget (without names d) n = None.
Proof.
  intros H. unfold without. induction d as [|[k v] d IH]; [reflexivity|]. cbn [filter fst]. destruct (existsb (String.eqb k) names) eqn:E; cbn [negb]; [exact IH|].
  cbn [dget]. destruct (String.eqb_spec n k) as [<-|]; [|exact IH]. exfalso. apply Bool.diff_false_true. rewrite <- E. apply existsb_exists. exists n. split; [exact H|apply String.eqb_refl].
Qed.
Lemma dget_in d n v : dget d n = Some v -> In (n, v) d.
Proof. induction d as [|[k w] d IH]; [discriminate|]. cbn [dget]. destruct (String.eqb_spec n k) as [->|]; intros H; [injection H as ->; now left|right; auto]. Qed.
Lemma in_dget d n v : In (n, v) d -> dget d n <> None.
Proof. induction d as [|[k w] d IH]; [contradiction|]. cbn [dget]. intros [E|H]; [injection E as -> ->; now rewrite String.eqb_refl|]. destruct (String.eqb n k); [discriminate|auto]. Qed.
Lemma dget_none d n : dget d n = None <-> ~ In n (map fst d).
Proof.
  split.
  - intros E H. apply in_map_iff in H. destruct H as ([k v] & <- & H). now apply in_dget in H.
  - intros H. destruct (dget d n) as [v|] eqn:E; [|reflexivity]. apply dget_in in E. exfalso. apply H. change n with (fst (n, v)). now apply in_map.
Qed.

(** the call with keywords *)
Lemma bind_ok sig kw : only kw (map fst sig) -> exists o, bind_kw sig kw = Ok o /\ map fst o = map fst sig /\
  forall n, dget o n = match dget sig n with None => None | Some d => Some (match dget kw n with Some v => v | None => d end) end.
Proof.
  intros H. unfold bind_kw. replace (forallb _ kw) with true.
  - eexists. split; [reflexivity|]. split; [rewrite map_map; now apply map_ext|]. intros n.
    rewrite (dget_map (fun n d => match dget kw n with Some v => v | None => d end)). now destruct (dget sig n).
  - symmetry. apply forallb_forall. intros [n v] Hin. cbn [fst]. destruct (dget sig n) eqn:E; [reflexivity|]. exfalso. apply dget_none in E. apply E, H. rewrite lookup_dget. now apply in_dget in Hin.
Qed.
Lemma bind_bad sig kw : ~ only kw (map fst sig) -> bind_kw sig kw = Raise TypeError.
Proof.
  intros H. unfold bind_kw. destruct (forallb _ kw) eqn:E; [|reflexivity]. exfalso. apply H. intros n Hn. rewrite lookup_dget in Hn. destruct (dget kw n) as [v|] eqn:Ev; [|contradiction].
  apply dget_in in Ev. rewrite forallb_forall in E. specialize (E _ Ev). cbn [fst] in E. destruct (dget sig n) eqn:Es; [|discriminate]. apply dget_in in Es. change n with (fst (n, p)). now apply in_map.
Qed.
Lemma only_without names base kw : (only kw (names ++ base) <-> only (without names kw) base) \/ exists n, In n names /\ In n base.
Proof.
  destruct (existsb (fun n => existsb (String.eqb n) base) names) eqn:E.
  - right. apply existsb_exists in E. destruct E as (n & H1 & H2). apply existsb_exists in H2. destruct H2 as (m & H2 & H3). apply String.eqb_eq in H3. subst. eauto.
  - left. split; intros H n Hn; rewrite lookup_dget in Hn.
    + destruct (in_dec string_dec n names) as [Hi|Hi]; [now rewrite dget_without_in in Hn|]. rewrite dget_without in Hn by exact Hi.
      assert (K : In n (names ++ base)) by (apply H; now rewrite lookup_dget). apply in_app_iff in K. tauto.
    + destruct (in_dec string_dec n names) as [Hi|Hi]; apply in_app_iff; [now left|right]. apply H. now rewrite lookup_dget, dget_without.
Qed.

(** the documented defaults are those of the signatures *)
Lemma doc_gme n : lookup documented n = dget gme_sig n.
Proof.
  rewrite lookup_dget. unfold documented, gme_sig. cbn [dget].
  repeat match goal with |- context [String.eqb n ?s] => destruct (String.eqb_spec n s) as [->|] end; try reflexivity.
Qed.
Lemma doc_exc n : lookup documented_ex n = dget exc_sig n.
Proof.
  rewrite lookup_dget. unfold documented_ex, exc_sig. cbn [dget].
  repeat match goal with |- context [String.eqb n ?s] => destruct (String.eqb_spec n s) as [->|] end; try reflexivity.
Qed.
Lemma doc_names n : In n (map fst documented) <-> In n (map fst gme_sig).
Proof. cbn [map fst documented gme_sig In]. tauto. Qed.
Lemma doc_names_ex n : In n (map fst documented_ex) <-> In n (map fst exc_sig).
Proof. cbn [map fst documented_ex exc_sig In]. tauto. Qed.
Lemma sig_nodup : NoDup (map fst gme_sig).
Proof. cbn [map fst gme_sig]. repeat (constructor; [cbn [In]; intuition discriminate|]). constructor. Qed.


Lemma only_ext (d : list (string * pval)) l l' : (forall n, In n l <-> In n l') -> only d l -> only d l'.
Proof. intros H O n Hn. apply H, O, Hn. Qed.

Lemma gme_run_ok gbody o kw ks G : dget kw "kpoints" = Some (PKpts ks) -> (forall n, n <> "kpoints" -> dget kw n = lookup G n) -> only G gme_names ->
  gme_configured G ks (fst (gme_run gbody o kw)) /\ snd (gme_run gbody o kw) = gbody (fst (gme_run gbody o kw)) /\
  (forall n, ~ In n ("_kpoints" :: "angles" :: map fst documented) -> dget (fst (gme_run gbody o kw)) n = dget o n).
Proof.
  intros Hk HG HO. unfold gme_run, gme_set.
  destruct (bind_ok gme_sig (without ["kpoints"; "angles"] kw)) as (opts & E & Hf & Hv).
  { intros n Hn. rewrite lookup_dget in Hn. destruct (in_dec string_dec n ["kpoints"; "angles"]) as [Hi|Hi]; [now rewrite dget_without_in in Hn|]. rewrite dget_without in Hn by exact Hi.
    rewrite HG in Hn by (intros ->; apply Hi; now left). apply HO in Hn. apply doc_names. destruct Hn as [<-|[<-|Hn]]; [exfalso; apply Hi; now left|exfalso; apply Hi; right; now left|exact Hn]. }
  rewrite E. cbn [bind]. set (o1 := set_all o _).
  assert (N : forall n, dget o1 n = match held n (match dget gme_sig n with None => None | Some d => Some (match dget (without ["kpoints"; "angles"] kw) n with Some v => v | None => d end) end) with Some v => Some v | None => dget o n end).
  { intros n. unfold o1. rewrite dget_set_all by (rewrite map_map; cbn [fst]; change (NoDup (map fst opts)); rewrite Hf; exact sig_nodup).
    rewrite (dget_map (fun n v => if String.eqb (lower n) "gmode_inds" then PArray v else v)), Hv. unfold held.
    destruct (dget gme_sig n) as [d|] eqn:Ed; [|destruct (String.eqb n "gmode_inds"); reflexivity]. cbn [option_map].
    apply dget_in, (in_map fst) in Ed. cbn [fst map gme_sig In] in Ed.
    repeat (destruct Ed as [<-|Ed]; [reflexivity|]). contradiction. }
  rewrite Hk. cbn [fst snd]. split; [|split; [reflexivity|]].
  - split; [|split].
    + rewrite lookup_dget, !dget_dset. reflexivity.
    + rewrite lookup_dget, dget_dset. cbn [String.eqb Ascii.eqb Bool.eqb]. f_equal. rewrite HG by discriminate. reflexivity.
    + intros n Hn. rewrite lookup_dget, !dget_dset. assert (Hn' := Hn). apply doc_names in Hn'.
      assert (A1 : n <> "angles") by (intros ->; cbn in Hn'; intuition discriminate). assert (A2 : n <> "_kpoints") by (intros ->; cbn in Hn'; intuition discriminate). assert (A3 : n <> "kpoints") by (intros ->; cbn in Hn'; intuition discriminate).
      destruct (String.eqb_spec n "angles"); [contradiction|]. destruct (String.eqb_spec n "_kpoints"); [contradiction|].
      rewrite N. rewrite dget_without by (intros [H|[H|[]]]; congruence). rewrite HG by exact A3. unfold in_force. rewrite doc_gme.
      destruct (dget gme_sig n) as [d|] eqn:Ed; [|exfalso; now apply dget_none in Ed]. destruct (lookup G n); unfold held; destruct (String.eqb n "gmode_inds"); reflexivity.
  - intros n Hn. rewrite !dget_dset. destruct (String.eqb_spec n "angles") as [->|]; [exfalso; apply Hn; right; now left|]. destruct (String.eqb_spec n "_kpoints") as [->|]; [exfalso; apply Hn; now left|].
    rewrite N. replace (dget gme_sig n) with (@None pval); [unfold held; destruct (String.eqb n "gmode_inds"); reflexivity|]. symmetry. apply dget_none. intros H. apply Hn. right. right. now apply doc_names.
Qed.
Lemma gme_run_bad gbody o kw G : (forall n, n <> "kpoints" -> dget kw n = lookup G n) -> ~ only G gme_names -> gme_run gbody o kw = (o, Raise TypeError).
Proof.
  intros HG HO. unfold gme_run, gme_set. rewrite bind_bad; [reflexivity|]. intros H. apply HO. intros n Hn.
  destruct (in_dec string_dec n ["kpoints"; "angles"]) as [[<-|[<-|[]]]|Hi]; [now left|right; now left|]. right. right. apply doc_names. apply H.
  rewrite lookup_dget, dget_without by exact Hi. rewrite HG by (intros ->; apply Hi; now left). exact Hn.
Qed.
Lemma exc_run_ok ebody o kw ks E : dget kw "kpoints" = Some (PKpts ks) -> (forall n, n <> "kpoints" -> dget kw n = lookup E n) -> only E exc_names ->
  exc_configured E ks (fst (exc_run ebody o kw)) /\ snd (exc_run ebody o kw) = ebody (fst (exc_run ebody o kw)).
Proof.
  intros Hk HG HO. unfold exc_run, exc_set.
  destruct (bind_ok exc_sig (without ["kpoints"] kw)) as (opts & B & Hf & Hv).
  { intros n Hn. rewrite lookup_dget in Hn. destruct (in_dec string_dec n ["kpoints"]) as [Hi|Hi]; [now rewrite dget_without_in in Hn|]. rewrite dget_without in Hn by exact Hi.
    rewrite HG in Hn by (intros ->; apply Hi; now left). apply HO in Hn. apply doc_names_ex. destruct Hn as [<-|Hn]; [exfalso; apply Hi; now left|exact Hn]. }
  rewrite B. cbn [bind]. rewrite Hk. cbn [fst snd]. split; [|reflexivity]. split.
  - rewrite lookup_dget, !dget_dset. reflexivity.
  - intros n Hn. rewrite lookup_dget, dget_dset. apply doc_names_ex in Hn. assert (A2 : n <> "_kpoints") by (intros ->; cbn in Hn; intuition discriminate). assert (A3 : n <> "kpoints") by (intros ->; cbn in Hn; intuition discriminate).
    destruct (String.eqb_spec n "_kpoints"); [contradiction|]. rewrite dget_set_all by (rewrite Hf; cbn; repeat constructor; cbn; intuition discriminate).
    rewrite Hv, dget_without by (intros [H|[]]; congruence). rewrite HG by exact A3. unfold in_force. rewrite doc_exc.
    destruct (dget exc_sig n) as [d|] eqn:Ed; [destruct (lookup E n); reflexivity|exfalso; now apply dget_none in Ed].
Qed.
Lemma exc_run_bad ebody o kw E : (forall n, n <> "kpoints" -> dget kw n = lookup E n) -> ~ only E exc_names -> exc_run ebody o kw = (o, Raise TypeError).
Proof.
  intros HG HO. unfold exc_run, exc_set. rewrite bind_bad; [reflexivity|]. intros H. apply HO. intros n Hn.
  destruct (in_dec string_dec n ["kpoints"]) as [[<-|[]]|Hi]; [now left|]. right. apply doc_names_ex. apply H.
  rewrite lookup_dget, dget_without by exact Hi. rewrite HG by (intros ->; apply Hi; now left). exact Hn.
Qed.
Lemma exc_runs_ok ebody os kw ks E : dget kw "kpoints" = Some (PKpts ks) -> (forall n, n <> "kpoints" -> dget kw n = lookup E n) -> only E exc_names ->
  (forall o, exc_configured E ks o -> ebody o = Ok tt) ->
  snd (exc_runs ebody os kw) = Ok tt /\ List.length (fst (exc_runs ebody os kw)) = List.length os /\ Forall (exc_configured E ks) (fst (exc_runs ebody os kw)).
Proof.
  intros Hk HE HO Hb. induction os as [|o os IH]; [cbn; auto|]. cbn [exc_runs]. destruct (exc_run_ok ebody o kw ks E Hk HE HO) as [C R]. destruct (exc_run ebody o kw) as [o' r]. cbn [fst snd] in *.
  rewrite (Hb _ C) in R. subst r. destruct (exc_runs ebody os kw) as [t r]. cbn [fst snd] in *. destruct IH as (I1 & I2 & I3). subst r. cbn [fst snd List.length]. split; [reflexivity|]. split; [now rewrite I2|now constructor].
Qed.
Lemma exc_runs_bad ebody os kw E : (forall n, n <> "kpoints" -> dget kw n = lookup E n) -> ~ only E exc_names -> os <> [] -> exc_runs ebody os kw = (os, Raise TypeError).
Proof. intros HE HO Hn. destruct os as [|o os]; [contradiction|]. cbn [exc_runs]. now rewrite (exc_run_bad ebody o kw E HE HO). Qed.

(** ** the heap *)
Lemma put_len h : forall r d, List.length (put h r d) = List.length h.
Proof. induction h as [|x h IH]; intros [|r] d; cbn; auto. Qed.
Lemma cell_put h : forall r d s, (r < List.length h)%nat -> cell (put h r d) s = if Nat.eqb s r then d else cell h s.
Proof.
  unfold cell. induction h as [|x h IH]; intros [|r] d [|s] H; cbn [List.length] in H; try lia; cbn; auto. apply IH. lia.
Qed.
(** the two default dictionaries hold nothing but k-points *)
Definition clean (h : list (list (string * pval))) : Prop := (2 <= List.length h)%nat /\ forall r n, (r < 2)%nat -> n <> "kpoints" -> dget (cell h r) n = None.
Lemma clean_put h r d : clean h -> (2 <= r \/ forall n, n <> "kpoints" -> dget d n = None)%nat -> clean (put h r d).
Proof.
  intros [L H] Hr. split; [now rewrite put_len|]. intros s n Hs Hn. destruct (le_lt_dec (List.length h) r) as [Hl|Hl].
  - replace (put h r d) with h; [now apply H|]. clear - Hl. revert r Hl. induction h as [|x h IH]; intros [|r] Hl; cbn in *; [reflexivity..|lia|]. f_equal. apply IH. lia.
  - rewrite cell_put by exact Hl. destruct (Nat.eqb_spec s r) as [->|]; [|now apply H]. destruct Hr; [lia|auto].
Qed.
Lemma clean_dset h r v : clean h -> (2 <= r \/ r < 2)%nat -> clean (put h r (dset (cell h r) "kpoints" v)).
Proof.
  intros C Hr. apply clean_put; [exact C|]. destruct Hr as [Hr|Hr]; [now left|right]. intros n Hn. rewrite dget_dset. destruct (String.eqb_spec n "kpoints"); [contradiction|]. now apply C.
Qed.
Definition ref_g (g : option nat) : nat := match g with Some r => r | None => 0%nat end.
Definition ref_e (e : option nat) : nat := match e with Some r => r | None => 1%nat end.
Definition heap2 (h : list (list (string * pval))) (g e : option nat) (ks : list (R * R)) : list (list (string * pval)) :=
  let h := put h (ref_g g) (dset (cell h (ref_g g)) "kpoints" (PKpts ks)) in put h (ref_e e) (dset (cell h (ref_e e)) "kpoints" (PKpts ks)).
Lemma heap2_cell h g e ks s : (ref_g g < List.length h)%nat -> (ref_e e < List.length h)%nat ->
  forall n, dget (cell (heap2 h g e ks) s) n = if ((Nat.eqb s (ref_g g) || Nat.eqb s (ref_e e)) && String.eqb n "kpoints")%bool then Some (PKpts ks) else dget (cell h s) n.
Proof.
  intros Hg He n. unfold heap2. rewrite cell_put by (now rewrite put_len). destruct (Nat.eqb_spec s (ref_e e)) as [->|Hs].
  - rewrite dget_dset. rewrite Bool.orb_true_r. cbn [andb]. destruct (String.eqb n "kpoints") eqn:En; [reflexivity|]. rewrite cell_put by exact Hg. destruct (Nat.eqb_spec (ref_e e) (ref_g g)) as [->|]; [|reflexivity]. rewrite dget_dset, En. reflexivity.
  - rewrite Bool.orb_false_r. rewrite cell_put by exact Hg. destruct (Nat.eqb_spec s (ref_g g)) as [->|]; [|reflexivity]. rewrite dget_dset. cbn [andb]. reflexivity.
Qed.
Lemma own_lt n g : own_opt n g -> (2 <= n)%nat -> (ref_g g < n)%nat /\ (ref_e g < n)%nat.
Proof. destruct g as [r|]; cbn; unfold own; lia. Qed.
Lemma pol_heap gbody ebody h o g e ks : fst (fst (pol_opts gbody ebody h o g e ks)) = heap2 h g e ks.
Proof.
  unfold pol_opts. fold (ref_g g) (ref_e e). change (put (put h (ref_g g) (dset (cell h (ref_g g)) "kpoints" (PKpts ks))) (ref_e e) _) with (heap2 h g e ks).
  destruct (gme_run _ _ _) as [og r]. destruct r; [|reflexivity]. destruct (exc_runs _ _ _). reflexivity.
Qed.
Lemma clean_heap2 h g e ks : clean h -> clean (heap2 h g e ks).
Proof. intros C. unfold heap2. apply clean_dset; [apply clean_dset; [exact C|lia]|lia]. Qed.
Lemma heap2_len h g e ks : List.length (heap2 h g e ks) = List.length h.
Proof. unfold heap2. now rewrite !put_len. Qed.

Lemma clean_steps gbody ebody l : forall w, clean (fst w) -> sound (List.length (fst w)) l -> clean (fst (fold_left (step gbody ebody) l w)).
Proof.
  induction l as [|a l IH]; intros [h os] C S; [exact C|]. cbn [fold_left]. cbn [fst] in *. destruct a as [d|r k v|i g e ks]; cbn [sound step] in *.
  - apply IH; cbn [fst]; [|rewrite app_length; cbn; now rewrite Nat.add_1_r]. destruct C as [L C]. split; [rewrite app_length; cbn; lia|]. intros r n Hr Hn. unfold cell. rewrite app_nth1 by lia. now apply C.
  - destruct S as [Ho S]. apply IH; cbn [fst]; [|now rewrite put_len]. apply clean_put; [exact C|left; apply Ho].
  - destruct S as (Hg & He & S). destruct (nth_error os i) as [o|]; [|now apply IH]. pose proof (pol_heap gbody ebody h o g e ks) as E. destruct (pol_opts gbody ebody h o g e ks) as [[h' o'] r]. cbn [fst] in E. subst h'.
    apply IH; cbn [fst]; [now apply clean_heap2|now rewrite heap2_len].
Qed.
Lemma clean_history gbody ebody gmax wells l : sound 2 l -> clean (fst (history gbody ebody gmax wells l)).
Proof.
  intros S. unfold history. apply clean_steps; [|exact S]. cbn. split; [cbn; lia|]. intros [|[|r]] n Hr Hn; [reflexivity..|lia].
Qed.

(** ** the call *)
Section Call.
Variables gbody ebody : list (string * pval) -> result unit.
Variables (h : list (list (string * pval))) (o : pobj) (g e : option nat) (ks : list (R * R)).
Hypothesis C : clean h.
Hypothesis Hg : own_opt (List.length h) g.
Hypothesis He : own_opt (List.length h) e.
Let G := passed h g.
Let E := passed h e.
Lemma kw_g : dget (cell (heap2 h g e ks) (ref_g g)) "kpoints" = Some (PKpts ks) /\ forall n, n <> "kpoints" -> dget (cell (heap2 h g e ks) (ref_g g)) n = lookup G n.
Proof.
  destruct C as [L Cl]. destruct (own_lt _ g Hg L) as [Lg _]. destruct (own_lt _ e He L) as [_ Le]. split.
  - rewrite heap2_cell by assumption. now rewrite Nat.eqb_refl.
  - intros n Hn. rewrite heap2_cell by assumption. destruct (String.eqb_spec n "kpoints"); [contradiction|]. rewrite Bool.andb_false_r. rewrite lookup_dget. unfold G, passed. destruct g as [r|]; [reflexivity|]. cbn [ref_g]. apply Cl; [lia|exact Hn].
Qed.
Lemma kw_e : dget (cell (heap2 h g e ks) (ref_e e)) "kpoints" = Some (PKpts ks) /\ forall n, n <> "kpoints" -> dget (cell (heap2 h g e ks) (ref_e e)) n = lookup E n.
Proof.
  destruct C as [L Cl]. destruct (own_lt _ g Hg L) as [Lg _]. destruct (own_lt _ e He L) as [_ Le]. split.
  - rewrite heap2_cell by assumption. now rewrite Nat.eqb_refl, Bool.orb_true_r.
  - intros n Hn. rewrite heap2_cell by assumption. destruct (String.eqb_spec n "kpoints"); [contradiction|]. rewrite Bool.andb_false_r. rewrite lookup_dget. unfold E, passed. destruct e as [r|]; [reflexivity|]. cbn [ref_e]. apply Cl; [lia|exact Hn].
Qed.
Lemma pol_form : pol_opts gbody ebody h o g e ks =
  let h' := heap2 h g e ks in
  let (og, r) := gme_run gbody (p_gme o) (cell h' (ref_g g)) in
  match r with
  | Raise x => (h', PObj (Some (PKpts ks)) og (p_exc o), Raise x)
  | Ok _ => let (oe, r) := exc_runs ebody (p_exc o) (cell h' (ref_e e)) in (h', PObj (Some (PKpts ks)) og oe, r)
  end.
Proof. reflexivity. Qed.
Lemma call_bad_gme : ~ only G gme_names -> exists h', pol_opts gbody ebody h o g e ks = (h', PObj (Some (PKpts ks)) (p_gme o) (p_exc o), Raise TypeError).
Proof. intros H. rewrite pol_form. cbn zeta. rewrite (gme_run_bad gbody (p_gme o) _ G (proj2 kw_g) H). eauto. Qed.
Lemma call_gme : only G gme_names -> exists h' o' r, pol_opts gbody ebody h o g e ks = (h', o', r) /\ p_kpts o' = Some (PKpts ks) /\ gme_configured G ks (p_gme o') /\
  (forall n, ~ In n ("_kpoints" :: "angles" :: map fst documented) -> lookup (p_gme o') n = lookup (p_gme o) n) /\
  (forall x, gbody (p_gme o') = Raise x -> r = Raise x /\ p_exc o' = p_exc o) /\
  (gbody (p_gme o') = Ok tt -> (~ only E exc_names -> p_exc o <> [] -> r = Raise TypeError /\ p_exc o' = p_exc o) /\
     (only E exc_names -> (forall oe, exc_configured E ks oe -> ebody oe = Ok tt) -> r = Ok tt /\ List.length (p_exc o') = List.length (p_exc o) /\ Forall (exc_configured E ks) (p_exc o'))).
Proof.
  intros H. rewrite pol_form. cbn zeta. destruct kw_g as [K1 K2]. destruct kw_e as [K3 K4]. destruct (gme_run_ok gbody (p_gme o) _ ks G K1 K2 H) as (Cf & Rs & Ot). destruct (gme_run gbody (p_gme o) _) as [og r]. cbn [fst snd] in *.
  destruct r as [[]|x].
  - destruct (exc_runs ebody (p_exc o) _) as [oe r] eqn:Ee. do 3 eexists. split; [reflexivity|]. cbn [p_kpts p_gme p_exc]. split; [reflexivity|]. split; [exact Cf|]. split; [intros n Hn; rewrite !lookup_dget; now apply Ot|]. split; [intros x Hx; congruence|].
    intros _. split.
    + intros HE Hne. rewrite (exc_runs_bad ebody _ _ E K4 HE Hne) in Ee. injection Ee as <- <-. auto.
    + intros HE Hb. destruct (exc_runs_ok ebody (p_exc o) _ ks E K3 K4 HE Hb) as (A1 & A2 & A3). rewrite Ee in A1, A2, A3. auto.
  - do 3 eexists. split; [reflexivity|]. cbn [p_kpts p_gme p_exc]. split; [reflexivity|]. split; [exact Cf|]. split; [intros n Hn; rewrite !lookup_dget; now apply Ot|]. split; [intros y Hy; rewrite Hy in Rs; injection Rs as ->; auto|intros Hy; congruence].
Qed.
(** what the call does to the dictionaries *)
Lemma call_dicts h' o' r : pol_opts gbody ebody h o g e ks = (h', o', r) -> List.length h' = List.length h /\
  forall s n, (2 <= s < List.length h)%nat -> lookup (nth s h' []) n = if ((match g with Some r => Nat.eqb s r | None => false end || match e with Some r => Nat.eqb s r | None => false end) && String.eqb n "kpoints")%bool then Some (PKpts ks) else lookup (nth s h []) n.
Proof.
  intros Ep. pose proof (pol_heap gbody ebody h o g e ks) as Hh. rewrite Ep in Hh. cbn [fst] in Hh. subst h'. split; [apply heap2_len|]. intros s n Hs. rewrite !lookup_dget. fold (cell (heap2 h g e ks) s) (cell h s).
  destruct C as [L Cl]. destruct (own_lt _ g Hg L) as [Lg _]. destruct (own_lt _ e He L) as [_ Le]. rewrite heap2_cell by assumption.
  replace (Nat.eqb s (ref_g g)) with (match g with Some r => Nat.eqb s r | None => false end) by (destruct g; [reflexivity|]; cbn [ref_g]; destruct (Nat.eqb_spec s 0); [lia|reflexivity]).
  replace (Nat.eqb s (ref_e e)) with (match e with Some r => Nat.eqb s r | None => false end) by (destruct e; [reflexivity|]; cbn [ref_e]; destruct (Nat.eqb_spec s 1); [lia|reflexivity]). reflexivity.
Qed.
End Call.
