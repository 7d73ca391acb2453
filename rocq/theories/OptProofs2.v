(** Proofs about the texts that list run options, and witnesses. *)
From Verif Require Import Py OptModel OptSpec OptProofs.
Open Scope string_scope.
Open Scope list_scope.
Open Scope R_scope.

(** ** a dictionary of the caller is changed *)
Lemma dict_changed : exists l d, sound 2 l /\ exists h os o, history (fun _ => Ok tt) (fun _ => Ok tt) 1 [1%nat] l = (h, os) /\ nth_error os 0 = Some o /\
  nth 2 h [] = d /\ exists h' o', pol_opts (fun _ => Ok tt) (fun _ => Ok tt) h o (Some 2%nat) None [(1, 0)] = (h', o', Ok tt) /\ nth 2 h' [] <> d.
Proof.
  exists [ANew [("numeig", PInt 3)]], [("numeig", PInt 3)]. split; [exact I|]. eexists _, _, _. split; [reflexivity|]. split; [reflexivity|]. split; [reflexivity|].
  eexists _, _. split; [reflexivity|]. cbn. discriminate.
Qed.

(** ** texts *)
Lemma app_nil_s (a : string) : (a ++ "")%string = a.
Proof. induction a as [|c a IH]; cbn; [reflexivity|now rewrite IH]. Qed.
Lemma app_assoc_s (a b c : string) : ((a ++ b) ++ c)%string = (a ++ (b ++ c))%string.
Proof. induction a as [|x a IH]; cbn [String.append]; [reflexivity|now rewrite IH]. Qed.
Section T.
Variable show : pval -> string.
Variable fixed6 : R -> string.
Notation line := (line show) (only parsing).
Lemma fold_lines (o : list (string * pval)) indent names : forall acc,
  fold_left (fun rep n => match dget o n with Some v => rep ++ indent ++ n ++ " = " ++ show v ++ ", " ++ lf | None => rep end)%string names acc =
  (acc ++ option_lines show indent o names)%string.
Proof.
  unfold option_lines. induction names as [|n names IH]; intros acc; cbn [fold_left]; [now rewrite app_nil_s|].
  rewrite IH. rewrite (IH (match dget o n with Some _ => _ | None => _ end)). destruct (dget o n); [|reflexivity]. cbn [String.append]. rewrite !app_assoc_s. reflexivity.
Qed.
Lemma lines_cons o indent n names : option_lines show indent o (n :: names) = ((match dget o n with Some v => line indent n v ++ lf | None => "" end) ++ option_lines show indent o names)%string.
Proof.
  unfold option_lines at 1. cbn [fold_left]. rewrite fold_lines. destruct (dget o n); [|reflexivity]. unfold line. rewrite !app_assoc_s. reflexivity.
Qed.
Lemma lines_nil o indent : option_lines show indent o [] = "".
Proof. reflexivity. Qed.
Lemma lines_unset o indent names : (forall n, In n names -> dget o n = None) -> option_lines show indent o names = "".
Proof. induction names as [|n names IH]; intros H; [reflexivity|]. rewrite lines_cons, (H n (or_introl eq_refl)). cbn [String.append]. apply IH. intros m Hm. apply H. now right. Qed.
Lemma lines_set o indent names (val : string -> pval) : (forall n, In n names -> dget o n = Some (val n)) -> forall k,
  (option_lines show indent o names ++ k)%string = fold_right (fun n t => (line indent n (val n) ++ lf ++ t)%string) k names.
Proof.
  intros H k. revert H. induction names as [|n names IH]; intros H; [reflexivity|]. rewrite lines_cons, (H n (or_introl eq_refl)). cbn [fold_right]. rewrite !app_assoc_s. do 2 f_equal. apply IH. intros m Hm. apply H. now right.
Qed.
Lemma text_cons a l : l <> [] -> text_of (a :: l) = (a ++ lf ++ text_of l)%string.
Proof. destruct l; [contradiction|reflexivity]. Qed.
Lemma text_fold names (f : string -> string) k : text_of (map f names ++ [k]) = fold_right (fun n t => (f n ++ lf ++ t)%string) k names.
Proof.
  induction names as [|n names IH]; [reflexivity|]. cbn [map app fold_right]. rewrite text_cons by (intros H; now apply app_eq_nil in H). now rewrite IH.
Qed.

Lemma listed_doc n : In n listed -> In n (map fst documented).
Proof. cbn. tauto. Qed.
Lemma held_some G n : In n (map fst documented) -> held n (in_force documented G n) = Some (val_of (held n (in_force documented G n))).
Proof.
  intros H. unfold in_force, held. assert (D : exists d, lookup documented n = Some d).
  { rewrite lookup_dget. destruct (dget documented n) as [d|] eqn:E; [eauto|]. now apply dget_none in E. }
  destruct D as [d ->]. destruct (lookup G n), (String.eqb n "gmode_inds"); reflexivity.
Qed.
Lemma gme_text gmax G ks o : gme_configured G ks o ->
  repr_gme show gmax o = text_of (["GuidedModeExp("; "phc = PhotCryst object, "; line "" "gmax" gmax] ++ map (fun n => line "" n (val_of (held n (in_force documented G n)))) listed ++ [")"]).
Proof.
  intros (_ & _ & H). cbn [app]. rewrite !text_cons by (try discriminate; intros K; now apply app_eq_nil in K). rewrite text_fold. unfold repr_gme.
  rewrite <- (lines_set o "" listed (fun n => val_of (held n (in_force documented G n)))); [unfold line; cbn [String.append]; rewrite ?app_assoc_s; reflexivity|].
  intros n Hn. rewrite <- held_some by now apply listed_doc. rewrite <- lookup_dget. apply H. now apply listed_doc.
Qed.
Lemma gme_text_new gmax o : (forall n, In n listed -> lookup o n = None) -> repr_gme show gmax o = text_of ["GuidedModeExp("; "phc = PhotCryst object, "; line "" "gmax" gmax; ")"].
Proof.
  intros H. unfold repr_gme. change (option_lines show "" o _) with (option_lines show "" o listed). rewrite (lines_unset o "" listed) by (intros n Hn; rewrite <- lookup_dget; now apply H). unfold text_of, line. cbn [String.concat String.append]. rewrite ?app_assoc_s. reflexivity.
Qed.
Lemma pwe_text gmax ee o pol numeig : repr_pwe show gmax ee (pwe_set o pol numeig) =
  text_of ["PlaneWaveExp("; "layer = Layer object, "; line "" "gmax" gmax; line "" "eps_eff" ee; line "" "pol" (PStr (lower pol)); line "" "numeig" (PInt numeig); ")"].
Proof.
  unfold repr_pwe, pwe_set. rewrite !lines_cons, lines_nil, !dget_dset. cbn [String.eqb Ascii.eqb Bool.eqb]. unfold text_of, line. cbn [String.concat String.append]. rewrite ?app_assoc_s, ?app_nil_s. cbn [String.append]. rewrite ?app_assoc_s. reflexivity.
Qed.
Lemma pwe_text_new gmax ee : repr_pwe show gmax ee [] = text_of ["PlaneWaveExp("; "layer = Layer object, "; line "" "gmax" gmax; line "" "eps_eff" ee; ")"].
Proof. unfold repr_pwe. rewrite lines_unset by reflexivity. unfold text_of, line. cbn [String.concat String.append]. rewrite ?app_assoc_s. reflexivity. Qed.
Lemma fold_z zs : forall acc, fold_left (fun rep z => rep ++ tab ++ " z = " ++ fixed6 z ++ ", " ++ lf)%string zs acc =
  (acc ++ fold_right (fun z t => (tab ++ " z = " ++ fixed6 z ++ ", ") ++ lf ++ t) "" zs)%string.
Proof. induction zs as [|z zs IH]; intros acc; cbn [fold_left fold_right]; [now rewrite app_nil_s|]. rewrite IH. rewrite !app_assoc_s. reflexivity. Qed.
Lemma text_fold_z zs (f : R -> string) k : text_of (map f zs ++ [k]) = (fold_right (fun z t => f z ++ lf ++ t) "" zs ++ k)%string.
Proof.
  induction zs as [|z zs IH]; [reflexivity|]. cbn [map app fold_right]. rewrite text_cons by (intros H; now apply app_eq_nil in H). rewrite IH. now rewrite !app_assoc_s.
Qed.
Lemma text_app_cons l : forall a m, m <> [] -> text_of ((a :: l) ++ m) = (text_of (a :: l) ++ lf ++ text_of m)%string.
Proof.
  induction l as [|b l IH]; intros a m Hm; [cbn [app]; now rewrite text_cons|]. change ((a :: b :: l) ++ m) with (a :: ((b :: l) ++ m)). rewrite text_cons by discriminate. rewrite IH by exact Hm. rewrite (text_cons a (b :: l)) by discriminate. now rewrite !app_assoc_s.
Qed.
Lemma pol_text gmax G ks o zs : gme_configured G ks (p_gme o) -> lookup (p_gme o) "gmax" = Some gmax ->
  repr_pol show fixed6 o zs = text_of (["HopfieldPol("; "phc = PhotCryst object, "; "GME: "; line tab "gmax" gmax] ++ map (fun n => line tab n (val_of (held n (in_force documented G n)))) listed ++
    ["ESE at:"] ++ map (fun z => tab ++ " z = " ++ fixed6 z ++ ", ")%string zs ++ [")"]).
Proof.
  intros (_ & _ & H) Hg. unfold repr_pol. rewrite lines_cons. rewrite lookup_dget in Hg. rewrite Hg. rewrite fold_z. cbn [app].
  rewrite !(text_cons _ (_ :: _)) by discriminate. rewrite (text_cons (line tab "gmax" gmax)) by (intros K; apply app_eq_nil in K; now destruct K).
  cbn [map listed app]. rewrite !(text_cons (line tab _ _)) by discriminate. rewrite (text_cons "ESE at:") by (intros K; now apply app_eq_nil in K). rewrite text_fold_z.
  assert (L : forall k, (option_lines show tab (p_gme o) listed ++ k)%string = fold_right (fun n t => (line tab n (val_of (held n (in_force documented G n))) ++ lf ++ t)%string) k listed).
  { intros k. apply lines_set. intros n Hn. rewrite <- held_some by now apply listed_doc. rewrite <- lookup_dget. apply H. now apply listed_doc. }
  rewrite ?app_assoc_s. match goal with |- context [option_lines show tab (p_gme o) ?l] => change l with listed end. rewrite L. cbn [fold_right listed]. reflexivity.
Qed.
Lemma pol_text_new gmax o zs : (forall n, In n listed -> lookup (p_gme o) n = None) -> lookup (p_gme o) "gmax" = Some gmax ->
  repr_pol show fixed6 o zs = text_of (["HopfieldPol("; "phc = PhotCryst object, "; "GME: "; line tab "gmax" gmax; "ESE at:"] ++ map (fun z => tab ++ " z = " ++ fixed6 z ++ ", ")%string zs ++ [")"]).
Proof.
  intros H Hg. unfold repr_pol. rewrite lines_cons. rewrite lookup_dget in Hg. rewrite Hg. rewrite fold_z. match goal with |- context [option_lines show tab (p_gme o) ?l] => change l with listed end. rewrite (lines_unset (p_gme o) tab listed) by (intros n Hn; rewrite <- lookup_dget; now apply H). cbn [app].
  rewrite !(text_cons _ (_ :: _)) by discriminate. rewrite (text_cons "ESE at:") by (intros K; now apply app_eq_nil in K). rewrite text_fold_z. rewrite ?app_assoc_s. reflexivity.
Qed.
End T.

(** ** over a history *)
Lemma set_at {A} (l : list A) i x j : (i < List.length l)%nat -> nth_error (firstn i l ++ x :: skipn (S i) l) j = if Nat.eqb j i then Some x else nth_error l j.
Proof.
  revert i j. induction l as [|a l IH]; intros [|i] [|j] H; cbn [List.length] in H; try lia; cbn; auto. apply IH. lia.
Qed.
Lemma untouched gbody ebody l : forall w i, existsb (runs_on i) l = false -> nth_error (snd (fold_left (step gbody ebody) l w)) i = nth_error (snd w) i.
Proof.
  induction l as [|a l IH]; intros [h os] i H; [reflexivity|]. cbn [existsb] in H. apply Bool.orb_false_iff in H. destruct H as [H1 H2]. cbn [fold_left]. rewrite IH by exact H2. destruct a as [d|r k v|j g e ks]; cbn [step snd]; [reflexivity..|].
  cbn [runs_on] in H1. destruct (nth_error os j) as [o|] eqn:E; [|reflexivity]. destruct (pol_opts gbody ebody h o g e ks) as [[h' o'] r]. cbn [snd]. rewrite set_at by (apply nth_error_Some; congruence). now rewrite H1.
Qed.
Lemma new_text gbody ebody gmax wells l i show fixed6 zs o : existsb (runs_on i) l = false -> nth_error (snd (history gbody ebody gmax wells l)) i = Some o ->
  repr_pol show fixed6 o zs = text_of (["HopfieldPol("; "phc = PhotCryst object, "; "GME: "; line show tab "gmax" (PFloat gmax); "ESE at:"] ++ map (fun z => tab ++ " z = " ++ fixed6 z ++ ", ")%string zs ++ [")"]).
Proof.
  intros H Ho. unfold history in Ho. rewrite untouched in Ho by exact H. cbn [start snd] in Ho. rewrite nth_error_map in Ho. destruct (nth_error wells i) as [n|]; [|discriminate]. injection Ho as <-.
  apply pol_text_new; [|reflexivity]. intros m Hm. repeat (destruct Hm as [<-|Hm]; [reflexivity|]). contradiction.
Qed.
(** gmax is never changed *)
Lemma gmax_gme gbody o kw : dget (fst (gme_run gbody o kw)) "gmax" = dget o "gmax".
Proof.
  unfold gme_run, gme_set. destruct (bind_kw gme_sig _) as [opts|x] eqn:E; cbn [bind]; [|reflexivity]. cbn [fst]. rewrite !dget_dset. cbn [String.eqb Ascii.eqb Bool.eqb].
  unfold bind_kw in E. destruct (forallb _ _); [|discriminate]. injection E as <-. rewrite dget_set_all by exact sig_nodup. reflexivity.
Qed.
Lemma gmax_kept gbody ebody gmax wells l i o : nth_error (snd (history gbody ebody gmax wells l)) i = Some o -> lookup (p_gme o) "gmax" = Some (PFloat gmax).
Proof.
  unfold history. set (w := start gmax wells).
  assert (I : forall i o, nth_error (snd w) i = Some o -> dget (p_gme o) "gmax" = Some (PFloat gmax)).
  { intros j oj Hj. cbn [w start snd] in Hj. rewrite nth_error_map in Hj. destruct (nth_error wells j); [|discriminate]. injection Hj as <-. reflexivity. }
  clearbody w. revert w I i o. induction l as [|a l IH]; intros w I i o Ho; [rewrite lookup_dget; eauto|]. apply (IH (step gbody ebody w a)) with (i := i); [|exact Ho].
  clear IH Ho i o. intros i o Ho. destruct w as [h os]. cbn [snd] in *. destruct a as [d|r k v|j g e ks]; cbn [step snd] in Ho; [eauto..|].
  destruct (nth_error os j) as [oj|] eqn:E; [|eauto]. destruct (pol_opts gbody ebody h oj g e ks) as [[h' o'] r] eqn:Ep. cbn [snd] in Ho. rewrite set_at in Ho by (apply nth_error_Some; congruence).
  destruct (Nat.eqb i j); [|eauto]. injection Ho as <-. specialize (I _ _ E). rewrite <- I. clear - Ep. rewrite pol_form in Ep. cbn zeta in Ep. pose proof (gmax_gme gbody (p_gme oj) (cell (heap2 h g e ks) (ref_g g))) as K.
  destruct (gme_run gbody (p_gme oj) _) as [og rr]. cbn [fst] in K. destruct rr; [destruct (exc_runs _ _ _)|]; injection Ep as <- <- <-; exact K.
Qed.

(** ** the solvers called directly *)
Lemma dget_app d n k v : dget (d ++ [(k, v)]) n = match dget d n with Some w => Some w | None => if String.eqb n k then Some v else None end.
Proof. induction d as [|[a b] d IH]; [reflexivity|]. cbn [app dget]. destruct (String.eqb n a); [reflexivity|exact IH]. Qed.
Lemma without_app names d k v : In k names -> without names (d ++ [(k, v)]) = without names d.
Proof.
  intros H. unfold without. rewrite filter_app. cbn [filter fst]. replace (existsb (String.eqb k) names) with true; [apply app_nil_r|].
  symmetry. apply existsb_exists. exists k. split; [exact H|apply String.eqb_refl].
Qed.
Lemma gme_run_default gbody o kw : dget kw "kpoints" = None -> gme_run gbody o kw = gme_run gbody o (kw ++ [("kpoints", PKpts [(0, 0)])]).
Proof.
  intros H. unfold gme_run. rewrite without_app by now left. rewrite !dget_app, H. cbn [String.eqb Ascii.eqb Bool.eqb]. destruct (dget kw "angles"); reflexivity.
Qed.
Lemma exc_run_default ebody o kw : dget kw "kpoints" = None -> exc_run ebody o kw = exc_run ebody o (kw ++ [("kpoints", PKpts [(0, 0)])]).
Proof. intros H. unfold exc_run. rewrite without_app by now left. rewrite dget_app, H. reflexivity. Qed.
Lemma app_same kw n v : n <> "kpoints" -> dget (kw ++ [("kpoints", v)]) n = lookup kw n.
Proof. intros H. rewrite dget_app, lookup_dget. destruct (dget kw n); [reflexivity|]. destruct (String.eqb_spec n "kpoints"); [contradiction|reflexivity]. Qed.
Lemma gme_direct gbody o kw ks : asked kw ks ->
  (only kw gme_names -> gme_configured kw ks (fst (gme_run gbody o kw)) /\ snd (gme_run gbody o kw) = gbody (fst (gme_run gbody o kw))) /\
  (~ only kw gme_names -> gme_run gbody o kw = (o, Raise TypeError)).
Proof.
  intros A. split; intros H.
  - destruct A as [A|[A ->]]; rewrite lookup_dget in A.
    + destruct (gme_run_ok gbody o kw ks kw A (fun n _ => eq_sym (lookup_dget kw n)) H) as (H1 & H2 & _). auto.
    + rewrite gme_run_default by exact A. destruct (gme_run_ok gbody o (kw ++ [("kpoints", PKpts [(0, 0)])]) [(0, 0)] kw) as (H1 & H2 & _); auto; [now rewrite dget_app, A|intros; now apply app_same].
  - apply (gme_run_bad gbody o kw kw); [intros; now rewrite lookup_dget|exact H].
Qed.
Lemma exc_direct ebody o kw ks : asked kw ks ->
  (only kw exc_names -> exc_configured kw ks (fst (exc_run ebody o kw)) /\ snd (exc_run ebody o kw) = ebody (fst (exc_run ebody o kw))) /\
  (~ only kw exc_names -> exc_run ebody o kw = (o, Raise TypeError)).
Proof.
  intros A. split; intros H.
  - destruct A as [A|[A ->]]; rewrite lookup_dget in A.
    + destruct (exc_run_ok ebody o kw ks kw A (fun n _ => eq_sym (lookup_dget kw n)) H) as (H1 & H2). auto.
    + rewrite exc_run_default by exact A. destruct (exc_run_ok ebody o (kw ++ [("kpoints", PKpts [(0, 0)])]) [(0, 0)] kw) as (H1 & H2); auto; [now rewrite dget_app, A|intros; now apply app_same].
  - apply (exc_run_bad ebody o kw kw); [intros; now rewrite lookup_dget|exact H].
Qed.
