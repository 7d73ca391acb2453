(** Run options and the texts of the solvers: C129, C130. *)
From Verif Require Import Py OptModel OptSpec OptProofs OptProofs2.
Open Scope string_scope.
Open Scope list_scope.
Open Scope R_scope.

(** ** C129: the options of HopfieldPol.run *)

(** The dictionaries of the caller do not survive the call. *)
Theorem C129_caller_refuted : exists l d, sound 2 l /\ exists h os o, history (fun _ => Ok tt) (fun _ => Ok tt) 1 [1%nat] l = (h, os) /\ nth_error os 0 = Some o /\
  nth 2 h [] = d /\ exists h' o', pol_opts (fun _ => Ok tt) (fun _ => Ok tt) h o (Some 2%nat) None [(1, 0)] = (h', o', Ok tt) /\ nth 2 h' [] <> d.
Proof. exact dict_changed. Qed.
Print Assumptions C129_caller_refuted.
(** But only the entry kpoints of the dictionaries that were passed changes. *)
Theorem C129_caller_partial : forall gbody ebody gmax wells l i h os o g e ks h' o' r, sound 2 l -> history gbody ebody gmax wells l = (h, os) -> nth_error os i = Some o ->
  own_opt (List.length h) g -> own_opt (List.length h) e -> pol_opts gbody ebody h o g e ks = (h', o', r) ->
  List.length h' = List.length h /\
  forall s n, (2 <= s < List.length h)%nat -> lookup (nth s h' []) n =
    if ((match g with Some r => Nat.eqb s r | None => false end || match e with Some r => Nat.eqb s r | None => false end) && String.eqb n "kpoints")%bool then Some (PKpts ks) else lookup (nth s h []) n.
Proof.
  intros gbody ebody gmax wells l i h os o g e ks h' o' r HS HH Ho Hg He. pose proof (clean_history gbody ebody gmax wells l HS) as C. rewrite HH in C. exact (call_dicts gbody ebody h o g e ks C Hg He h' o' r).
Qed.
Print Assumptions C129_caller_partial.
(** Whatever was run before, with whatever dictionaries: the photonic solver gets the
    options that this caller passed, the documented values for all others, and the
    k-points of this call; so do all wells; an unknown name is a TypeError before
    the solver in question changes anything. *)
Theorem C129_options : forall gbody ebody gmax wells l i h os o g e ks, sound 2 l -> history gbody ebody gmax wells l = (h, os) -> nth_error os i = Some o ->
  own_opt (List.length h) g -> own_opt (List.length h) e -> let G := passed h g in let E := passed h e in
  (~ only G gme_names -> exists h', pol_opts gbody ebody h o g e ks = (h', PObj (Some (PKpts ks)) (p_gme o) (p_exc o), Raise TypeError)) /\
  (only G gme_names -> exists h' o' r, pol_opts gbody ebody h o g e ks = (h', o', r) /\ p_kpts o' = Some (PKpts ks) /\ gme_configured G ks (p_gme o') /\
    (forall n, ~ In n ("_kpoints" :: "angles" :: map fst documented) -> lookup (p_gme o') n = lookup (p_gme o) n) /\
    (forall x, gbody (p_gme o') = Raise x -> r = Raise x /\ p_exc o' = p_exc o) /\
    (gbody (p_gme o') = Ok tt -> (~ only E exc_names -> p_exc o <> [] -> r = Raise TypeError /\ p_exc o' = p_exc o) /\
      (only E exc_names -> (forall oe, exc_configured E ks oe -> ebody oe = Ok tt) -> r = Ok tt /\ List.length (p_exc o') = List.length (p_exc o) /\ Forall (exc_configured E ks) (p_exc o')))).
Proof.
  intros gbody ebody gmax wells l i h os o g e ks HS HH Ho Hg He G E. pose proof (clean_history gbody ebody gmax wells l HS) as C. rewrite HH in C.
  exact (conj (call_bad_gme gbody ebody h o g e ks C Hg He) (call_gme gbody ebody h o g e ks C Hg He)).
Qed.
Print Assumptions C129_options.
(** A second run without options after one with 3 eigenvalues: ten again. *)
Example C129_case : let l := [ANew [("numeig", PInt 3); ("kpoints", PStr "anything")]; ARun 0 (Some 2%nat) None [(1, 0)]] in
  sound 2 l /\ exists h o, history (fun _ => Ok tt) (fun _ => Ok tt) 2 [1%nat] l = (h, [o]) /\ lookup (p_gme o) "numeig" = Some (PInt 3) /\
  own_opt (List.length h) None /\ only (passed h None) gme_names /\
  exists h' o', pol_opts (fun _ => Ok tt) (fun _ => Ok tt) h o None None [(0, 2)] = (h', o', Ok tt) /\ lookup (p_gme o') "numeig" = Some (PInt 10) /\ lookup (p_gme o') "_kpoints" = Some (PKpts [(0, 2)]).
Proof.
  intros l. split; [cbn; unfold own; auto|]. eexists _, _. split; [reflexivity|]. split; [reflexivity|]. split; [exact I|]. split; [intros n Hn; now contradiction Hn|].
  eexists _, _. split; [reflexivity|]. split; reflexivity.
Qed.

(** The two solvers called directly: the same, at the origin when no k-points are given. *)
Theorem C129_direct : forall body o kw ks, asked kw ks ->
  ((only kw gme_names -> gme_configured kw ks (fst (gme_run body o kw)) /\ snd (gme_run body o kw) = body (fst (gme_run body o kw))) /\
   (~ only kw gme_names -> gme_run body o kw = (o, Raise TypeError))) /\
  ((only kw exc_names -> exc_configured kw ks (fst (exc_run body o kw)) /\ snd (exc_run body o kw) = body (fst (exc_run body o kw))) /\
   (~ only kw exc_names -> exc_run body o kw = (o, Raise TypeError))).
Proof. exact (fun body o kw ks H => conj (gme_direct body o kw ks H) (exc_direct body o kw ks H)). Qed.
Print Assumptions C129_direct.
Example C129_direct_case : let kw := [("numeig", PInt 3)] in asked kw [(0, 0)] /\ only kw gme_names /\ ~ only kw exc_names /\
  lookup (fst (gme_run (fun _ => Ok tt) [("numeig", PInt 7)] kw)) "_kpoints" = Some (PKpts [(0, 0)]).
Proof.
  intros kw. split; [right; split; reflexivity|]. split; [|split; [|reflexivity]].
  - intros n Hn. unfold lookup, kw in Hn. cbn [find fst] in Hn. destruct (String.eqb_spec "numeig" n) as [E|E]; [rewrite <- E; cbn; tauto|now contradiction Hn].
  - intros H. specialize (H "numeig"). cbn in H. assert (X : Some (PInt 3) <> None) by discriminate. apply H in X. intuition discriminate.
Qed.

(** ** C130: the texts of the solvers show the options in force *)

(** after a call of run whose options are accepted *)
Theorem C130_pol : forall show fixed6 gbody ebody gmax wells l i h os o g e ks zs, sound 2 l -> history gbody ebody gmax wells l = (h, os) -> nth_error os i = Some o ->
  own_opt (List.length h) g -> own_opt (List.length h) e -> only (passed h g) gme_names ->
  exists h' o' r, pol_opts gbody ebody h o g e ks = (h', o', r) /\
    let value n := val_of (held n (in_force documented (passed h g) n)) in
    repr_pol show fixed6 o' zs = text_of (["HopfieldPol("; "phc = PhotCryst object, "; "GME: "; line show tab "gmax" (PFloat gmax)] ++
      map (fun n => line show tab n (value n)) listed ++ ["ESE at:"] ++ map (fun z => tab ++ " z = " ++ fixed6 z ++ ", ")%string zs ++ [")"]) /\
    repr_gme show (PFloat gmax) (p_gme o') = text_of (["GuidedModeExp("; "phc = PhotCryst object, "; line show "" "gmax" (PFloat gmax)] ++ map (fun n => line show "" n (value n)) listed ++ [")"]).
Proof.
  intros show fixed6 gbody ebody gmax wells l i h os o g e ks zs HS HH Ho Hg He HO. pose proof (clean_history gbody ebody gmax wells l HS) as C. rewrite HH in C.
  destruct (call_gme gbody ebody h o g e ks C Hg He HO) as (h' & o' & r & E & _ & Cf & Ot & _). exists h', o', r. split; [exact E|]. cbn zeta. split; [|exact (gme_text show (PFloat gmax) _ ks _ Cf)].
  apply (pol_text show fixed6 (PFloat gmax) _ ks); [exact Cf|]. rewrite Ot by (cbn; intuition discriminate). apply (gmax_kept gbody ebody gmax wells l i). now rewrite HH.
Qed.
Print Assumptions C130_pol.
(** before the first run of an object, whatever happens to others *)
Theorem C130_before_run : forall gbody ebody gmax wells l i show fixed6 zs o, existsb (runs_on i) l = false -> nth_error (snd (history gbody ebody gmax wells l)) i = Some o ->
  repr_pol show fixed6 o zs = text_of (["HopfieldPol("; "phc = PhotCryst object, "; "GME: "; line show tab "gmax" (PFloat gmax); "ESE at:"] ++ map (fun z => tab ++ " z = " ++ fixed6 z ++ ", ")%string zs ++ [")"]).
Proof. exact new_text. Qed.
Print Assumptions C130_before_run.
Theorem C130_pwe : forall show gmax ee o pol numeig,
  repr_pwe show gmax ee [] = text_of ["PlaneWaveExp("; "layer = Layer object, "; line show "" "gmax" gmax; line show "" "eps_eff" ee; ")"] /\
  repr_pwe show gmax ee (pwe_set o pol numeig) =
    text_of ["PlaneWaveExp("; "layer = Layer object, "; line show "" "gmax" gmax; line show "" "eps_eff" ee; line show "" "pol" (PStr (lower pol)); line show "" "numeig" (PInt numeig); ")"].
Proof. exact (fun show gmax ee o pol numeig => conj (pwe_text_new show gmax ee) (pwe_text show gmax ee o pol numeig)). Qed.
Print Assumptions C130_pwe.
Example C130_case : let show v := match v with PStr s => s | PFloat _ => "1.5" | PArray _ => "array([0])" | _ => "?" end in
  exists o, nth_error (snd (history (fun _ => Ok tt) (fun _ => Ok tt) 2 [1%nat; 1%nat] [ANew [("gradients", PStr "approx")]; ARun 1 (Some 2%nat) None [(0, 0)]])) 1 = Some o /\
    repr_gme show (PFloat 2) (p_gme o) = text_of ["GuidedModeExp("; "phc = PhotCryst object, "; "gmax = 1.5, "; "gmode_compute = exact, "; "gmode_inds = array([0]), "; "gmode_step = 1.5, "; "gradients = approx, "; "eig_solver = eigh, "; "eig_sigma = 1.5, "; "eps_eff = average, "; ")"].
Proof. intros show. eexists. split; [reflexivity|]. reflexivity. Qed.
