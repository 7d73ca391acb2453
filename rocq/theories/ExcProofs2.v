(** Runs of the exciton solver (C53, C54, C88, C89). *)
From Coq Require Import Permutation List.
From Verif Require Import Py CBase LatticeModel LatticeSpec PhcModel PhcSpec RecipModel RecipSpec RecipProofs RecipProofs2 RecipProofs3 MatElModel FieldsSpec FieldsModel FieldsProofs2 RunModel RunSpec RunProofs PweSpec PweModel PweProofs PweProofs2 ExcSpec ExcModel ExcProofs.
Open Scope R_scope.
Open Scope list_scope.

(** ** levels *)
Lemma levels_unique n m A es vs es' vs' : levels n m A es vs -> levels n m A es' vs' -> es = es'.
Proof.
  intros (ls & V & E & H1 & -> & _) (ms & W & E' & H1' & -> & _).
  rewrite (asc_unique ls ms); auto. apply Permutation_sym. apply (eigs_unique n A ls V ms W); auto.
Qed.
Lemma levels_ext n m A A' es vs : (forall i j, (i < n)%nat -> (j < n)%nat -> A i j = A' i j) -> levels n m A es vs -> levels n m A' es vs.
Proof.
  intros H (ls & V & (E1 & E2 & E3) & R). exists ls, V. split; [|exact R]. split; [auto|]. split; [auto|].
  intros i j Hi Hj. rewrite <- E3 by auto. unfold mvec. apply csum_ext. intros. rewrite H; auto.
Qed.
Lemma levels_diag m (ds : list R) A es vs : (forall i j, (i < List.length ds)%nat -> (j < List.length ds)%nat ->
    A i j = if Nat.eqb i j then RtoC (nth i ds 0) else RtoC 0) ->
  levels (List.length ds) m A es vs -> smallest m ds es.
Proof.
  intros HA (ls & V & E & H1 & -> & _). exists ls. split; [|split; auto]. apply (diagonal_eigs ds A ls V); auto.
Qed.
Lemma nth_map0 (f : R -> R) (l : list R) i : (i < List.length l)%nat -> nth i (map f l) 0 = f (nth i l 0).
Proof. intros H. apply (nth_map_lt f l i 0 0 H). Qed.
Lemma levels_shift n m A c es vs : levels n m A es vs ->
  levels n m (fun i j => Cplus (A i j) (if Nat.eqb i j then RtoC c else RtoC 0)) (map (fun e => e + c) es) vs.
Proof.
  intros (ls & V & (E1 & E2 & E3) & H1 & -> & H4). exists (map (fun e => e + c) ls), V.
  split; [|split; [|split; [symmetry; apply firstn_map|exact H4]]].
  - split; [rewrite map_length; auto|]. split; [exact E2|]. intros i j Hi Hj. rewrite nth_map0 by lia.
    transitivity (Cplus (mvec n A (fun i => V i j) i) (Cmult (RtoC c) (V i j))); [|rewrite E3, RtoC_plus by auto; ring].
    unfold mvec. transitivity (Cplus (csum n (fun k => Cmult (A i k) (V k j))) (csum n (fun k => Cmult (if Nat.eqb i k then RtoC c else RtoC 0) (V k j)))).
    + rewrite <- csum_plus. apply csum_ext. intros. ring.
    + f_equal. rewrite (csum_single n i); auto; [rewrite Nat.eqb_refl; auto|]. intros k Hk Hne. destruct (Nat.eqb_spec i k); [congruence|ring].
  - intros i j Hij. rewrite map_length in Hij. rewrite !nth_map0 by lia. specialize (H1 i j Hij). lra.
Qed.

(** ** the matrix *)
Lemma kinetic_free s k g : kinetic s k g = free_energy hbar qe (ex_M s) (ex_a s) k g.
Proof.
  unfold kinetic, free_energy, len, shifted, LatticeSpec.inner. cbn [fst snd].
  set (x := fst k + fst g). set (y := snd k + snd g).
  assert (E : sqrt ((x / ex_a s) ^ 2 + (y / ex_a s) ^ 2) ^ 2 = (sqrt (x * x + y * y) / ex_a s) ^ 2).
  { unfold Rdiv. rewrite !Rpow_mult_distr. rewrite !pow2_sqrt; [ring|nra|].
    pose proof (pow2_ge_0 x). pose proof (pow2_ge_0 y). pose proof (pow2_ge_0 (/ ex_a s)). nra. }
  rewrite E. unfold Rdiv. ring.
Qed.
Lemma mat_herm s k pot n : herm_on n pot -> herm_on n (exc_mat s k pot).
Proof.
  intros H i j Hi Hj. unfold exc_mat. rewrite Cconj_plus, <- (H i j) by auto. f_equal.
  rewrite (Nat.eqb_sym j i). destruct (Nat.eqb_spec i j) as [->|]; rewrite Cconj_R; reflexivity.
Qed.
Lemma gap_zero n A : herm_on n A -> herm_gap n A = 0.
Proof.
  intros H. unfold herm_gap. 
  assert (Z : forall l, (forall x, In x l -> x = 0) -> amax l = 0).
  { induction l as [|x l IH]; intros Hl; [reflexivity|]. cbn [amax fold_right]. rewrite (Hl x), Rabs_R0 by (left; auto).
    change (Rmax 0 (amax l) = 0). rewrite IH by (intros; apply Hl; right; auto). apply Rmax_left. lra. }
  apply Z. intros x Hx. apply in_flat_map in Hx. destruct Hx as (i & Hi & Hx). apply in_map_iff in Hx. destruct Hx as (j & <- & Hj).
  apply in_seq in Hi, Hj. rewrite (H i j) by lia. replace (Cminus _ _) with (RtoC 0) by ring. apply Cmod_0.
Qed.
Lemma check_ok n A : (0 < n)%nat -> herm_on n A -> herm_check n A = Ok tt.
Proof.
  intros Hn H. unfold herm_check. destruct (Nat.eqb_spec n 0); [lia|]. rewrite (gap_zero n A H).
  rewrite (proj2 (Rltb_false (1 / 10 ^ 10) 0)); auto. apply Rlt_le, Rdiv_lt_0_compat; [lra|apply pow_lt; lra].
Qed.

Section Run.
Variable argsort : list R -> list nat.
Variable eigh : nat -> cmat -> list R * cmat.
Hypothesis Hs : sorts argsort.
Hypothesis He : diagonalises eigh.

Lemma solve_levels n m mat : herm_on n mat -> exists es vs, exc_solve argsort eigh n m mat = Ok (es, vs) /\ levels n m mat es vs.
Proof.
  intros Hh. unfold exc_solve.
  pose proof (He n (plus_eye (Arr n n mat)) (plus_eye_herm (Arr n n mat) n Hh)) as E0.
  destruct (eigh n (plus_eye (Arr n n mat))) as [ls0 V0] eqn:EE. cbn [fst snd] in E0.
  apply shift_system in E0. cbn [ent] in E0.
  set (ls1 := map (fun l => l - 1) ls0) in *.
  assert (L1 : List.length ls1 = n) by apply E0.
  set (p := argsort ls1).
  destruct (Hs ls1) as [P1 P2]. fold p in P1, P2. rewrite L1 in P1.
  assert (In_p : forall j, In j p -> (j < n)%nat) by (intros j I; apply (Permutation_in _ P1) in I; apply in_seq in I; lia).
  pose proof (Permutation_length P1) as Lp. rewrite seq_length in Lp.
  assert (Sub : forall j, In j (firstn m p) -> In j p).
  { intros j I. rewrite <- (firstn_skipn m p). apply in_or_app. auto. }
  rewrite (take_ok 0) by (intros i Hi; rewrite L1; apply In_p, Sub, Hi). cbn [bind].
  eexists. eexists. split; [reflexivity|].
  exists (map (fun i => nth i ls1 0) p), (fun i j => V0 i (nth j p 0%nat)).
  split; [apply perm_system; auto|]. split; [exact P2|]. split; [symmetry; apply firstn_map|].
  unfold columns. split; [rewrite map_length, firstn_length; lia|].
  intros b Hb. assert (Lf : List.length (firstn m p) = Nat.min m n) by (rewrite firstn_length; lia).
  rewrite (nth_indep _ (0%nat, fun _ => RtoC 0) (n, fun i => V0 i 0%nat)) by (rewrite map_length; lia).
  rewrite (map_nth (fun j => (n, fun i => V0 i j))). cbn [fst snd]. split; auto.
  intros i Hi. f_equal. rewrite <- (firstn_skipn m p) at 2. rewrite app_nth1; auto. lia.
Qed.

Lemma exc_loop_ok s m pot (Q : R * R -> list R -> list (nat * cvec) -> Prop) ks :
  (forall k, exists f v, exc_one argsort eigh s m pot k = Ok (f, v) /\ Q k f v) ->
  forall fs vs, exists fs' vs', exc_loop argsort eigh s m pot ks fs vs = (vs ++ vs', Ok (fs ++ fs')) /\
    List.length fs' = List.length ks /\ List.length vs' = List.length ks /\
    forall i k, nth_error ks i = Some k -> Q k (nth i fs' []) (nth i vs' []).
Proof.
  intros H. induction ks as [|k ks IH]; intros fs vs; cbn [exc_loop].
  - exists [], []. rewrite !app_nil_r. split; auto. split; auto. split; auto. intros [|i] k; discriminate.
  - destruct (H k) as (f & v & -> & HQ). destruct (IH (fs ++ [f]) (vs ++ [v])) as (fs' & vs' & -> & L1 & L2 & N).
    exists (f :: fs'), (v :: vs'). rewrite <- !app_assoc. split; [reflexivity|]. split; [simpl; auto|]. split; [simpl; auto|].
    intros [|i] k0 E; [injection E as <-; exact HQ|]. apply N. exact E.
Qed.

(** what run leaves behind when the potential matrix is Hermitian *)
Lemma exc_run_ok s ks m : ks <> [] -> let n := List.length (rc_g (ex_rc s)) in (0 < n)%nat -> herm_on n (pot_matrix s) ->
  exists s' es vs, exc_run argsort eigh s ks m = (s', Ok tt) /\
    ex_eners s' = Some (map (map (fun e => (e + ex_E0 s, ex_loss s))) es) /\ ex_vecs s' = Some vs /\ ex_pot s' = Some (pot_matrix s) /\ ex_rc s' = ex_rc s /\ ex_k s' = Some ks /\
    List.length es = List.length ks /\ List.length vs = List.length ks /\
    forall i k, nth_error ks i = Some k -> levels n m (exc_mat s k (pot_matrix s)) (nth i es []) (nth i vs []).
Proof.
  intros Hk n Hn Hh. unfold exc_run.
  destruct (exc_loop_ok s m (pot_matrix s) (fun k f v => levels n m (exc_mat s k (pot_matrix s)) f v) ks) with (fs := @nil (list R)) (vs := @nil (list (nat * cvec)))
    as (fs & vs & E & L1 & L2 & N).
  - intros k. unfold exc_one. fold n. cbv zeta. pose proof (mat_herm s k (pot_matrix s) n Hh) as MH. rewrite (check_ok n _ Hn MH). cbn [bind].
    apply solve_levels. auto.
  - rewrite E. cbn [app]. destruct ks as [|k0 ks]; [congruence|]. eexists. exists fs, vs. split; [reflexivity|]. cbn [ex_eners ex_vecs ex_pot ex_rc ex_k].
    split; [|tauto]. f_equal. apply map_ext. intros l. apply map_ext. intros e. apply Ceq; simpl; ring.
Qed.
End Run.

(** the matrix that is diagonalised, as a Schroedinger operator *)
Lemma exc_matrix fuel P z V a M E0 loss osc gmax tr s args pot : exc_init fuel P z V a M E0 loss osc gmax tr = Some (Ok s) ->
  tr = "tbt"%string \/ tr = "abs"%string ->
  lattice_init args = Ok (pc_lattice P) -> independent (lt_a1 (pc_lattice P)) (lt_a2 (pc_lattice P)) -> 0 <= gmax ->
  conj_symmetric pot -> transform_of (lt_ec_area (pc_lattice P)) (ex_layer s) V (rc_g (ex_rc s)) pot ->
  let gs := rc_g (ex_rc s) in let n := List.length gs in
  NoDup gs /\ (0 < n)%nat /\ herm_on n (pot_matrix s) /\ ex_abs s = String.eqb tr "abs" /\
  (forall i j, (i < n)%nat -> (j < n)%nat -> pot_matrix s i j = flip (String.eqb tr "abs") pot (diff (gat gs i) (gat gs j))) /\
  forall k i j, (i < n)%nat -> (j < n)%nat -> exc_mat s k (pot_matrix s) i j = schroedinger hbar qe M a (flip (String.eqb tr "abs") pot) gs k i j.
Proof.
  intros HI Htr HL Hind Hg Hc Ht. cbv zeta.
  destruct (transform_exists _ _ _ _ _ _ _ _ _ _ _ _ HI) as (_ & _ & Ea & EM & _).
  assert (Main : NoDup (rc_g (ex_rc s)) /\ (0 < List.length (rc_g (ex_rc s)))%nat /\ ex_abs s = String.eqb tr "abs" /\
    forall i j, (i < List.length (rc_g (ex_rc s)))%nat -> (j < List.length (rc_g (ex_rc s)))%nat -> pot_matrix s i j = flip (String.eqb tr "abs") pot (diff (gat (rc_g (ex_rc s)) i) (gat (rc_g (ex_rc s)) j))).
  { destruct Htr as [->| ->].
    - destruct (init_tbt _ _ _ _ _ _ _ _ _ _ _ _ _ HI HL Hind Hg Hc Ht) as (ER & EA & MM). split; [|split; [|split; [exact EA|exact MM]]].
      + destruct (tbt_set args (pc_lattice P) gmax HL Hind Hg) as (n1 & n2 & _ & _ & _ & _ & _ & ND & _). rewrite ER. exact ND.
      + destruct (recip_tbt_form (pc_lattice P) gmax Hg (indep_recip _ _ HL Hind)) as (n1 & n2 & _ & _ & G & _). rewrite ER, (g_len _ _ _ _ _ G). nia.
    - destruct (init_abs _ _ _ _ _ _ _ _ _ _ _ _ _ HI HL Hind Hg Ht) as (HR & EA & MM & _).
      destruct (abs_set args (pc_lattice P) gmax fuel _ HL Hind Hg HR) as (rc' & k' & E & _ & ND & In0 & _). injection E as E. subst rc'.
      split; [exact ND|]. split; [destruct (rc_g (ex_rc s)); [destruct In0|simpl; lia]|]. split; [exact EA|].
      intros i j Hi Hj. cbn [String.eqb Ascii.eqb Bool.eqb flip]. rewrite opp_diff. apply MM; auto. }
  destruct Main as (ND & Pos & EA & MM). split; [exact ND|]. split; [exact Pos|]. split; [|split; [exact EA|split; [exact MM|]]].
  - intros i j Hi Hj. rewrite !MM by auto. rewrite <- (opp_diff (gat (rc_g (ex_rc s)) i)). unfold flip. set (d := diff _ _). assert (OO : opp (opp d) = d) by (unfold opp; destruct d; simpl; f_equal; ring).
    destruct (String.eqb tr "abs"); [rewrite OO; apply Hc|rewrite Hc, Cconj_conj; reflexivity].
  - intros k i j Hi Hj. unfold exc_mat, schroedinger. rewrite MM by auto. rewrite kinetic_free, Ea, EM. reflexivity.
Qed.

Section Whole.
Variable argsort : list R -> list nat.
Variable eigh : nat -> cmat -> list R * cmat.
Hypothesis Hs : sorts argsort.
Hypothesis He : diagonalises eigh.
Variables (fuel : nat) (P : phc) (z V a M E0 loss : R) (osc : osc_arg) (gmax : R) (tr : string) (args : lat_args) (pot : R * R -> C).
Variable s : exc.
Hypothesis HI : exc_init fuel P z V a M E0 loss osc gmax tr = Some (Ok s).
Hypothesis Htr : tr = "tbt"%string \/ tr = "abs"%string.
Hypothesis HL : lattice_init args = Ok (pc_lattice P).
Hypothesis Hind : independent (lt_a1 (pc_lattice P)) (lt_a2 (pc_lattice P)).
Hypothesis Hg : 0 <= gmax.
Hypothesis Hc : conj_symmetric pot.
Hypothesis Ht : transform_of (lt_ec_area (pc_lattice P)) (ex_layer s) V (rc_g (ex_rc s)) pot.
Lemma exc_whole ks m : ks <> [] ->
  exists s' es vs, exc_run argsort eigh s ks m = (s', Ok tt) /\
    ex_eners s' = Some (map (map (fun e => (e + E0, loss))) es) /\ ex_vecs s' = Some vs /\ ex_rc s' = ex_rc s /\
    List.length es = List.length ks /\ List.length vs = List.length ks /\
    forall i k, nth_error ks i = Some k ->
      levels (List.length (rc_g (ex_rc s))) m (schroedinger hbar qe M a (flip (String.eqb tr "abs") pot) (rc_g (ex_rc s)) k) (nth i es []) (nth i vs []).
Proof.
  intros Hk. destruct (exc_matrix _ _ _ _ _ _ _ _ _ _ _ _ _ _ HI Htr HL Hind Hg Hc Ht) as (ND & Pos & HH & _ & _ & MM). cbv zeta in *.
  destruct (transform_exists _ _ _ _ _ _ _ _ _ _ _ _ HI) as (_ & _ & _ & _ & EE & El & _).
  destruct (exc_run_ok argsort eigh Hs He s ks m Hk Pos HH) as (s' & es & vs & E & F1 & F2 & _ & F4 & _ & L1 & L2 & N).
  exists s', es, vs. rewrite EE, El in F1. split; [exact E|]. split; [exact F1|]. split; [exact F2|]. split; [exact F4|]. split; [exact L1|]. split; [exact L2|].
  intros i k Hik. eapply levels_ext; [|apply (N i k Hik)]. intros. apply MM; auto.
Qed.
End Whole.

(** ** zero potential *)
Lemma exc_free argsort eigh : sorts argsort -> diagonalises eigh ->
  forall fuel P z V a M E0 loss osc gmax tr s args ks m, exc_init fuel P z V a M E0 loss osc gmax tr = Some (Ok s) ->
  tr = "tbt"%string \/ tr = "abs"%string -> lattice_init args = Ok (pc_lattice P) -> independent (lt_a1 (pc_lattice P)) (lt_a2 (pc_lattice P)) -> 0 <= gmax ->
  ly_shapes (ex_layer s) = [] -> ks <> [] ->
  exists s' es, exc_run argsort eigh s ks m = (s', Ok tt) /\ ex_eners s' = Some (map (map (fun e => (e + E0, loss))) es) /\ List.length es = List.length ks /\
    forall i k, nth_error ks i = Some k -> smallest m (map (free_energy hbar qe M a k) (rc_g (ex_rc s))) (nth i es []).
Proof.
  intros Hs He fuel P z V a M E0 loss osc gmax tr s args ks m HI Htr HL Hind Hg Hno Hk.
  pose proof (zero_transform (lt_ec_area (pc_lattice P)) (ex_layer s) V (rc_g (ex_rc s)) Hno) as Ht.
  assert (Hc : conj_symmetric (fun _ : R * R => RtoC 0)) by (intros g; symmetry; apply Cconj_R).
  destruct (exc_whole argsort eigh Hs He fuel P z V a M E0 loss osc gmax tr args _ s HI Htr HL Hind Hg Hc Ht ks m Hk) as (s' & es & vs & E & F1 & _ & _ & L1 & _ & N).
  exists s', es. split; [exact E|]. split; [exact F1|]. split; [exact L1|]. intros i k Hik.
  specialize (N i k Hik). rewrite <- (map_length (free_energy hbar qe M a k) (rc_g (ex_rc s))) in N.
  apply (levels_diag m _ _ _ _) in N; auto. intros p q Hp Hq. rewrite map_length in Hp, Hq. unfold schroedinger, flip.
  rewrite (nth_map_lt _ _ _ (0, 0)) by auto. unfold gat. destruct (String.eqb tr "abs"), (Nat.eqb p q); ring.
Qed.

(** ** a constant potential *)
Lemma exc_shift argsort eigh : sorts argsort -> diagonalises eigh ->
  forall fuel P P' z z' V V' a M E0 loss osc osc' gmax tr s s' args pot pot' c ks m,
  exc_init fuel P z V a M E0 loss osc gmax tr = Some (Ok s) -> exc_init fuel P' z' V' a M E0 loss osc' gmax tr = Some (Ok s') -> pc_lattice P' = pc_lattice P ->
  tr = "tbt"%string \/ tr = "abs"%string -> lattice_init args = Ok (pc_lattice P) -> independent (lt_a1 (pc_lattice P)) (lt_a2 (pc_lattice P)) -> 0 <= gmax ->
  conj_symmetric pot -> transform_of (lt_ec_area (pc_lattice P)) (ex_layer s) V (rc_g (ex_rc s)) pot ->
  conj_symmetric pot' -> transform_of (lt_ec_area (pc_lattice P)) (ex_layer s') V' (rc_g (ex_rc s)) pot' ->
  pot' (0, 0) = Cplus (pot (0, 0)) (RtoC c) -> (forall g, g <> (0, 0) -> pot' g = pot g) -> ks <> [] ->
  exists es, ex_eners (fst (exc_run argsort eigh s ks m)) = Some (map (map (fun e => (e + E0, loss))) es) /\
    ex_eners (fst (exc_run argsort eigh s' ks m)) = Some (map (map (fun e => (e + c + E0, loss))) es).
Proof.
  intros Hs He fuel P P' z z' V V' a M E0 loss osc osc' gmax tr s s' args pot pot' c ks m HI HI' HP Htr HL Hind Hg Hc Ht Hc' Ht' P0 PN Hk.
  assert (HR : ex_rc s' = ex_rc s).
  { clear -HI HI' HP Htr. destruct Htr as [->| ->]; unfold exc_init in HI, HI'; cbv zeta in HI, HI';
      (destruct (_ || _)%bool in HI; [discriminate|]); (destruct (_ || _)%bool in HI'; [discriminate|]);
      (destruct (nth_error _ _) in HI; [|discriminate]); (destruct (nth_error _ _) in HI'; [|discriminate]);
      (destruct (check_osc osc); [|discriminate]); (destruct (check_osc osc'); [|discriminate]); cbn [String.eqb Ascii.eqb Bool.eqb] in HI, HI'; rewrite HP in HI'.
    - destruct (pot_tbt _ _ _ _) as [[]|] in HI; [|discriminate]. destruct (pot_tbt _ _ _ _) as [[]|] in HI'; [|discriminate].
      cbn [bind] in HI, HI'. injection HI as <-. injection HI' as <-. reflexivity.
    - destruct (recip_abs _ _ _) as [[rc|]|]; [|discriminate..]. cbn [bind] in HI, HI'.
      destruct (pot_abs _ _ _ _) as [[]|] in HI; [|discriminate]. destruct (pot_abs _ _ _ _) as [[]|] in HI'; [|discriminate].
      cbn [bind] in HI, HI'. injection HI as <-. injection HI' as <-. reflexivity. }
  assert (HL' : lattice_init args = Ok (pc_lattice P')) by (rewrite HP; auto).
  assert (Hind' : independent (lt_a1 (pc_lattice P')) (lt_a2 (pc_lattice P'))) by (rewrite HP; auto).
  assert (Ht2 : transform_of (lt_ec_area (pc_lattice P')) (ex_layer s') V' (rc_g (ex_rc s')) pot') by (rewrite HP, HR; auto).
  destruct (exc_matrix _ _ _ _ _ _ _ _ _ _ _ _ _ _ HI Htr HL Hind Hg Hc Ht) as (ND & _). cbv zeta in *.
  destruct (exc_whole argsort eigh Hs He fuel P z V a M E0 loss osc gmax tr args _ s HI Htr HL Hind Hg Hc Ht ks m Hk) as (s1 & es & vs & E & F1 & _ & _ & L1 & _ & N).
  destruct (exc_whole argsort eigh Hs He fuel P' z' V' a M E0 loss osc' gmax tr args _ s' HI' Htr HL' Hind' Hg Hc' Ht2 ks m Hk) as (s1' & es' & vs' & E' & F1' & _ & _ & L1' & _ & N').
  rewrite E, E'. cbn [fst]. exists es. split; [exact F1|]. rewrite F1'. f_equal.
  assert (X : es' = map (map (fun e => e + c)) es).
  { apply (nth_ext _ _ [] []); [rewrite map_length; lia|]. intros i Hi. rewrite (nth_map_lt _ _ _ []) by lia.
    assert (Ki : exists k, nth_error ks i = Some k) by (destruct (nth_error ks i) eqn:Q; [eauto|apply nth_error_None in Q; lia]). destruct Ki as [k Hik].
    specialize (N i k Hik). specialize (N' i k Hik). rewrite HR in N'.
    apply (levels_shift _ _ _ c) in N. eapply levels_unique; [exact N'|]. eapply levels_ext; [|exact N].
    intros p q Hp Hq. unfold schroedinger. rewrite <- Cplus_assoc. f_equal.
    destruct (Nat.eqb_spec p q) as [<-|Hne].
    - rewrite diff_same. unfold flip. assert (O : opp (0, 0) = (0, 0)) by (unfold opp; simpl; rewrite Ropp_0; auto).
      destruct (String.eqb tr "abs"); rewrite ?O, P0; ring.
    - assert (DN : diff (gat (rc_g (ex_rc s)) p) (gat (rc_g (ex_rc s)) q) <> (0, 0)).
      { intros D. apply diff_zero in D. apply Hne. apply (proj1 (NoDup_nth _ (0, 0)) ND); auto. }
      rewrite Cplus_0_r. symmetry. unfold flip. destruct (String.eqb tr "abs"); apply PN; auto. rewrite opp_diff.
      intros D. apply DN. apply diff_zero in D. rewrite D. apply diff_same. }
  rewrite X, map_map. apply map_ext. intros l. rewrite map_map. reflexivity.
Qed.
