(** Exciton wave functions; the oscillator strength argument. *)
From Coq Require Import Permutation List.
From Verif Require Import Py CBase LatticeModel LatticeSpec PhcModel PhcSpec RecipModel RecipSpec MatElModel FieldsModel RunModel RunSpec PweSpec PweModel ExcSpec ExcModel.
From Verif Require Import RecipProofs2 ExcProofs ExcProofs2 CellSpec CellProofs CellProofs2.
Open Scope R_scope.
Open Scope list_scope.

Lemma exc_vectors fuel P z V a M E0 loss osc gmax tr s args pot : exc_init fuel P z V a M E0 loss osc gmax tr = Some (Ok s) ->
  tr = "tbt"%string \/ tr = "abs"%string ->
  lattice_init args = Ok (pc_lattice P) -> independent (lt_a1 (pc_lattice P)) (lt_a2 (pc_lattice P)) -> 0 <= gmax ->
  conj_symmetric pot -> transform_of (lt_ec_area (pc_lattice P)) (ex_layer s) V (rc_g (ex_rc s)) pot ->
  NoDup (rc_g (ex_rc s)) /\ forall g, In g (rc_g (ex_rc s)) -> reciprocal_to (lt_a1 (pc_lattice P)) (lt_a2 (pc_lattice P)) g.
Proof.
  intros HI Htr HL Hind Hg Hc Ht. destruct (exc_matrix _ _ _ _ _ _ _ _ _ _ _ _ _ _ HI Htr HL Hind Hg Hc Ht) as (ND & _). split; [exact ND|].
  intros g Hin. destruct Htr as [->| ->].
  - destruct (init_tbt _ _ _ _ _ _ _ _ _ _ _ _ _ HI HL Hind Hg Hc Ht) as (ER & _). rewrite ER in Hin. eapply tbt_reciprocal; eauto.
  - destruct (init_abs _ _ _ _ _ _ _ _ _ _ _ _ _ HI HL Hind Hg Ht) as (HR & _). eapply abs_reciprocal; eauto.
Qed.

Section W.
Variable argsort : list R -> list nat.
Variable eigh : nat -> cmat -> list R * cmat.
Hypothesis Hs : sorts argsort.
Hypothesis He : diagonalises eigh.

Lemma wave_functions fuel P z V a M E0 loss osc gmax tr args pot s : exc_init fuel P z V a M E0 loss osc gmax tr = Some (Ok s) ->
  tr = "tbt"%string \/ tr = "abs"%string -> lattice_init args = Ok (pc_lattice P) -> independent (lt_a1 (pc_lattice P)) (lt_a2 (pc_lattice P)) -> 0 <= gmax ->
  conj_symmetric pot -> transform_of (lt_ec_area (pc_lattice P)) (ex_layer s) V (rc_g (ex_rc s)) pot ->
  forall ks m, ks <> [] ->
  let gs := rc_g (ex_rc s) in let n := List.length gs in let L := pc_lattice P in
  exists s' es, exc_run argsort eigh s ks m = (s', Ok tt) /\ ex_eners s' = Some (map (map (fun e => (e + E0, loss))) es) /\
    (forall i b, (List.length ks <= i)%nat \/ (Nat.min m n <= b)%nat -> ft_wavef s' i b = Raise IndexError) /\
    forall i k, nth_error ks i = Some k -> exists v : nat -> cvec, forall b, (b < Nat.min m n)%nat ->
      ft_wavef s' i b = Ok (v b) /\
      (forall p, (p < n)%nat -> csum n (fun q => (schroedinger hbar qe M a (flip (String.eqb tr "abs") pot) gs k p q * v b q)%C) = (RtoC (nth b (nth i es []) 0) * v b p)%C) /\
      (forall x y, wavef_point s' i b x y = Ok (wave gs (v b) x y)) /\ lattice_periodic (lt_a1 L) (lt_a2 L) (wave gs (v b)) /\
      forall b', (b' < Nat.min m n)%nat -> cell_mean (lt_a1 L) (lt_a2 L) (fun x y => (Cconj (wave gs (v b) x y) * wave gs (v b') x y)%C) (if Nat.eqb b b' then RtoC 1 else RtoC 0).
Proof.
  intros HI Htr HL Hind Hg Hc Ht ks m Hk gs n L.
  destruct (exc_vectors _ _ _ _ _ _ _ _ _ _ _ _ _ _ HI Htr HL Hind Hg Hc Ht) as [ND HR].
  destruct (exc_whole argsort eigh Hs He fuel P z V a M E0 loss osc gmax tr args pot s HI Htr HL Hind Hg Hc Ht ks m Hk) as (s' & es & vs & E & F1 & F2 & F3 & L1 & L2 & N).
  exists s', es. split; [exact E|]. split; [exact F1|]. split.
  - intros i b Hib. unfold ft_wavef. rewrite F2. cbn [attr bind]. unfold SymModel.get at 1. destruct (nth_error vs i) as [vk|] eqn:Ei; cbn [bind]; [|reflexivity].
    cbn. unfold SymModel.get. assert (Hi : (i < List.length ks)%nat) by (rewrite <- L2; apply nth_error_Some; congruence).
    destruct Hib as [Hib|Hib]; [lia|]. destruct (nth_error ks i) as [k|] eqn:Ek; [|apply nth_error_None in Ek; lia].
    destruct (N i k Ek) as (ls & U & _ & _ & _ & Lv & _). rewrite (nth_error_nth vs i [] Ei) in Lv.
    rewrite (proj2 (nth_error_None vk b)); [reflexivity|]. rewrite Lv. exact Hib.
  - intros i k Hik. destruct (N i k Hik) as (ls & U & (Ll & On & Ev) & _ & Ee & Lv & Vv).
    assert (Hi : (i < List.length ks)%nat) by (apply nth_error_Some; congruence).
    exists (fun b => snd (nth b (nth i vs []) (0%nat, fun _ => RtoC 0))). intros b Hb. fold n in On, Ev, Lv, Vv, Ll.
    assert (MN : forall b, (b < Nat.min m n)%nat -> (b < n)%nat /\ (b < m)%nat) by (intros ? HH; split; (eapply Nat.lt_le_trans; [exact HH|]); [apply Nat.le_min_r|apply Nat.le_min_l]).
    destruct (Vv b Hb) as [_ Vb]. set (v := fun b => snd (nth b (nth i vs []) (0%nat, fun _ => RtoC 0))) in *.
    assert (FW : ft_wavef s' i b = Ok (v b)).
    { unfold ft_wavef. rewrite F2. cbn [attr bind]. unfold SymModel.get at 1. rewrite (nth_error_nth' vs [] (n := i)) by lia. cbn. unfold SymModel.get.
      rewrite (nth_error_nth' (nth i vs []) (0%nat, fun _ => RtoC 0) (n := b)) by (rewrite Lv; exact Hb). reflexivity. }
    split; [exact FW|]. split; [|split; [|split]].
    + intros p Hp. specialize (Ev p b Hp (proj1 (MN b Hb))). unfold mvec in Ev. rewrite Ee.
      replace (nth b (firstn m ls) 0) with (nth b ls 0).
      * transitivity (RtoC (nth b ls 0) * U p b)%C; [rewrite <- Ev; apply csum_ext; intros q Hq; f_equal; apply (Vb q Hq)|f_equal; symmetry; apply (Vb p Hp)].
      * rewrite <- (firstn_skipn m ls) at 1. apply app_nth1. rewrite firstn_length, Ll. exact Hb.
    + intros x y. unfold wavef_point. rewrite FW. cbn. rewrite F3. f_equal. apply ftinv_wave. exact ND.
    + apply wave_periodic. exact HR.
    + intros b' Hb'. destruct (Vv b' Hb') as [_ Vb']. pose proof (parseval (lt_a1 L) (lt_a2 L) Hind gs (v b) (v b') ND HR) as PV.
      rewrite <- (On b b' (proj1 (MN b Hb)) (proj1 (MN b' Hb'))).
      eapply (mean_ext (lt_a1 L) (lt_a2 L)); [| |exact PV]; [intros; reflexivity|]. apply csum_ext. intros q Hq. apply (f_equal2 Cmult); [apply (f_equal Cconj)|]; [apply (Vb q Hq)|apply (Vb' q Hq)].
Qed.
End W.

(** osc_str *)
Lemma osc_argument fuel P z V a M E0 loss osc gmax tr s : exc_init fuel P z V a M E0 loss osc gmax tr = Some (Ok s) ->
  (osc = OscNone /\ ex_osc s = None) \/ exists x y w, osc = OscList [x; y; w] /\ ex_osc s = Some [x; y; w].
Proof.
  unfold exc_init. destruct (orb _ _); [discriminate|]. destruct (nth_error _ _); [|discriminate].
  assert (C : forall o, check_osc osc = Ok o -> (osc = OscNone /\ o = None) \/ exists x y w, osc = OscList [x; y; w] /\ o = Some [x; y; w]).
  { intros o. destruct osc as [|l0|]; cbn [check_osc]; [intros [= <-]; auto| |discriminate].
    destruct l0 as [|x [|y [|w [|u l0]]]]; cbn; try discriminate. intros [= <-]. right. exists x, y, w. auto. }
  destruct (check_osc osc) as [o|] eqn:Eo; [|discriminate]. specialize (C o eq_refl).
  destruct (String.eqb tr "tbt"); [|destruct (String.eqb tr "abs"); [|discriminate]].
  - destruct (pot_tbt _ _ _ _) as [[t1 t2]|]; cbn; [|discriminate]. intros [= <-]. exact C.
  - destruct (recip_abs _ _ _) as [[rc|]|]; cbn; try discriminate. destruct (pot_abs _ _ _ _) as [[x t1]|]; cbn; [|discriminate]. intros [= <-]. exact C.
Qed.
Lemma osc_free fuel P z V a M E0 loss gmax tr s : exc_init fuel P z V a M E0 loss OscNone gmax tr = Some (Ok s) ->
  forall x y w, exists s', exc_init fuel P z V a M E0 loss (OscList [x; y; w]) gmax tr = Some (Ok s') /\ ex_osc s' = Some [x; y; w] /\ ex_rc s' = ex_rc s /\ pot_matrix s' = pot_matrix s.
Proof.
  unfold exc_init. destruct (orb _ _); [discriminate|]. destruct (nth_error _ _); [|discriminate]. cbn [check_osc List.length Nat.eqb].
  intros H x y w. destruct (String.eqb tr "tbt"); [|destruct (String.eqb tr "abs"); [|discriminate]].
  - destruct (pot_tbt _ _ _ _) as [[t1 t2]|]; cbn in *; [|discriminate]. injection H as <-. eexists. split; [reflexivity|]. repeat split.
  - destruct (recip_abs _ _ _) as [[rc|]|]; cbn in *; try discriminate. destruct (pot_abs _ _ _ _) as [[u t1]|]; cbn in *; [|discriminate]. injection H as <-. eexists. split; [reflexivity|]. repeat split.
Qed.
Lemma osc_rejected fuel P z V a M E0 loss gmax tr : (0 < z_to_lind P z <= List.length (pc_layers P))%nat ->
  exc_init fuel P z V a M E0 loss OscOther gmax tr = Some (Raise TypeError) /\
  forall l, List.length l <> 3%nat -> exc_init fuel P z V a M E0 loss (OscList l) gmax tr = Some (Raise ValueError).
Proof.
  intros H. unfold exc_init. replace (orb _ _) with false by (symmetry; apply orb_false_iff; split; apply Nat.eqb_neq; lia).
  destruct (nth_error (pc_layers P) (z_to_lind P z - 1)) eqn:E; [|apply nth_error_None in E; lia]. split; [reflexivity|].
  intros l0 Hl. cbn [check_osc]. apply Nat.eqb_neq in Hl. rewrite Hl. reflexivity.
Qed.
