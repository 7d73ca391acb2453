(** The dropped polariton, the phase of a photonic mode, two oscillators, errors. *)
From Coq Require Import Permutation List.
From Verif Require Import Py CBase LatticeModel PhcModel RecipModel MatElModel SymModel SymSpec FieldsModel RunModel RunSpec RunProofs RunProofs3 PweModel ExcModel ExcProofs4 PolSpec PolModel PolSpec2 PolProofs PolProofs2 PolProofs3 PolProofs4 PolProofs5 PolProofs6 PolProofs7 PolProofs8 PolProofs9.
Open Scope R_scope.
Open Scope list_scope.

Section Dropped.
Variables (eig : nat -> cmat -> list C * cmat) (cargsort : list C -> list nat) (argsort : list R -> list nat) (eigh : nat -> cmat -> list R * cmat).
Hypothesis Heig : solves eig.
Hypothesis Hcs : csorts cargsort.
Hypothesis Hs : sorts argsort.
Hypothesis He : diagonalises eigh.
Variable L : lattice.
Hypothesis HL : lattice_init (LatName "square") = Ok L.

Lemma dropped : exists P q p ws r H, pol_init 0 P 0 "tbt" = Some (Ok q) /\
  pol_run eig cargsort argsort eigh (fun _ => Ok p) q [(0, 0)] 1 = (ws, Ok ([r], H)) /\
  exists l, eigval (2 * (ph_N p + 1 * List.length ws)) H l /\ 0 < fst l /\ ~ In (fst l) (kr_e r).
Proof.
  destruct (toy_system argsort eigh Hs He L HL 2 [1] [RtoC 1] [] 0 ltac:(lra) eq_refl) as (q & ws & us & H & EI & _ & ER & Lw & F & Lu & HU & EC & EM).
  { intros o [<-|[]]; lra. }
  cbn [List.length] in *. destruct (solve_modes eig cargsort Heig Hcs 1 (1 * List.length ws) H) as (ms & (HM & HA & HC & _) & ES). cbv zeta in ES. rewrite Lw in *.
  change (1 + 1 * 1 - 1)%nat with 1%nat in ES. change (2 * (1 + 1 * 1))%nat with 4%nat in *.
  set (r := KRes _ _ _ _ _) in ES. exists (toy_phc L 2 [0]), q, (light [1] [RtoC 1]), ws, r, H. split; auto. split.
  { unfold pol_run. rewrite ER. cbn [bind List.length seq k_loop]. rewrite EC. cbn [bind]. rewrite Lw. cbn [ph_N light List.length]. rewrite ES. cbn [bind app]. reflexivity. }
  assert (EV : forall l, eigval 4 H l <-> exists i, (i < 4)%nat /\ l = stack4 1 1 (fun _ => RtoC 1) (fun _ => RtoC 2) (fun _ => - RtoC 1)%C (fun _ => - RtoC 2)%C i).
  { intros l. rewrite (eigval_meq _ _ _ l EM). apply diag_eigval. intros i j Hi Hj. apply (uncoupled 1 1); auto.
    - intros a b Ha Hb. unfold coupl. destruct b as [|b]; [|lia]. cbn [nth]. rewrite sqrt_0. ring.
    - intros a b Ha Hb. unfold diam. cbn [last]. unfold Rdiv. rewrite Rmult_0_l. ring.
    - intros a b Ha Hb. assert (a = 0%nat) by lia. assert (b = 0%nat) by lia. subst. unfold bare, diam, rsuml, RtoC, Cplus, Cmult, Cconj. cbn [nth Nat.eqb fold_right fst snd]. f_equal; field. }
  rewrite Lw. cbn [ph_N light List.length]. exists (RtoC 2). split; [apply EV; exists 1%nat; split; [lia|reflexivity]|]. split; [simpl; lra|].
  unfold r. cbn [kr_e]. assert (I1 : In (RtoC 1) (map fst ms)) by (apply HC; [apply EV; exists 0%nat; split; [lia|reflexivity]|simpl; lra]).
  apply In_nth with (d := RtoC 0) in I1. destruct I1 as (k & Hk & Ek). pose proof (HA 0%nat k ltac:(lia)) as Le. rewrite Ek in Le.
  destruct ms as [|m0 ms]; [simpl in Hk; lia|]. cbn [map nth firstn] in *. intros [E2|[]]. cbn [fst RtoC] in E2. unfold cle in Le. destruct m0 as [[m1 m2] mv]. cbn [fst snd RtoC] in *. lra.
Qed.
End Dropped.

(** ** a photonic mode multiplied by i *)
Section Phase.
Variables (argsort : list R -> list nat) (eigh : nat -> cmat -> list R * cmat).
Hypothesis Hs : sorts argsort.
Hypothesis He : diagonalises eigh.
Variable L : lattice.
Hypothesis HL : lattice_init (LatName "square") = Ok L.
Section Mat.
Variable u : C.
Hypothesis Hu : (Cconj u * u = RtoC 1)%C.
Definition hop3 (x2 : C) : cmat := hopfield 2 1 (bare 2 [1; 1] [1] [RtoC 1; x2]) (coupl [1] [RtoC 1; x2] [u]) (diam 2 1 [RtoC 1; x2]) (fun _ => RtoC 2).
Lemma dark_mode : eigval 6 (hop3 (RtoC 1)) (RtoC 1).
Proof.
  exists (stack4 2 1 (fun i => if Nat.eqb i 0 then RtoC 1 else RtoC (- 1)) (fun _ => RtoC 0) (fun _ => RtoC 0) (fun _ => RtoC 0)). set (v := stack4 _ _ _ _ _ _). split; [exists 0%nat; split; [lia|]; unfold v, stack4; cbn; apply RtoC_neq0; lra|].
  assert (V0 : v 0%nat = RtoC 1) by reflexivity. assert (V0' : v 1%nat = (- RtoC 1)%C) by (apply Ceq; simpl; lra). assert (V1 : part1 2 v 0%nat = RtoC 0) by reflexivity.
  assert (V2 : part2 2 1 v 0%nat = RtoC 0) by reflexivity. assert (V2' : part2 2 1 v 1%nat = RtoC 0) by reflexivity. assert (V3 : part3 2 1 v 0%nat = RtoC 0) by reflexivity.
  assert (NX : forall i, (i < 2)%nat -> nth i [RtoC 1; RtoC 1] (RtoC 0) = RtoC 1) by (intros [|[|i]]; [auto|auto|lia]).
  change 6%nat with (2 * (2 + 1))%nat. unfold hop3. apply (split4 2 1); intros i Hi.
  - rewrite row0 by lia. unfold mvec. rewrite !csum1, !csum2, V0, V0', V1, V2, V2', V3. unfold bare, diam. rewrite !NX by lia.
    destruct i as [|[|i]]; [| |lia]; cbn [Nat.eqb nth]; rewrite ?V0, ?V0'; unfold rsuml, RtoC, Cminus, Cplus, Cmult, Copp, Cconj, Ci; cbn [fold_right fst snd]; f_equal; field.
  - assert (i = 0%nat) by lia. subst i. rewrite row1 by lia. change (v (2 + 0)%nat) with (part1 2 v 0%nat). unfold adjv. rewrite !csum2, V0, V0', V1, V2, V2'. unfold coupl. rewrite !NX by lia. ring.
  - rewrite row2 by lia. unfold mvec. rewrite !csum1, !csum2, V0, V0', V1, V2, V2', V3. unfold bare, diam. rewrite !NX by lia.
    replace (v (2 + 1 + i)%nat) with (RtoC 0) by (destruct i as [|[|i]]; [auto|auto|lia]). ring.
  - assert (i = 0%nat) by lia. subst i. rewrite row3 by lia. change (v (2 + 1 + 2 + 0)%nat) with (part3 2 1 v 0%nat). unfold adjv. rewrite !csum2, V0, V0', V3, V2, V2'. unfold coupl. rewrite !NX by lia. ring.
Qed.
Lemma no_dark_mode : ~ eigval 6 (hop3 Ci) (RtoC 1).
Proof.
  intros (v & (k & Hk & Hn) & HM). change 6%nat with (2 * (2 + 1))%nat in HM. apply Hn. clear Hn. unfold hop3 in HM.
  pose proof (HM 0%nat ltac:(lia)) as E0. pose proof (HM 1%nat ltac:(lia)) as E1. pose proof (HM (2 + 0)%nat ltac:(lia)) as E2. pose proof (HM (2 + 1 + 0)%nat ltac:(lia)) as E3.
  pose proof (HM (2 + 1 + 1)%nat ltac:(lia)) as E4. pose proof (HM (2 + 1 + 2 + 0)%nat ltac:(lia)) as E5. clear HM.
  rewrite row0 in E0, E1 by lia. rewrite row1 in E2 by lia. rewrite row2 in E3, E4 by lia. rewrite row3 in E5 by lia.
  unfold mvec, adjv in *. rewrite ?csum1, ?csum2 in E0, E1, E2, E3, E4, E5. unfold part1, part2, part3 in *. cbn [plus] in *. rewrite ?csum1, ?csum2 in *.
  cbn [plus] in *.
  assert (C0 : coupl [1] [RtoC 1; Ci] [u] 0%nat 0%nat = Cconj u) by (unfold coupl; cbn [nth]; rewrite sqrt_1; ring).
  assert (C1 : coupl [1] [RtoC 1; Ci] [u] 1%nat 0%nat = (Ci * Cconj u)%C) by (unfold coupl; cbn [nth]; rewrite sqrt_1; ring).
  rewrite C0, C1 in *. rewrite Cconj_mult, !Cconj_conj in E2, E5.
  assert (KU : Cconj u <> RtoC 0) by (intros Z; rewrite Z in Hu; apply (f_equal fst) in Hu; simpl in Hu; lra).
  (* multiply the exciton rows by conj u *)
  apply (f_equal (Cmult (Cconj u))) in E2, E5.
  set (b := (Cconj u * v 2%nat)%C). set (d := (Cconj u * v 5%nat)%C).
  assert (F2 : (Ci * (v 0%nat + Cconj Ci * v 1%nat) + RtoC 2 * b - Ci * (v 3%nat + Cconj Ci * v 4%nat) = b)%C).
  { transitivity (Cconj u * (RtoC 1 * v 2%nat))%C; [rewrite <- E2|unfold b; ring]. unfold b.
    transitivity ((Cconj u * u) * (Ci * (v 0%nat + Cconj Ci * v 1%nat)) + RtoC 2 * (Cconj u * v 2%nat) - (Cconj u * u) * (Ci * (v 3%nat + Cconj Ci * v 4%nat)))%C; [rewrite Hu; ring|ring]. }
  assert (F5 : (- Ci * (v 0%nat + Cconj Ci * v 1%nat) + Ci * (v 3%nat + Cconj Ci * v 4%nat) - RtoC 2 * d = d)%C).
  { transitivity (Cconj u * (RtoC 1 * v 5%nat))%C; [rewrite <- E5|unfold d; ring]. unfold d.
    transitivity (- (Cconj u * u) * (Ci * (v 0%nat + Cconj Ci * v 1%nat)) + (Cconj u * u) * (Ci * (v 3%nat + Cconj Ci * v 4%nat)) - RtoC 2 * (Cconj u * v 5%nat))%C; [rewrite Hu; ring|ring]. }
  replace (Cconj u * v 2%nat)%C with b in * by reflexivity. replace (Cconj u * v 5%nat)%C with d in * by reflexivity.
  replace (Ci * Cconj u * v 2%nat)%C with (Ci * b)%C in * by (unfold b; ring). replace (Ci * Cconj u * v 5%nat)%C with (Ci * d)%C in * by (unfold d; ring).
  assert (Zb : forall z, (Cconj u * z = RtoC 0)%C -> z = RtoC 0) by (intros z Hz; apply (c_cancel (Cconj u)); auto; rewrite Hz; ring).
  assert (AL : v 0%nat = RtoC 0 /\ v 1%nat = RtoC 0 /\ b = RtoC 0 /\ v 3%nat = RtoC 0 /\ v 4%nat = RtoC 0 /\ d = RtoC 0).
  { clearbody b d. clear -E0 E1 E3 E4 F2 F5. unfold bare, diam in *. cbn [nth] in *.
    destruct (v 0%nat) as [a1 a1']. destruct (v 1%nat) as [a2 a2']. destruct (v 3%nat) as [c1 c1']. destruct (v 4%nat) as [c2 c2']. destruct b as [b b']. destruct d as [d d'].
    unfold rsuml, RtoC, Cminus, Cplus, Cmult, Copp, Cconj, Ci in *. cbn [fold_right fst snd Nat.eqb] in *.
    injection E0 as E0 E0'. injection E1 as E1 E1'. injection E3 as E3 E3'. injection E4 as E4 E4'. injection F2 as F2 F2'. injection F5 as F5 F5'.
    assert (a1 = 0 /\ a1' = 0 /\ a2 = 0 /\ a2' = 0 /\ b = 0 /\ b' = 0 /\ c1 = 0 /\ c1' = 0 /\ c2 = 0 /\ c2' = 0 /\ d = 0 /\ d' = 0) by (repeat split; lra).
    intuition (subst; reflexivity). }
  destruct AL as (A0 & A1 & A2 & A3 & A4 & A5). destruct k as [|[|[|[|[|[|k]]]]]]; auto; lia.
Qed.
End Mat.
Lemma phase_matters : exists P q p p' th ws H H', pol_init 0 P 0 "tbt" = Some (Ok q) /\ run_wells argsort eigh (po_exc q) [(0, 0)] 1 = (ws, Ok tt) /\ List.length ws = 1%nat /\ filled 1 0 ws /\
  same_light 0 th p p' /\ (forall n, Cmod (th n) = 1) /\ construct (po_a q) p 1 ws 0 = Ok H /\ construct (po_a q) p' 1 ws 0 = Ok H' /\
  exists l, eigval (2 * (ph_N p + 1)) H l /\ ~ eigval (2 * (ph_N p + 1)) H' l.
Proof.
  destruct (toy_init L 2 HL 1 []) as (ws0 & EI & F0). destruct (toy_runs L 2 HL argsort eigh Hs He _ _ F0) as (ws & ER & F).
  destruct (toy_matrix 2 [1; 1] [RtoC 1; RtoC 1] ltac:(lra) eq_refl [1] ws F ltac:(discriminate) ltac:(intros o [<-|[]]; lra)) as (us & H & L1 & U1 & EC & Lw & EM).
  destruct (toy_matrix 2 [1; 1] [RtoC 1; Ci] ltac:(lra) eq_refl [1] ws F ltac:(discriminate) ltac:(intros o [<-|[]]; lra)) as (us' & H' & L1' & U1' & EC' & _ & EM').
  exists (toy_phc L 2 [1]), (Pol ws0 1), (light [1; 1] [RtoC 1; RtoC 1]), (light [1; 1] [RtoC 1; Ci]), (fun n => if Nat.eqb n 1 then Ci else RtoC 1), ws, H, H'. cbn [po_exc po_a].
  split; [exact EI|]. split; [exact ER|]. split; [exact Lw|]. split; [apply (toy_filled 2 [1]); auto|]. split.
  { split; [reflexivity|]. split; [reflexivity|]. split; [reflexivity|]. intros n z E EE. cbn [ph_E light] in *. injection EE as <-. eexists. split; [reflexivity|]. intros g. cbn [fst snd].
    split; [|split; ring]. destruct n as [|[|n]]; cbn [nth Nat.eqb]; unfold Cdiv; try ring. }
  split. { intros n. destruct (Nat.eqb n 1); [unfold Cmod, Ci; cbn [fst snd]; transitivity (sqrt 1); [f_equal; ring|apply sqrt_1]|rewrite Cmod_R; apply Rabs_R1]. }
  split; [exact EC|]. split; [exact EC'|]. exists (RtoC 1). cbn [ph_N light List.length] in *.
  destruct us as [|u [|]]; [discriminate| |discriminate]. destruct us' as [|u' [|]]; [discriminate| |discriminate]. split.
  - apply (eigval_meq _ _ _ _ EM). apply dark_mode.
  - intros E. apply (eigval_meq _ _ _ _ EM') in E. apply (no_dark_mode u'); auto. rewrite mod2, (U1' u' (or_introl eq_refl)). f_equal. ring.
Qed.
End Phase.

(** ** two oscillators, from the code *)
Lemma two_oscillators a p ws kind H f fi : construct a p 1 ws kind = Ok H -> ph_N p = 1%nat -> List.length ws = 1%nat -> filled 1 kind ws ->
  SymModel.get (ph_freqs p) kind = Ok f -> SymModel.get (ph_ims p) kind = Ok fi -> nth 0 fi 0 = 0 -> nth 0 f 0 <> 0 ->
  let w := conversion a * nth 0 f 0 in let E := fst (exciton_of 1 H 0) in let g := Cmod (coupling_of 1 H 0 0) ^ 2 in
  snd (exciton_of 1 H 0) = 0 -> E <> 0 ->
  forall l, eigval 4 H l <-> (l * l * (l * l) - RtoC (w ^ 2 + E ^ 2 + 4 * w * g / E) * (l * l) + RtoC (w ^ 2 * E ^ 2) = RtoC 0)%C.
Proof.
  intros HC HN Hl HF Gf Gfi Fi0 F0 w E g HX HE l. pose proof (dia_sum a p 1 ws kind H HC) as DS.
  destruct (construct_inv _ _ _ _ _ _ HC) as (f' & fi' & cds & ens & Ha & Gf' & Gfi' & Ec & Hne & Ee & EH).
  rewrite Gf in Gf'. injection Gf' as <-. rewrite Gfi in Gfi'. injection Gfi' as <-. specialize (DS f fi cds ens Ec Ee HF EH). rewrite HN, Hl in *. change (1 * 1)%nat with 1%nat in *.
  assert (EX : exciton_of 1 H 0 = RtoC E) by (apply Ceq; auto).
  assert (G2 : (Cconj (coupling_of 1 H 0 0) * coupling_of 1 H 0 0 = RtoC g)%C) by apply mod2.
  assert (DI : dia_of 1 1 H 0 0 = RtoC (g / E)).
  { unfold dia_of. rewrite csum1, G2, EX. cbn [fst RtoC]. rewrite <- RtoC_div by auto. reflexivity. }
  rewrite <- (DS 0%nat 0%nat ltac:(lia) ltac:(lia)) in DI. pose proof (mapM_ok_length _ _ _ Ec) as Lc. rewrite Hl in Lc.
  pose proof (conv_pos a Ha) as CP.
  change (l * l * (l * l) - RtoC (w ^ 2 + E ^ 2 + 4 * w * g / E) * (l * l) + RtoC (w ^ 2 * E ^ 2))%C with (biquad w E g l). clear DS.
  set (A := phot_block _ _ _ _) in *. set (c := hcat _ _) in *. set (d := last _ _) in *. set (e := fun j => nth j _ _) in *.
  assert (Cc : coupling_of 1 H 0 0 = c 0%nat 0%nat) by (rewrite EH; apply read_coupling; lia). assert (Ce : exciton_of 1 H 0 = e 0%nat) by (rewrite EH; apply read_exciton; lia).
  rewrite EH. apply two_osc.
  - unfold w. apply Rmult_integral_contrapositive. split; [lra|auto].
  - exact HE.
  - unfold A, phot_block. cbn [Nat.eqb]. rewrite DI, Fi0. unfold w, RtoC, Cplus, Cmult. cbn [fst snd]. f_equal; field; auto.
  - unfold d. destruct cds as [|cd [|]]; [discriminate| |discriminate]. cbn [map last fold_left] in *. rewrite <- DI. unfold mplus, mzero. ring.
  - rewrite <- Ce. exact EX.
  - rewrite <- Cc. exact G2.
Qed.

(** ** errors *)
Lemma no_wells fuel P gmax tr : pc_qws P = [] -> pol_init fuel P gmax tr = Some (Raise ValueError).
Proof. intros H. unfold pol_init. rewrite H. reflexivity. Qed.
Lemma unequal_a fuel P gmax tr ws : init_wells fuel P gmax tr (pc_qws P) = Some (Ok ws) -> (exists s, In s ws /\ 1 / 10 ^ 15 <= Rabs (ex_a s - nth 0 (map ex_a ws) 0)) ->
  pol_init fuel P gmax tr = Some (Raise ValueError).
Proof.
  intros E (s & Hin & Hd). unfold pol_init. destruct (pc_qws P); [reflexivity|]. rewrite E. cbn [bind].
  destruct (forallb _ ws) eqn:EF; auto. rewrite forallb_forall in EF. specialize (EF s Hin). apply Rltb_true in EF. lra.
Qed.
Lemma empty_k eig cargsort argsort eigh gme_run o m : (exists p, gme_run [] = Ok p) ->
  snd (pol_run eig cargsort argsort eigh gme_run o [] m) = Raise UnboundLocalError.
Proof.
  intros (p & Ep). unfold pol_run. rewrite Ep. destruct (po_exc o) as [|s t]; [reflexivity|].
  cbn [run_wells]. destruct (exc_run argsort eigh s [] m) as [s' r] eqn:E.
  pose proof (proj1 (exc_no_k argsort eigh s m)) as N. cbv zeta in N. rewrite E in N. cbn [snd] in N. subst r. reflexivity.
Qed.
Lemma wells_stop argsort eigh ks m e s s' post : exc_run argsort eigh s ks m = (s', Raise e) -> forall pre,
  (forall w, In w pre -> exists u, snd (exc_run argsort eigh w ks m) = Ok u) ->
  run_wells argsort eigh (pre ++ s :: post) ks m = (map (fun w => fst (exc_run argsort eigh w ks m)) pre ++ s' :: post, Raise e).
Proof.
  intros E. induction pre as [|w pre IH]; intros H.
  - cbn [app run_wells map]. rewrite E. reflexivity.
  - cbn [app run_wells map]. destruct (H w (or_introl eq_refl)) as [u Eu]. destruct (exc_run argsort eigh w ks m) as [w' r] eqn:Ew.
    cbn [snd] in Eu. subst r. rewrite IH by (intros x Hx; apply H; right; exact Hx). reflexivity.
Qed.
Lemma run_stops eig cargsort argsort eigh gme_run o ks m e pre s s' post : po_exc o = pre ++ s :: post ->
  (exists p, gme_run ks = Ok p) -> exc_run argsort eigh s ks m = (s', Raise e) ->
  (forall w, In w pre -> exists u, snd (exc_run argsort eigh w ks m) = Ok u) ->
  pol_run eig cargsort argsort eigh gme_run o ks m = (map (fun w => fst (exc_run argsort eigh w ks m)) pre ++ s' :: post, Raise e).
Proof.
  intros Ho [p Ep] E H. unfold pol_run. rewrite Ep, Ho, (wells_stop argsort eigh ks m e s s' post E pre H). reflexivity.
Qed.
