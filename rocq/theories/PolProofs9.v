(** Counterexamples. *)
From Coq Require Import Permutation List.
From Verif Require Import Py CBase LatticeModel PhcModel RecipModel MatElModel SymModel SymSpec FieldsModel RunModel RunSpec RunProofs RunProofs3 PweModel ExcModel PolSpec PolModel PolSpec2 PolProofs PolProofs2 PolProofs3 PolProofs4 PolProofs5 PolProofs6 PolProofs7 PolProofs8.
Open Scope R_scope.
Open Scope list_scope.

Lemma dia_meq N K H H' n1 n2 : meq (2 * (N + K)) (2 * (N + K)) H H' -> (n1 < N)%nat -> (n2 < N)%nat -> dia_of N K H n1 n2 = dia_of N K H' n1 n2.
Proof.
  intros E H1 H2. unfold dia_of, coupling_of, exciton_of. apply csum_ext. intros j Hj. rewrite !E by lia. reflexivity.
Qed.
Lemma csum2 f : csum 2 f = (f 0%nat + f 1%nat)%C.
Proof. cbn [csum]. ring. Qed.
Lemma nth_unit us j : (forall u, In u us -> Cmod u = 1) -> (j < List.length us)%nat -> (Cconj (nth j us (RtoC 0)) * nth j us (RtoC 0) = RtoC 1)%C.
Proof. intros HU Hj. rewrite mod2, HU by (apply nth_In; auto). f_equal. ring. Qed.

Section Examples.
Variables (argsort : list R -> list nat) (eigh : nat -> cmat -> list R * cmat).
Hypothesis Hs : sorts argsort.
Hypothesis He : diagonalises eigh.
Variable L : lattice.
Hypothesis HL : lattice_init (LatName "square") = Ok L.

Lemma toy_system E0 w x os o1 : E0 <> 0 -> List.length w = List.length x -> (forall o, In o (o1 :: os) -> 0 <= o) -> exists q ws us H,
  pol_init 0 (toy_phc L E0 (o1 :: os)) 0 "tbt" = Some (Ok q) /\ po_a q = 1 /\ run_wells argsort eigh (po_exc q) [(0, 0)] 1 = (ws, Ok tt) /\
  List.length ws = S (List.length os) /\ Forall2 (ready E0) (o1 :: os) ws /\ List.length us = S (List.length os) /\ (forall u, In u us -> Cmod u = 1) /\
  construct (po_a q) (light w x) 1 ws 0 = Ok H /\
  let n := (2 * (List.length x + S (List.length os)))%nat in
  meq n n H (hopfield (List.length x) (S (List.length os)) (bare E0 w (o1 :: os) x) (coupl (o1 :: os) x us) (diam E0 (last (o1 :: os) 0) x) (fun _ => RtoC E0)).
Proof.
  intros HE Hwx Hp. destruct (toy_init L E0 HL o1 os) as (ws0 & EI & F0). destruct (toy_runs L E0 HL argsort eigh Hs He _ _ F0) as (ws & ER & F).
  destruct (toy_matrix E0 w x HE Hwx (o1 :: os) ws F ltac:(discriminate) Hp) as (us & H & L1 & U1 & EC & L2 & EM). exists (Pol ws0 1), ws, us, H. cbn [po_a po_exc].
  repeat (split; [solve [auto]|]). exact EM.
Qed.
Lemma toy_filled E0 os ws : Forall2 (ready E0) os ws -> filled 1 0 ws.
Proof.
  intros F s Hin. induction F as [|o s' os ws (_ & _ & HN & _) F IH]; [destruct Hin|]. destruct Hin as [<-|Hin]; auto.
  exists [[(E0, 0)]], [(E0, 0)]. auto.
Qed.

(** ** two wells, the second one dark *)
Definition bright : R := 25 / 16.
Lemma sqrt_bright : sqrt bright = 5 / 4.
Proof. unfold bright. replace (25 / 16) with ((5 / 4) * (5 / 4)) by field. apply sqrt_square. lra. Qed.
Section Two.
Variables (us : list C) (H : cmat).
Hypothesis Lu : List.length us = 2%nat.
Hypothesis Hu : forall u, In u us -> Cmod u = 1.
Definition hop2 (o1 o2 : R) : cmat := hopfield 1 2 (bare 2 [7 / 16] [o1; o2] [RtoC 1]) (coupl [o1; o2] [RtoC 1] us) (diam 2 o2 [RtoC 1]) (fun _ => RtoC 2).
Lemma dia2 o1 o2 : 0 <= o1 -> 0 <= o2 -> dia_of 1 2 (hop2 o1 o2) 0 0 = RtoC ((o1 + o2) / 2).
Proof.
  intros H1 H2. unfold hop2. rewrite read_dia by lia. rewrite csum2. unfold coupl. cbn [nth fst RtoC].
  pose proof (nth_unit us 0%nat Hu ltac:(lia)) as U0. pose proof (nth_unit us 1%nat Hu ltac:(lia)) as U1. unfold Cdiv. rewrite <- RtoC_inv by lra.
  transitivity (RtoC (sqrt o1) * RtoC (sqrt o1) * RtoC (/ 2) * (Cconj (nth 0 us (RtoC 0)) * nth 0 us (RtoC 0)) + RtoC (sqrt o2) * RtoC (sqrt o2) * RtoC (/ 2) * (Cconj (nth 1 us (RtoC 0)) * nth 1 us (RtoC 0)))%C.
  - rewrite !Cconj_mult, !Cconj_conj, !Cconj_R. ring.
  - rewrite U0, U1, <- !RtoC_mult, !sqrt_sqrt, <- RtoC_plus by auto. f_equal. field.
Qed.
Definition ka : C := (2/4, 1/4).
Definition kb : C := (1/4, - (2/4)).
Definition kc : C := (- (2/4), 1/4).
Definition kd : C := (- (1/4), - (2/4)).
(** the bright well first: an imaginary energy *)
Lemma imaginary : eigval 6 (hop2 bright 0) Ci.
Proof.
  pose proof (nth_unit us 0%nat Hu ltac:(lia)) as U0. set (u := nth 0 us (RtoC 0)) in *.
  exists (stack4 1 2 (fun _ => ka) (fun j => if Nat.eqb j 0 then (u * kb)%C else RtoC 0) (fun _ => kc) (fun j => if Nat.eqb j 0 then (u * kd)%C else RtoC 0)).
  set (v := stack4 _ _ _ _ _ _). split; [exists 0%nat; split; [lia|]; unfold v, stack4; cbn; intros Z; injection Z; lra|].
  assert (V0 : v 0%nat = ka) by reflexivity. assert (V1 : part1 1 v 0%nat = (u * kb)%C) by reflexivity. assert (V1' : part1 1 v 1%nat = RtoC 0) by reflexivity.
  assert (V2 : part2 1 2 v 0%nat = kc) by reflexivity. assert (V3 : part3 1 2 v 0%nat = (u * kd)%C) by reflexivity. assert (V3' : part3 1 2 v 1%nat = RtoC 0) by reflexivity.
  assert (C0 : coupl [bright; 0] [RtoC 1] us 0%nat 0%nat = (RtoC (5/4) * Cconj u)%C) by (unfold coupl; cbn [nth]; rewrite sqrt_bright; fold u; ring).
  assert (C1 : coupl [bright; 0] [RtoC 1] us 0%nat 1%nat = RtoC 0) by (unfold coupl; cbn [nth]; rewrite sqrt_0; ring).
  assert (D0 : diam 2 0 [RtoC 1] 0%nat 0%nat = RtoC 0) by (unfold diam, Rdiv; rewrite Rmult_0_l; ring).
  assert (A0 : bare 2 [7/16] [bright; 0] [RtoC 1] 0%nat 0%nat = RtoC 2).
  { unfold bare, diam, bright, rsuml. cbn [nth Nat.eqb fold_right]. rewrite Cconj_R. unfold RtoC. apply Ceq; cbn [fst snd Cplus Cmult]; field. }
  change 6%nat with (2 * (1 + 2))%nat. unfold hop2. apply (split4 1 2); intros i Hi.
  - assert (i = 0%nat) by lia. subst i. rewrite row0 by lia. unfold mvec. rewrite !csum1, !csum2, A0, C0, C1, D0, V0, V1, V1', V2, V3, V3'.
    transitivity (RtoC 2 * ka - Ci * (RtoC (5/4) * kb * (Cconj u * u)) - Ci * (RtoC (5/4) * kd * (Cconj u * u)))%C; [ring|]. rewrite U0. apply Ceq; simpl; field.
  - rewrite row1 by lia. unfold adjv. rewrite !csum1. change (v (1 + i)%nat) with (part1 1 v i). destruct i as [|[|i]]; [| |lia].
    + rewrite C0, V0, V1, V2. rewrite Cconj_mult, Cconj_conj, Cconj_R. transitivity (u * (Ci * (RtoC (5/4) * ka) + RtoC 2 * kb - Ci * (RtoC (5/4) * kc)))%C; [ring|].
      transitivity (u * (Ci * kb))%C; [|ring]. f_equal. apply Ceq; simpl; field.
    + rewrite C1, V1', Cconj_R. ring.
  - assert (i = 0%nat) by lia. subst i. rewrite row2 by lia. change (v (1 + 2 + 0)%nat) with (part2 1 2 v 0%nat). unfold mvec. rewrite !csum1, !csum2, A0, C0, C1, D0, V0, V1, V1', V2, V3, V3'.
    transitivity (- (RtoC 2 * kc) - Ci * (RtoC (5/4) * kb * (Cconj u * u)) - Ci * (RtoC (5/4) * kd * (Cconj u * u)))%C; [ring|]. rewrite U0. apply Ceq; simpl; field.
  - rewrite row3 by lia. unfold adjv. rewrite !csum1. change (v (1 + 2 + 1 + i)%nat) with (part3 1 2 v i). destruct i as [|[|i]]; [| |lia].
    + rewrite C0, V0, V3, V2. rewrite Cconj_mult, Cconj_conj, Cconj_R. transitivity (u * (- Ci * (RtoC (5/4) * ka) - RtoC 2 * kd + Ci * (RtoC (5/4) * kc)))%C; [ring|].
      transitivity (u * (Ci * kd))%C; [|ring]. f_equal. apply Ceq; simpl; field.
    + rewrite C1, V3', Cconj_R. ring.
Qed.
(** the bright well last: all energies are real *)
Lemma not_imaginary : ~ eigval 6 (hop2 0 bright) Ci.
Proof.
  intros [v Hv]. change 6%nat with (2 * (1 + 2))%nat in Hv. unfold hop2 in Hv.
  assert (HB : 0 <= bright) by (unfold bright; lra).
  assert (DD : dD 2 (coupl [0; bright] [RtoC 1] us) (fun _ => 2) 0%nat 0%nat = RtoC ((0 + bright) / 2)).
  { rewrite <- (dia2 0 bright ltac:(lra) HB). unfold hop2. rewrite read_dia by lia. reflexivity. }
  assert (R0 : snd Ci = 0 /\ fst Ci <> 0); [|simpl in R0; lra].
  apply (real_energy 1 2 (fun _ => 7 / 16) (coupl [0; bright] [RtoC 1] us) (fun _ => 2)) with (7 := Hv).
  - intros; lra.
  - intros; lra.
  - intros n1 n2 H1 H2. assert (n1 = 0%nat) by lia. assert (n2 = 0%nat) by lia. subst. rewrite DD. reflexivity.
  - intros i j Hi Hj. assert (i = 0%nat) by lia. assert (j = 0%nat) by lia. subst. rewrite DD. unfold bare, diam, rsuml, RtoC, Cplus, Cmult, Cconj. cbn [nth Nat.eqb fold_right fst snd]. f_equal; field.
  - intros i j Hi Hj. assert (i = 0%nat) by lia. assert (j = 0%nat) by lia. subst. rewrite DD. unfold diam, RtoC, Cmult, Cconj. cbn [nth fst snd]. f_equal; field.
  - reflexivity.
Qed.
End Two.

(** the claims, refuted *)
Lemma dia_missing : exists P q p ws H, pol_init 0 P 0 "tbt" = Some (Ok q) /\ run_wells argsort eigh (po_exc q) [(0, 0)] 1 = (ws, Ok tt) /\ construct (po_a q) p 1 ws 0 = Ok H /\
  List.length ws = 2%nat /\ filled 1 0 ws /\
  exists n1 n2, (n1 < ph_N p)%nat /\ (n2 < ph_N p)%nat /\ H n1 (ph_N p + 2 + n2)%nat <> (- RtoC 2 * dia_of (ph_N p) 2 H n1 n2)%C.
Proof.
  destruct (toy_system 2 [7 / 16] [RtoC 1] [0] bright ltac:(lra) eq_refl) as (q & ws & us & H & EI & _ & ER & Lw & F & Lu & HU & EC & EM).
  { intros o [<-|[<-|[]]]; unfold bright; lra. }
  exists (toy_phc L 2 [bright; 0]), q, (light [7 / 16] [RtoC 1]), ws, H. repeat (split; [solve [auto | apply (toy_filled 2 [bright; 0]); auto]|]).
  exists 0%nat, 0%nat. cbn [ph_N light List.length]. split; [lia|]. split; [lia|]. cbn [List.length] in EM.
  rewrite (dia_meq 1 2 H (hop2 us bright 0) 0 0 EM ltac:(lia) ltac:(lia)). rewrite (dia2 us Lu HU) by (unfold bright; lra).
  rewrite (EM 0%nat (1 + 2 + 0)%nat ltac:(simpl; lia) ltac:(simpl; lia)). rewrite read_02 by lia.
  intros Z. apply (f_equal fst) in Z. revert Z. unfold diam, bright. cbn [last nth]. unfold RtoC, Cmult, Cconj, Copp. cbn [fst snd]. lra.
Qed.
Lemma order_matters : exists P P' q q' p ws ws' H H' q1 q2, pc_qws P = [q1; q2] /\ pc_qws P' = [q2; q1] /\ pc_lattice P = pc_lattice P' /\ pc_layers P = pc_layers P' /\
  pol_init 0 P 0 "tbt" = Some (Ok q) /\ run_wells argsort eigh (po_exc q) [(0, 0)] 1 = (ws, Ok tt) /\ construct (po_a q) p 1 ws 0 = Ok H /\
  pol_init 0 P' 0 "tbt" = Some (Ok q') /\ run_wells argsort eigh (po_exc q') [(0, 0)] 1 = (ws', Ok tt) /\ construct (po_a q') p 1 ws' 0 = Ok H' /\
  exists l, eigval (2 * (ph_N p + 2)) H l /\ ~ eigval (2 * (ph_N p + 2)) H' l.
Proof.
  destruct (toy_system 2 [7 / 16] [RtoC 1] [0] bright ltac:(lra) eq_refl) as (q & ws & us & H & EI & _ & ER & Lw & F & Lu & HU & EC & EM).
  { intros o [<-|[<-|[]]]; unfold bright; lra. }
  destruct (toy_system 2 [7 / 16] [RtoC 1] [bright] 0 ltac:(lra) eq_refl) as (q' & ws' & us' & H' & EI' & _ & ER' & Lw' & F' & Lu' & HU' & EC' & EM').
  { intros o [<-|[<-|[]]]; unfold bright; lra. }
  exists (toy_phc L 2 [bright; 0]), (toy_phc L 2 [0; bright]), q, q', (light [7 / 16] [RtoC 1]), ws, ws', H, H', (toy_qw 2 bright), (toy_qw 2 0).
  rewrite !toy_form. split; [reflexivity|]. split; [reflexivity|]. split; [reflexivity|]. split; [reflexivity|]. rewrite <- !toy_form.
  repeat (split; [solve [auto]|]). exists Ci. cbn [ph_N light List.length]. cbn [List.length] in EM, EM'. split.
  - apply (eigval_meq _ _ _ _ EM). apply (imaginary us Lu HU).
  - intros E. apply (eigval_meq _ _ _ _ EM') in E. apply (not_imaginary us' Lu' HU' E).
Qed.
Lemma complex_energy : exists P q p ws H f fi, pol_init 0 P 0 "tbt" = Some (Ok q) /\ run_wells argsort eigh (po_exc q) [(0, 0)] 1 = (ws, Ok tt) /\ construct (po_a q) p 1 ws 0 = Ok H /\
  let K := List.length ws in filled 1 0 ws /\ SymModel.get (ph_freqs p) 0 = Ok f /\ SymModel.get (ph_ims p) 0 = Ok fi /\
  (forall n, (n < ph_N p)%nat -> 0 < nth n f 0 /\ nth n fi 0 = 0) /\
  (forall j, (j < K)%nat -> 0 < fst (exciton_of (ph_N p) H j) /\ snd (exciton_of (ph_N p) H j) = 0) /\
  (forall n1 n2, (n1 < ph_N p)%nat -> (n2 < ph_N p)%nat -> snd (dia_of (ph_N p) K H n1 n2) = 0) /\
  exists l, eigval (2 * (ph_N p + K)) H l /\ snd l <> 0.
Proof.
  destruct (toy_system 2 [7 / 16] [RtoC 1] [0] bright ltac:(lra) eq_refl) as (q & ws & us & H & EI & _ & ER & Lw & F & Lu & HU & EC & EM).
  { intros o [<-|[<-|[]]]; unfold bright; lra. }
  exists (toy_phc L 2 [bright; 0]), q, (light [7 / 16] [RtoC 1]), ws, H, [7 / 16 / conversion 1], [0].
  split; [exact EI|]. split; [exact ER|]. split; [exact EC|]. cbv zeta. split; [apply (toy_filled 2 [bright; 0]); auto|]. split; [reflexivity|]. split; [reflexivity|].
  cbn [List.length] in EM, Lw. rewrite Lw. cbn [ph_N light List.length]. split.
  { intros n Hn. assert (n = 0%nat) by lia. subst. cbn [nth]. split; auto. apply Rdiv_lt_0_compat; [lra|apply conv_pos; lra]. } split.
  { intros j Hj. unfold exciton_of. rewrite EM by lia. change (hopfield 1 2 _ _ _ _ (1 + j)%nat (1 + j)%nat) with (exciton_of 1 (hop2 us bright 0) j). unfold hop2. rewrite read_exciton by auto. cbn [fst snd RtoC]. lra. } split.
  { intros n1 n2 H1 H2. assert (n1 = 0%nat) by lia. assert (n2 = 0%nat) by lia. subst. rewrite (dia_meq 1 2 H (hop2 us bright 0) 0 0 EM) by lia. rewrite (dia2 us Lu HU) by (unfold bright; lra). reflexivity. }
  exists Ci. split; [apply (eigval_meq _ _ _ _ EM), (imaginary us Lu HU)|simpl; lra].
Qed.
End Examples.
