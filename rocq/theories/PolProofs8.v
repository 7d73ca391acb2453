(** The examples: photonic modes with given amplitudes in wells without shapes. *)
From Coq Require Import Permutation List.
From Verif Require Import Py CBase LatticeModel PhcModel RecipModel MatElModel SymModel SymSpec FieldsModel RunModel RunSpec RunProofs RunProofs3 PweModel ExcModel PolSpec PolModel PolSpec2 PolProofs PolProofs2 PolProofs3 PolProofs4 PolProofs5 PolProofs6 PolProofs7.
Open Scope R_scope.
Open Scope list_scope.

Lemma conv_pos a : 0 < a -> 0 < conversion a.
Proof. intros Ha. unfold conversion, h_eV_Hz, c_light. apply Rdiv_lt_0_compat; auto. apply Rmult_lt_0_compat; lra. Qed.
Lemma pref_neq : pref 1 <> RtoC 0.
Proof.
  unfold pref. apply Cmult_neq_0; [intros Z; apply Ci_neq0; transitivity (- - Ci)%C; [ring|rewrite Z; ring]|]. apply RtoC_neq0.
  rewrite sqrt_1. assert (Q : 0 < qe) by (unfold qe; lra).
  assert (0 < sqrt (hbar ^ 2 * qe ^ 2 / (4 * m_e * epsilon_0))).
  { apply sqrt_lt_R0. apply Rdiv_lt_0_compat.
    - apply Rmult_lt_0_compat; apply pow_lt; auto. unfold hbar. lra.
    - unfold m_e, epsilon_0. apply Rmult_lt_0_compat; [|lra]. apply Rmult_lt_0_compat; lra. }
  assert (0 < sqrt (hbar ^ 2 * qe ^ 2 / (4 * m_e * epsilon_0)) / qe / 1); [|lra]. apply Rdiv_lt_0_compat; [apply Rdiv_lt_0_compat; auto|lra].
Qed.
(** photonic modes of energies [w] whose field in a well is [x] *)
Definition light (w : list R) (x : list C) : phot :=
  Phot (List.length x) [map (fun e => e / conversion 1) w] [map (fun _ => 0) w]
    (fun _ n _ => Ok (fun _ => nth n x (RtoC 0) / pref 1, fun _ => RtoC 0, fun _ => RtoC 0)%C).
Definition coupl (os : list R) (x us : list C) : cmat := fun n j => (RtoC (sqrt (nth j os 0)) * nth n x (RtoC 0) * Cconj (nth j us (RtoC 0)))%C.
Definition diam (E0 o : R) (x : list C) : cmat := fun n1 n2 => (RtoC (o / E0) * (Cconj (nth n1 x (RtoC 0)) * nth n2 x (RtoC 0)))%C.
Definition bare (E0 : R) (w os : list R) (x : list C) : cmat := fun n1 n2 =>
  ((if Nat.eqb n1 n2 then RtoC (nth n1 w 0) else RtoC 0) + RtoC (2 * fst (diam E0 (rsuml os) x n1 n2)))%C.
Lemma csum_plus_map ls f : csum (List.length ls) (fun w => f (nth w ls 0%R)) = fold_right (fun o acc => (f o + acc)%C) (RtoC 0) ls.
Proof. induction ls as [|o t IH]; [reflexivity|]. cbn [List.length fold_right]. rewrite csum_first. cbn [nth]. rewrite IH. reflexivity. Qed.

Lemma mapM_pure {A B} (f : A -> result B) g l : (forall y, In y l -> f y = Ok (g y)) -> mapM f l = Ok (map g l).
Proof. induction l as [|y t IH]; intros H; auto. cbn [mapM map]. rewrite H by (left; auto). cbn [bind]. rewrite IH by (intros; apply H; right; auto). reflexivity. Qed.
Section Toys.
Variables (E0 : R) (w : list R) (x : list C).
Hypothesis HE : E0 <> 0.
Hypothesis Hwx : List.length w = List.length x.
Local Notation N := (List.length x).

Lemma toy_block o s : ready E0 o s -> 0 <= o -> exists u, Cmod u = 1 /\ exists rows, C_D 1 (light w x) 1 s 0 = Ok (mat_of rows, D_block 1 (mat_of rows) [(E0, 0)]) /\
  eners_at s 0 = Ok [(E0, 0)] /\
  forall n, (n < N)%nat -> mat_of rows n 0%nat = (RtoC (sqrt o) * nth n x (RtoC 0) * Cconj u)%C.
Proof.
  intros (HO & HG & HN & v & HV & HU) Ho. exists (v 0%nat). split; auto.
  exists (map (fun n => [C_entry 1 1 [o; 0; 0] (fun _ => nth n x (RtoC 0) / pref 1, fun _ => RtoC 0, fun _ => RtoC 0)%C v]) (seq 0 N)).
  assert (EA : eners_at s 0 = Ok [(E0, 0)]) by (unfold eners_at, attr; rewrite HN; reflexivity).
  split; [|split; auto].
  - unfold C_D. assert (EC : C_block 1 (light w x) 1 s 0 = Ok (map (fun n => [C_entry 1 1 [o; 0; 0] (fun _ => nth n x (RtoC 0) / pref 1, fun _ => RtoC 0, fun _ => RtoC 0)%C v]) (seq 0 N))).
    { unfold C_block. cbn [ph_N ph_E light]. apply mapM_pure. intros n _. cbn [bind seq mapM]. rewrite HV. cbn [bind]. unfold attr. rewrite HO, HG. cbn [bind]. reflexivity. }
    rewrite EC. cbn [bind]. rewrite EA. reflexivity.
  - intros n Hn. unfold mat_of. rewrite (map_nth_lt _ _ 0%nat) by (rewrite seq_length; auto). rewrite seq_nth by auto. cbn [nth plus]. unfold C_entry. rewrite csum1.
    cbn [nth]. rewrite sqrt_0. pose proof pref_neq. field. auto.
Qed.
Lemma toy_blocks os ws : Forall2 (ready E0) os ws -> (forall o, In o os -> 0 <= o) -> exists us cds, List.length us = List.length os /\ (forall u, In u us -> Cmod u = 1) /\
  mapM (fun s => C_D 1 (light w x) 1 s 0) ws = Ok cds /\ List.length cds = List.length os /\ mapM (fun s => eners_at s 0) ws = Ok (map (fun _ => [(E0, 0)]) os) /\
  forall j, (j < List.length os)%nat -> forall n, (n < N)%nat ->
    fst (nth j cds (mzero, mzero)) n 0%nat = coupl os x us n j /\ forall n2, (n2 < N)%nat -> snd (nth j cds (mzero, mzero)) n n2 = diam E0 (nth j os 0) x n n2.
Proof.
  induction 1 as [|o s os ws Hr F IH]; intros Hp; [exists [], []; repeat split; auto; [intros u []|simpl in *; lia|simpl in *; lia]|].
  destruct IH as (us & cds & L1 & U1 & C1 & L2 & N1 & H1); [intros; apply Hp; right; auto|]. destruct (toy_block o s Hr (Hp o (or_introl eq_refl))) as (u & Hu & rows & C0 & N0 & H0).
  exists (u :: us), ((mat_of rows, D_block 1 (mat_of rows) [(E0, 0)]) :: cds). split; [simpl; lia|]. split; [intros z [<-|Hz]; auto|]. cbn [mapM]. rewrite C0, C1, N0, N1. cbn [bind].
  split; auto. split; [simpl; lia|]. split; auto. intros [|j] Hj n Hn; [|cbn [nth]; simpl in Hj; apply (H1 j ltac:(lia) n Hn)]. cbn [nth fst snd]. unfold coupl. cbn [nth]. split; [apply H0; auto|].
  intros n2 Hn2. unfold D_block, diam. rewrite csum1. rewrite !H0 by auto. cbn [nth fst]. rewrite !Cconj_mult, Cconj_conj, Cconj_R. unfold Rdiv. rewrite RtoC_mult, RtoC_inv by auto.
  replace (RtoC o) with (RtoC (sqrt o) * RtoC (sqrt o))%C by (rewrite <- RtoC_mult, sqrt_sqrt; auto; apply Hp; left; auto). unfold Cdiv.
  assert (UU : (Cconj u * u = RtoC 1)%C) by (rewrite mod2, Hu; f_equal; ring).
  transitivity (RtoC (sqrt o) * RtoC (sqrt o) * / RtoC E0 * (Cconj (nth n x (RtoC 0)) * nth n2 x (RtoC 0)) * (Cconj u * u))%C; [ring|]. rewrite UU. ring.
Qed.
Lemma concat_ones (os : list R) j : (j < List.length os)%nat -> nth j (List.concat (map (fun _ => [(E0, 0)]) os)) (RtoC 0) = RtoC E0.
Proof. revert j. induction os as [|o t IH]; intros j Hj; [simpl in Hj; lia|]. cbn [map List.concat app]. destruct j; [reflexivity|]. apply IH. simpl in Hj. lia. Qed.
Lemma toy_matrix os ws : Forall2 (ready E0) os ws -> os <> [] -> (forall o, In o os -> 0 <= o) -> exists us H, List.length us = List.length os /\ (forall u, In u us -> Cmod u = 1) /\
  construct 1 (light w x) 1 ws 0 = Ok H /\ List.length ws = List.length os /\
  let n := (2 * (N + List.length os))%nat in
  meq n n H (hopfield N (List.length os) (bare E0 w os x) (coupl os x us) (diam E0 (last os 0) x) (fun _ => RtoC E0)).
Proof.
  intros F Hne Hp. destruct (toy_blocks os ws F Hp) as (us & cds & L1 & U1 & C1 & L2 & N1 & HX). exists us. assert (Lw : List.length os = List.length ws) by (clear -F; induction F; simpl; auto).
  eexists. split; auto. split; auto. split.
  { unfold construct, from_freq_to_e. cbn [negb andb]. rewrite (proj2 (Rleb_false 1 0)) by lra. cbn [bind light ph_freqs ph_ims]. cbn [SymModel.get nth_error]. unfold SymModel.get. cbn [nth_error bind].
    fold (light w x). rewrite C1. cbn [bind]. destruct cds as [|cd cds]; [destruct os; [congruence|discriminate]|]. rewrite N1. cbn [bind]. reflexivity. }
  split; auto. cbv zeta. rewrite <- Lw, Nat.mul_1_l. cbn [ph_N light]. apply hopfield_ext.
  - intros i j Hi Hj. unfold phot_block, bare. f_equal.
    + destruct (Nat.eqb i j); auto. assert (Hi' : (i < List.length w)%nat) by lia. rewrite (map_nth_lt (fun e => e / conversion 1) w 0) by auto. rewrite (map_nth_lt (fun _ => 0) w 0) by auto.
      pose proof (conv_pos 1 ltac:(lra)). change (h_eV_Hz * c_light / 1) with (conversion 1). replace (nth i w 0 / conversion 1 * conversion 1) with (nth i w 0) by (field; lra).
      rewrite Rmult_0_l. ring.
    + do 3 f_equal. rewrite fold_mplus. unfold mzero at 1. rewrite Cplus_0_l, map_length, L2.
      rewrite (csum_ext _ _ (fun k => (fun o => diam E0 o x i j) (nth k os 0))).
      2:{ intros k Hk. rewrite (map_nth_lt snd _ (mzero, mzero)) by lia. apply HX; auto. }
      rewrite (csum_plus_map os (fun o => diam E0 o x i j)). clear. induction os as [|o t IH]; [unfold diam, rsuml, Rdiv; cbn [fold_right]; rewrite Rmult_0_l; ring|].
      cbn [fold_right]. rewrite IH. unfold diam. rewrite rsuml_cons. unfold Rdiv. rewrite Rmult_plus_distr_r, RtoC_plus. ring.
  - intros i j Hi Hj. unfold hcat. rewrite Nat.div_1_r, Nat.mod_1_r. rewrite (map_nth_lt fst _ (mzero, mzero)) by lia. apply HX; auto.
  - intros i j Hi Hj. rewrite last_nth, map_length, L2. assert (0 < List.length os)%nat by (destruct os; [congruence|simpl; lia]). rewrite (map_nth_lt snd _ (mzero, mzero)) by lia.
    rewrite last_nth. apply HX; auto. lia.
  - intros j Hj. apply concat_ones; auto.
Qed.
End Toys.
