(** Pairs of runs of the exciton solver: related potentials, related k-points,
    more plane waves. *)
From Coq Require Import Permutation List.
From Verif Require Import Py CBase LatticeModel LatticeSpec PhcModel PhcSpec RecipModel RecipSpec RecipProofs RecipProofs2 MatElModel RunModel RunSpec RunProofs RunProofs5 PweSpec PweModel PweProofs PweProofs2 ExcSpec ExcModel ExcProofs ExcProofs2 LinProofs LinProofs2 LinProofs3.
From Verif Require Import InvSpec InvProofs InvProofs2 InvProofs3 InvProofs4 EinvSpec.
Open Scope R_scope.
Open Scope list_scope.

(** ** a smaller matrix inside a larger one *)
Section Embed.
Variables (n N : nat) (ix : nat -> nat).
Hypothesis I1 : forall i, (i < n)%nat -> (ix i < N)%nat.
Hypothesis I2 : forall i j, (i < n)%nat -> (j < n)%nat -> ix i = ix j -> i = j.
Definition emb (v : cvec) : cvec := fun I => csum n (fun i => if Nat.eqb I (ix i) then v i else RtoC 0).
Lemma emb_at v i : (i < n)%nat -> emb v (ix i) = v i.
Proof.
  intros Hi. unfold emb. rewrite (csum_single n i); auto; [rewrite Nat.eqb_refl; reflexivity|]. intros j Hj Ne. destruct (Nat.eqb_spec (ix i) (ix j)) as [Q|]; [|reflexivity].
  exfalso. apply Ne. symmetry. apply I2; auto.
Qed.
Lemma emb_sum f v : csum N (fun I => (f I * emb v I)%C) = csum n (fun i => (f (ix i) * v i)%C).
Proof.
  unfold emb. transitivity (csum N (fun I => csum n (fun i => (f I * (if Nat.eqb I (ix i) then v i else RtoC 0))%C))).
  { apply csum_ext. intros. rewrite <- csum_scal_l. reflexivity. }
  rewrite csum_swap. apply csum_ext. intros i Hi. rewrite (csum_single N (ix i)); auto; [rewrite Nat.eqb_refl; reflexivity|].
  intros j Hj Ne. destruct (Nat.eqb_spec j (ix i)); [congruence|ring].
Qed.
Lemma emb_dot u v : cdot N u (emb v) = cdot n (fun i => u (ix i)) v.
Proof. unfold cdot. apply (emb_sum (fun I => Cconj (u I))). Qed.
Lemma emb_dot2 u v : cdot N (emb v) u = cdot n v (fun i => u (ix i)).
Proof.
  transitivity (Cconj (cdot N u (emb v))).
  - unfold cdot. rewrite csum_conj. apply csum_ext. intros. rewrite Cconj_mult, Cconj_conj. ring.
  - rewrite emb_dot. unfold cdot. rewrite csum_conj. apply csum_ext. intros. rewrite Cconj_mult, Cconj_conj. ring.
Qed.
Lemma emb_form A v : cdot N (emb v) (mvec N A (emb v)) = cdot n v (mvec n (fun i j => A (ix i) (ix j)) v).
Proof. rewrite emb_dot2. unfold cdot. apply csum_ext. intros i Hi. f_equal. unfold mvec. apply (emb_sum (fun I => A (ix i) I)). Qed.
Lemma emb_nrm v : nrm N (emb v) = nrm n v.
Proof.
  pose proof (cdot_nrm N (emb v)) as H. rewrite emb_dot2 in H. pose proof (cdot_nrm n v) as H'.
  assert (E : cdot n v (fun i => emb v (ix i)) = cdot n v v) by (unfold cdot; apply csum_ext; intros; rewrite emb_at by auto; reflexivity).
  rewrite E, H' in H. apply (f_equal fst) in H. cbn [fst RtoC] in H. symmetry. exact H.
Qed.
Lemma eigs_embedded A A' ls V ls' V' : eigensystem n A ls V -> eigensystem N A' ls' V' -> ascending ls -> ascending ls' -> (n <= N)%nat ->
  (forall v, fst (cdot n v (mvec n (fun i j => A' (ix i) (ix j)) v)) <= fst (cdot n v (mvec n A v))) ->
  forall b, (b < n)%nat -> nth b ls' 0 <= nth b ls 0.
Proof.
  intros Es Es' As As' LN Le b Hb.
  destruct (underdetermined b (S b) (fun i j => cdot n (fun a => V' (ix a) i) (fun a => V a j)) ltac:(lia)) as (c & (j0 & Hj0 & Nz) & Or).
  set (v := fun i => csum (S b) (fun j => (V i j * c j)%C)).
  assert (Lin : forall u, cdot n u v = csum (S b) (fun j => (cdot n u (fun a => V a j) * c j)%C)).
  { intros u. unfold cdot, v. transitivity (csum n (fun i => csum (S b) (fun j => (Cconj (u i) * (V i j * c j))%C))).
    { apply csum_ext. intros. rewrite <- csum_scal_l. reflexivity. }
    rewrite csum_swap. apply csum_ext. intros j _. rewrite <- csum_scal_r. apply csum_ext. intros. ring. }
  destruct Es as (E1 & E2 & E3). destruct Es' as (E1' & E2' & E3').
  assert (Cf : forall i, (i < n)%nat -> coef n V v i = if Nat.ltb i (S b) then c i else RtoC 0).
  { intros i Hi. unfold coef. rewrite Lin. destruct (Nat.ltb_spec i (S b)) as [Hb'|Hb'].
    - rewrite (csum_single (S b) i); auto; [unfold cdot; rewrite E2, Nat.eqb_refl by auto; ring|].
      intros j Hj Ne. unfold cdot. rewrite E2 by lia. destruct (Nat.eqb_spec i j); [congruence|ring].
    - apply csum_0. intros j Hj. unfold cdot. rewrite E2 by lia. destruct (Nat.eqb_spec i j); [lia|ring]. }
  assert (Cf' : forall i, (i < b)%nat -> coef N V' (emb v) i = RtoC 0) by (intros i Hi; unfold coef; rewrite emb_dot, Lin; apply Or; auto).
  assert (Nn : 0 < nrm n v).
  { pose proof (norm_expand n A ls V (conj E1 (conj E2 E3)) v) as NE. apply (f_equal fst) in NE. cbn [fst RtoC] in NE. rewrite NE.
    apply Rlt_le_trans with (sqm (c j0)).
    - assert (fst (c j0) <> 0 \/ snd (c j0) <> 0) as [H|H].
      { destruct (Req_dec (fst (c j0)) 0) as [H1|]; auto. right. intros H2. apply Nz. apply Ceq; auto. }
      + unfold sqm. pose proof (Rsqr_pos_lt _ H). pose proof (Rle_0_sqr (snd (c j0))). unfold Rsqr in *. lra.
      + unfold sqm. pose proof (Rsqr_pos_lt _ H). pose proof (Rle_0_sqr (fst (c j0))). unfold Rsqr in *. lra.
    - assert (Hj : (j0 < n)%nat) by lia.
      pose proof (fst_csum_ge n (fun j => RtoC (sqm (coef n V v j))) j0 Hj (fun i _ => sqm_nonneg _)) as G. cbn beta in G.
      rewrite (Cf j0 Hj) in G. destruct (Nat.ltb_spec j0 (S b)); [exact G|lia]. }
  assert (Up : fst (cdot n v (mvec n A v)) <= nth b ls 0 * nrm n v).
  { rewrite (form_expand n A ls V (conj E1 (conj E2 E3)) v).
    replace (nth b ls 0 * nrm n v) with (fst (csum n (fun j => RtoC (nth b ls 0 * sqm (coef n V v j))))).
    - apply fst_csum_le. intros j Hj. cbn [fst RtoC]. rewrite (Cf j Hj). destruct (Nat.ltb_spec j (S b)).
      + apply Rmult_le_compat_r; [apply sqm_nonneg|]. destruct (Nat.eq_dec j b) as [->|]; [lra|]. apply As. lia.
      + unfold sqm. cbn [fst snd RtoC]. lra.
    - transitivity (fst (RtoC (nth b ls 0) * RtoC (nrm n v))%C); [|cbn; ring].
      rewrite (norm_expand n A ls V (conj E1 (conj E2 E3)) v), <- csum_scal_l. f_equal. apply csum_ext. intros. apply RtoC_mult. }
  assert (Dn : nth b ls' 0 * nrm N (emb v) <= fst (cdot N (emb v) (mvec N A' (emb v)))).
  { rewrite (form_expand N A' ls' V' (conj E1' (conj E2' E3')) (emb v)).
    replace (nth b ls' 0 * nrm N (emb v)) with (fst (csum N (fun j => RtoC (nth b ls' 0 * sqm (coef N V' (emb v) j))))).
    - apply fst_csum_le. intros j Hj. cbn [fst RtoC]. destruct (Nat.lt_ge_cases j b).
      + rewrite (Cf' j) by auto. unfold sqm. cbn [fst snd RtoC]. lra.
      + apply Rmult_le_compat_r; [apply sqm_nonneg|]. destruct (Nat.eq_dec j b) as [->|]; [lra|]. apply As'. lia.
    - transitivity (fst (RtoC (nth b ls' 0) * RtoC (nrm N (emb v)))%C); [|cbn; ring].
      rewrite (norm_expand N A' ls' V' (conj E1' (conj E2' E3')) (emb v)), <- csum_scal_l. f_equal. apply csum_ext. intros. apply RtoC_mult. }
  rewrite emb_form, emb_nrm in Dn. specialize (Le v). apply Rmult_le_reg_r with (nrm n v); lra.
Qed.
Lemma levels_embedded m A A' es vs es' vs' : levels n m A es vs -> levels N m A' es' vs' -> (n <= N)%nat ->
  (forall v, fst (cdot n v (mvec n (fun i j => A' (ix i) (ix j)) v)) <= fst (cdot n v (mvec n A v))) ->
  (List.length es <= List.length es')%nat /\ forall b, (b < List.length es)%nat -> nth b es' 0 <= nth b es 0.
Proof.
  intros (ls & V & E & H1 & -> & _) (ls' & V' & E' & H1' & -> & _) LN Le.
  pose proof (eigs_embedded A A' ls V ls' V' E E' H1 H1' LN Le) as M. destruct E as (L & _), E' as (L' & _).
  rewrite !firstn_length, L, L'. split; [lia|]. intros b Hb. rewrite !firstn_nth by lia. apply M. lia.
Qed.
End Embed.

(** ** equivalent matrices *)
Lemma levels_twist n m A A' sg d f es vs es' vs' : perm_on n sg -> (forall i, (i < n)%nat -> (d i * Cconj (d i))%C = RtoC 1) -> field_auto f ->
  (forall i j, (i < n)%nat -> (j < n)%nat -> A' i j = (d i * f (A (sg i) (sg j)) * Cconj (d j))%C) ->
  levels n m A es vs -> levels n m A' es' vs' -> es' = es.
Proof.
  intros P D F E (ls & V & S & H1 & -> & _) (ls' & V' & S' & H1' & -> & _).
  pose proof (twist_system n sg d f P D F A ls V S) as T.
  assert (T' : eigensystem n A' ls (fun i j => twistv sg d f (fun i => V i j) i)).
  { destruct T as (T1 & T2 & T3). split; [auto|]. split; [auto|]. intros i j Hi Hj. rewrite <- T3 by auto. unfold mvec. apply csum_ext. intros k Hk. rewrite E by auto. reflexivity. }
  rewrite (asc_unique ls' ls); auto. apply (eigs_unique n A' _ _ _ _ T' S').
Qed.
