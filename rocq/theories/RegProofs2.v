(** The matrix and its eigenvalues as functions of the regulariser (C147). *)
From Coquelicot Require Import Coquelicot.
From Coq Require Import Lra Lia Permutation List.
From Verif Require Import Py CBase SlabModel SlabSpec MatElModel MatElSpec MatElProofs MatElProofs2 MatElProofs3 RunModel RunSpec GinvSpec GinvProofs5 GinvProofs7
  ExcSpec PweProofs2 EinvProofs4 UnifProofs3 RegSpec RegProofs.
Open Scope R_scope.
Open Scope list_scope.

(** ** finitely many constants *)
Lemma finite_bound (n : nat) (P : nat -> R -> R) : (forall i, (i < n)%nat -> exists K, 0 <= K /\ forall t, 0 <= t <= 1 -> P i t <= K * t) ->
  exists K, 0 <= K /\ forall i t, (i < n)%nat -> 0 <= t <= 1 -> P i t <= K * t.
Proof.
  induction n as [|n IH]; intros H; [exists 0; split; [lra|intros; lia]|].
  destruct IH as (K & K0 & HK); [intros; apply H; lia|]. destruct (H n ltac:(lia)) as (L & L0 & HL).
  exists (K + L). split; [lra|]. intros i t Hi Ht. destruct (Nat.eq_dec i n) as [->|Ne].
  - specialize (HL t Ht). nra.
  - specialize (HK i t ltac:(lia) Ht). nra.
Qed.

(** ** the whole matrix *)
Section Mat.
Variables (gvec : list (R * R)) (k : R * R) (dgx : R) (inds : list nat) (garr : list R) (te tm : gtable) (eps ds : list R) (einv : nat -> cmat).
Notation cm dl := (construct_mat dl gvec k dgx inds garr te tm eps ds einv).
Definition entries (dl : R) : cmat := match cm dl with Ok M => ent M | Raise _ => fun _ _ => RtoC 0 end.

Lemma nonneg_nth : Forall (fun x => 0 <= x) ds -> forall i, 0 <= nth i ds 0.
Proof. intros H i. destruct (Nat.lt_ge_cases i (List.length ds)) as [L|L]; [apply Forall_nth; auto|rewrite nth_overflow by lia; lra]. Qed.

Lemma matrix_lip M0 : decaying_at gvec k dgx inds garr te tm eps -> Forall (fun x => 0 <= x) ds -> cm 0 = Ok M0 ->
  (forall dl, exists M, cm dl = Ok M /\ nr M = nr M0 /\ nc M = nc M0 /\ forall i j, ent M i j = Cconj (ent M j i)) /\
  forall i j, (i < nr M0)%nat -> (j < nr M0)%nat -> lip (fun dl => entries dl i j).
Proof.
  intros Hd Hds H0. pose proof (nonneg_nth Hds) as Hn. unfold entries. unfold construct_mat in *. 
  set (d := gk_data gvec k dgx) in *. pose proof (include_present inds te tm) as IP.
  destruct (gmode_include inds te tm) as [|m0 l] eqn:EI; [discriminate|].
  destruct (mapM _ (m0 :: l)) as [ms|] eqn:Em; [|discriminate]. cbn [bind] in *.
  assert (Ne : ms <> []). { cbn [mapM] in Em. intros ->. destruct (get_guided _ _ _ _ _ _ m0); [|discriminate]. cbn [bind] in Em. destruct (mapM _ l); discriminate. }
  assert (As := fun dl => assembled (mat_block dl eps ds einv d) (bl_nr dl eps ds einv d) (bl_nc dl eps ds einv d) dgm ms Ne).
  assert (Dc : forall p, (p < List.length ms)%nat -> decays (List.length eps) (snd (nth p ms dgm))).
  { intros p Hp. assert (I : In (nth p ms dgm) ms) by (apply nth_In; auto). destruct (nth p ms dgm) as [m x]. cbn [snd].
    assert (X : In m (m0 :: l) /\ get_guided (List.length gvec) (gk_len d) garr te tm eps m = Ok x).
    { clear - Em I. revert ms Em I. generalize (m0 :: l) as q. induction q as [|a q IH]; intros ms Em I; cbn [mapM] in Em; [injection Em as <-; destruct I|].
      destruct (get_guided _ _ _ _ _ _ a) as [g|] eqn:Eg; [|discriminate]. cbn [bind] in Em. destruct (mapM _ q) as [t|] eqn:Et; [|discriminate]. injection Em as <-.
      destruct I as [I|I]; [injection I as <- <-; split; [left; auto|auto]|]. destruct (IH t eq_refl I). split; [right; auto|auto]. }
    destruct X as [X1 X2]. apply (Hd m x); [rewrite <- IP; exact X1|exact X2]. }
  assert (SL : List.length (sizes ms) = List.length ms) by (unfold sizes; apply map_length).
  assert (SN : forall p, (p < List.length ms)%nat -> nth p (sizes ms) 0%nat = md_size (snd (nth p ms dgm))).
  { intros p Hp. unfold sizes. rewrite (nth_indep _ 0%nat (md_size (snd dgm))) by (rewrite map_length; auto). exact (map_nth (fun m => md_size (snd m)) ms dgm p). }
  destruct (As 0) as (A0 & E1 & E2 & E3 & _). rewrite E1 in H0. injection H0 as <-. rewrite E2, E3. split.
  - intros dl. destruct (As dl) as (A & F1 & F2 & F3 & F4 & _). exists A. auto.
  - assert (L : forall p q r s, (p < List.length ms)%nat -> (q < List.length ms)%nat -> (r < nth p (sizes ms) 0)%nat -> (s < nth q (sizes ms) 0)%nat ->
      lip (fun dl => ent (mat_block dl eps ds einv d (nth p ms dgm) (nth q ms dgm)) r s)).
    { intros p q r s Hp Hq Hr Hs. apply lip_block; auto; rewrite <- SN; auto. }
    intros P Q HP HQ.
    destruct (off_inv (sizes ms) P HP) as (p & r & Hp & Hr & ->). destruct (off_inv (sizes ms) Q HQ) as (q & s & Hq & Hs & ->). rewrite SL in Hp, Hq.
    destruct (Nat.lt_trichotomy (offset (sizes ms) p + r) (offset (sizes ms) q + s)) as [G|[G|G]].
    + eapply lip_ext; [|apply (L p q r s); auto]. intros dl. destruct (As dl) as (A & F1 & F2 & F3 & F4 & F5 & F6). rewrite F1. apply F6; auto.
    + destruct (off_uniq (sizes ms) p q r s ltac:(lia) ltac:(lia) Hr Hs G) as [-> ->].
      eapply lip_ext; [|apply lip_re, (L q q s s); auto]. intros dl. destruct (As dl) as (A & F1 & F2 & F3 & F4 & F5 & F6). rewrite F1. apply F5; auto.
    + eapply lip_ext; [|apply lip_conj, (L q p s r); auto]. intros dl. destruct (As dl) as (A & F1 & F2 & F3 & F4 & F5 & F6). rewrite F1, F4. f_equal. apply F6; auto.
Qed.

Lemma matrix_close M0 : decaying_at gvec k dgx inds garr te tm eps -> Forall (fun x => 0 <= x) ds -> cm 0 = Ok M0 ->
  exists K, 0 <= K /\ forall dl, 0 <= dl <= 1 -> exists M, cm dl = Ok M /\ nr M = nr M0 /\ nc M = nc M0 /\
    forall i j, (i < nr M0)%nat -> (j < nr M0)%nat -> Cmod (ent M i j - ent M0 i j)%C <= K * dl.
Proof.
  intros Hd Hds H0. destruct (matrix_lip M0 Hd Hds H0) as (Ok' & L).
  destruct (finite_bound (nr M0 * nr M0) (fun x t => Cmod (entries t (x / nr M0)%nat (x mod nr M0)%nat - entries 0 (x / nr M0)%nat (x mod nr M0)%nat)%C)) as (K & K0 & HK).
  { intros x Hx. assert (nr M0 <> 0)%nat by lia. apply L; [apply Nat.div_lt_upper_bound; lia|apply Nat.mod_upper_bound; auto]. }
  exists K. split; [auto|]. intros dl Hdl. destruct (Ok' dl) as (M & E1 & E2 & E3 & _). exists M. split; [auto|]. split; [auto|]. split; [auto|].
  intros i j Hi Hj. specialize (HK (i * nr M0 + j)%nat dl ltac:(nia) Hdl). cbn beta in HK.
  replace ((i * nr M0 + j) / nr M0)%nat with i in HK by (rewrite Nat.div_add_l by lia; rewrite Nat.div_small by auto; lia).
  replace ((i * nr M0 + j) mod nr M0)%nat with j in HK by (rewrite Nat.add_comm, Nat.mod_add by lia; rewrite Nat.mod_small; auto).
  unfold entries in HK. rewrite E1, H0 in HK. exact HK.
Qed.
End Mat.

(** ** the eigenvalues *)
Lemma eig_close n A A' ls V ls' V' c : eigensystem n A ls V -> ascending ls -> eigensystem n A' ls' V' -> ascending ls' -> 0 <= c ->
  (forall i j, (i < n)%nat -> (j < n)%nat -> Cmod (A' i j - A i j)%C <= c) ->
  forall b, (b < n)%nat -> Rabs (nth b ls' 0 - nth b ls 0) <= INR n * c.
Proof.
  assert (Lv : forall B es W, eigensystem n B es W -> ascending es -> levels n n B es (map (fun b => (n, fun i => W i b)) (seq 0 n))).
  { intros B es W E As. exists es, W. destruct E as (E1 & E2 & E3). split; [split; auto|]. split; [auto|]. split; [rewrite firstn_all2; auto; lia|].
    rewrite map_length, seq_length, Nat.min_id. split; [reflexivity|]. intros b Hb.
    rewrite (nth_indep _ _ (n, fun i => W i 0%nat)) by (rewrite map_length, seq_length; auto). rewrite (map_nth (fun b => (n, fun i => W i b)) (seq 0 n) 0%nat b), seq_nth by auto. cbn. auto. }
  assert (One : forall B B' es W es' W', eigensystem n B es W -> ascending es -> eigensystem n B' es' W' -> ascending es' -> 0 <= c ->
    (forall i j, (i < n)%nat -> (j < n)%nat -> Cmod (B i j - B' i j)%C <= c) -> forall b, (b < n)%nat -> nth b es' 0 <= nth b es 0 + INR n * c).
  { intros B B' es W es' W' E1 A1 E2 A2 Hc H b Hb. destruct (levels_within n n B B' (INR n * c) es _ es' _ (Lv B es W E1 A1) (Lv B' es' W' E2 A2)) as (_ & X).
    - intros v. pose proof (small_form n (fun i j => (B i j - B' i j)%C) c v Hc H) as S.
      assert (F : cdot n v (mvec n B v) = (cdot n v (mvec n B' v) + cdot n v (mvec n (fun i j => (B i j - B' i j)%C) v))%C).
      { rewrite <- form_add. unfold cdot, mvec. apply csum_ext. intros i _. f_equal. apply csum_ext. intros j _. ring. }
      rewrite F. cbn [fst Cplus]. lra.
    - apply X. destruct E1 as [-> _]. exact Hb. }
  intros E1 A1 E2 A2 Hc H b Hb. apply Rabs_le. split.
  - pose proof (One A' A ls' V' ls V E2 A2 E1 A1 Hc H b Hb). lra.
  - pose proof (One A A' ls V ls' V' E1 A1 E2 A2 Hc (fun i j Hi Hj => ltac:(rewrite <- Cmod_opp; replace (- (A i j - A' i j))%C with (A' i j - A i j)%C by ring; auto)) b Hb). lra.
Qed.
