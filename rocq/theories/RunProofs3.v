(** Bands computed block by block: kz_symmetry 'both', 'odd', 'even'. *)
From Coq Require Import Permutation List.
From Verif Require Import Py CBase SymModel SymSpec SymProofs4 SymProofs7 SymProofs8 RecipModel SlabModel MatElModel RadModel RunModel RunSpec RunProofs RunProofs2.
Open Scope R_scope.
Open Scope list_scope.

Lemma nth_app_lt {A} (d : A) l m i : (i < List.length l)%nat -> nth i (l ++ m) d = nth i l d.
Proof. apply app_nth1. Qed.
Lemma sum_split a b (f : nat -> C) : csum (a + b) f = Cplus (csum a f) (csum b (fun i => f (a + i)%nat)).
Proof. apply csum_add. Qed.

Lemma nth_repeat_lt {A} (a d : A) m i : (i < m)%nat -> nth i (repeat a m) d = a.
Proof. revert i. induction m; intros [|i] Hi; cbn; try lia; auto. apply IHm. lia. Qed.

Section Blocks.
Variable argsort : list R -> list nat.
Variable eigh : nat -> cmat -> list R * cmat.
Hypothesis Hs : sorts argsort.
Hypothesis He : diagonalises eigh.
Variables (n e q : nat) (T : cvec -> cvec) (H : cmat) (b : sbasis) (E O : arr2) (o : opts).
Hypothesis Hr : sb_rows b = n.
Hypothesis Hcol : sb_cols b = n.
Hypothesis Hev : sb_even b = e.
Hypothesis Hod : sb_odd b = q.
Hypothesis HE : nr E = e.
Hypothesis HO : nr O = q.
Hypothesis PB : parity_basis n e T (sb_v b).
Hypothesis SP : splits n T H (sb_v b) e q (ent E) (ent O).
Hypothesis hE : herm E.
Hypothesis hO : herm O.
Hypothesis Text : forall u w i, (forall i, (i < n)%nat -> u i = w i) -> (i < n)%nat -> T u i = T w i.

Let V := sb_v b.
Definition pE (u : cvec) : cvec := fun dd => if Nat.ltb dd e then u dd else RtoC 0.
Definition pO (u : cvec) : cvec := fun dd => if Nat.ltb dd e then RtoC 0 else u (dd - e)%nat.

Lemma en : (e + q)%nat = n.
Proof. apply SP. Qed.

Lemma unitary_dot u w : cdot n (mvec n V u) (mvec n V w) = cdot n u w.
Proof.
  destruct PB as [P1 _]. unfold cdot, mvec.
  transitivity (csum n (fun i => csum n (fun c => csum n (fun c' => (Cconj (u c) * w c' * (Cconj (V i c) * V i c'))%C)))).
  { apply csum_ext. intros i Hi. rewrite csum_conj, <- csum_scal_r. apply csum_ext. intros c Hc.
    rewrite <- csum_scal_l. apply csum_ext. intros c' Hc'. rewrite Cconj_mult. ring. }
  rewrite csum_swap. apply csum_ext. intros c Hc.
  rewrite csum_swap.
  rewrite (csum_single n c).
  - rewrite csum_scal_l. pose proof (P1 c c Hc Hc) as P. unfold mmul, madj, mid in P. rewrite Nat.eqb_refl in P.
    fold V in P. rewrite P. ring.
  - exact Hc.
  - intros c' Hc' Hne. rewrite csum_scal_l. pose proof (P1 c c' Hc Hc') as P. unfold mmul, madj, mid in P.
    rewrite (proj2 (Nat.eqb_neq c c')) in P by auto. fold V in P. rewrite P. ring.
Qed.

Lemma dot_EE u w : cdot n (pE u) (pE w) = cdot e u w.
Proof.
  unfold cdot. rewrite <- en, sum_split. rewrite (csum_0 q).
  2:{ intros i Hi. unfold pE. rewrite (proj2 (Nat.ltb_ge (e + i) e)) by lia. rewrite Cmult_0_r. reflexivity. }
  rewrite Cplus_0_r. apply csum_ext. intros i Hi. unfold pE. rewrite (proj2 (Nat.ltb_lt i e)) by lia. reflexivity.
Qed.
Lemma dot_OO u w : cdot n (pO u) (pO w) = cdot q u w.
Proof.
  unfold cdot. rewrite <- en, sum_split. rewrite (csum_0 e).
  2:{ intros i Hi. unfold pO. rewrite (proj2 (Nat.ltb_lt i e)) by lia. rewrite Cmult_0_r. reflexivity. }
  rewrite Cplus_0_l. apply csum_ext. intros i Hi. unfold pO. rewrite (proj2 (Nat.ltb_ge (e + i) e)) by lia.
  replace (e + i - e)%nat with i by lia. reflexivity.
Qed.
Lemma dot_EO u w : cdot n (pE u) (pO w) = RtoC 0.
Proof.
  unfold cdot. apply csum_0. intros i Hi. unfold pE, pO. destruct (Nat.ltb i e).
  - apply Cmult_0_r.
  - rewrite Cconj_R. apply Cmult_0_l.
Qed.
Lemma dot_OE u w : cdot n (pO u) (pE w) = RtoC 0.
Proof.
  unfold cdot. apply csum_0. intros i Hi. unfold pE, pO. destruct (Nat.ltb i e).
  - rewrite Cconj_R. apply Cmult_0_l.
  - apply Cmult_0_r.
Qed.

Lemma sys_vec m A ls W j : eigensystem m A ls W -> (j < m)%nat -> eigvec m A (RtoC (nth j ls 0)) (fun i => W i j).
Proof.
  intros (S1 & S2 & S3) Hj. split.
  - destruct (nz_dec m m (le_n m) m (fun i => W i j)) as [Y|Z]; [exact Y|exfalso].
    specialize (S2 j j Hj Hj). rewrite Nat.eqb_refl, csum_0 in S2.
    + apply RtoC_inj in S2. lra.
    + intros i Hi. rewrite (Z i Hi). apply Cmult_0_r.
  - intros i Hi. apply S3; auto.
Qed.

Section Sys.
Variables (lE lO : list R) (WE WO : cmat).
Hypothesis SE : eigensystem e (ent E) lE WE.
Hypothesis SO : eigensystem q (ent O) lO WO.

Definition joined : cmat := fun i j =>
  if Nat.ltb j e then mvec n V (pE (fun c => WE c j)) i else mvec n V (pO (fun c => WO c (j - e)%nat)) i.

Lemma join_lt j : (j < e)%nat -> (fun i => joined i j) = mvec n V (pE (fun c => WE c j)).
Proof. intros Hj. unfold joined. rewrite (proj2 (Nat.ltb_lt j e)) by auto. reflexivity. Qed.
Lemma join_ge j : (e <= j)%nat -> (fun i => joined i j) = mvec n V (pO (fun c => WO c (j - e)%nat)).
Proof. intros Hj. unfold joined. rewrite (proj2 (Nat.ltb_ge j e)) by auto. reflexivity. Qed.

Lemma joint_system : eigensystem n H (lE ++ lO) joined.
Proof.
  pose proof en as En. destruct (proj2 (proj2 (proj2 SP))) as [SP1 SP2].
  destruct SE as (E1 & E2 & E3). destruct SO as (O1 & O2 & O3).
  split; [rewrite app_length; lia|]. split.
  - intros j k Hj Hk.
    change (cdot n (fun i => joined i j) (fun i => joined i k) = if Nat.eqb j k then RtoC 1 else RtoC 0).
    destruct (Nat.lt_ge_cases j e) as [Lj|Lj], (Nat.lt_ge_cases k e) as [Lk|Lk].
    + rewrite (join_lt j Lj), (join_lt k Lk), unitary_dot, dot_EE. apply E2; auto.
    + rewrite (join_lt j Lj), (join_ge k Lk), unitary_dot, dot_EO. rewrite (proj2 (Nat.eqb_neq j k)) by lia. reflexivity.
    + rewrite (join_ge j Lj), (join_lt k Lk), unitary_dot, dot_OE. rewrite (proj2 (Nat.eqb_neq j k)) by lia. reflexivity.
    + rewrite (join_ge j Lj), (join_ge k Lk), unitary_dot, dot_OO.
      replace (Nat.eqb j k) with (Nat.eqb (j - e) (k - e)); [apply O2; lia|].
      destruct (Nat.eqb_spec j k) as [->|Hne]; [apply Nat.eqb_refl|apply Nat.eqb_neq; lia].
  - intros i j Hi Hj. destruct (Nat.lt_ge_cases j e) as [Lj|Lj].
    + pose proof (SP1 _ _ (sys_vec e (ent E) lE WE j SE Lj)) as P. cbv zeta in P. destruct P as [[_ P] _].
      rewrite nth_app_lt by lia.
      change (mvec n H (fun i => joined i j) i = (RtoC (nth j lE 0) * (fun i => joined i j) i)%C).
      rewrite (join_lt j Lj). apply P. exact Hi.
    + pose proof (SP2 _ _ (sys_vec q (ent O) lO WO (j - e) SO ltac:(lia))) as P. cbv zeta in P. destruct P as [[_ P] _].
      rewrite app_nth2 by lia. rewrite E1.
      change (mvec n H (fun i => joined i j) i = (RtoC (nth (j - e) lO 0) * (fun i => joined i j) i)%C).
      rewrite (join_ge j Lj). apply P. exact Hi.
Qed.
Lemma joint_parity j : (j < n)%nat ->
  ((j < e)%nat -> forall i, (i < n)%nat -> T (fun i => joined i j) i = joined i j) /\
  ((e <= j)%nat -> forall i, (i < n)%nat -> T (fun i => joined i j) i = Copp (joined i j)).
Proof.
  pose proof en as En. destruct (proj2 (proj2 (proj2 SP))) as [SP1 SP2]. intros Hj. split; intros Lj i Hi.
  - pose proof (SP1 _ _ (sys_vec e (ent E) lE WE j SE Lj)) as P. cbv zeta in P. destruct P as [_ P].
    change (T (fun i => joined i j) i = (fun i => joined i j) i). rewrite (join_lt j Lj). apply P. exact Hi.
  - pose proof (SP2 _ _ (sys_vec q (ent O) lO WO (j - e) SO ltac:(lia))) as P. cbv zeta in P. destruct P as [_ P].
    change (T (fun i => joined i j) i = Copp ((fun i => joined i j) i)). rewrite (join_ge j Lj). apply P. exact Hi.
Qed.
End Sys.

Lemma map_nth_lt {A B} (f : A -> B) (l : list A) da db i : (i < List.length l)%nat -> nth i (map f l) db = f (nth i l da).
Proof. intros Hi. rewrite (nth_indep _ db (f da)) by (rewrite map_length; auto). apply map_nth. Qed.
Lemma back_ok vs : (forall v, In v vs -> fst v = n) -> mapM (back b) vs = Ok (map (fun v => (n, mvec n V (snd v))) vs).
Proof.
  induction vs as [|v t IH]; intros Hv; [reflexivity|]. cbn [mapM map]. unfold back at 1.
  rewrite Hcol, (Hv v) by (left; auto). rewrite Nat.eqb_refl. cbn [bind]. rewrite IH by (intros; apply Hv; right; auto).
  cbn [bind]. rewrite Hr. reflexivity.
Qed.
Notation dv := (0%nat, fun _ : nat => RtoC 0).

Definition label (sy : Z) (v : cvec) : Prop :=
  (sy = 1%Z /\ forall i, (i < n)%nat -> T v i = v i) \/ (sy = (-1)%Z /\ forall i, (i < n)%nat -> T v i = Copp (v i)).

Section Both.
Variables (lE lO : list R) (WE WO : cmat).
Hypothesis QE : eigh e (plus_eye E) = (lE, WE).
Hypothesis QO : eigh q (plus_eye O) = (lO, WO).
Let lE1 := map (fun l => l - 1) lE.
Let lO1 := map (fun l => l - 1) lO.
Lemma sysE : eigensystem e (ent E) lE1 WE.
Proof.
  apply shift_system. pose proof (He e (plus_eye E)) as P. rewrite QE in P. apply P.
  apply plus_eye_herm. rewrite <- HE. apply hE.
Qed.
Lemma sysO : eigensystem q (ent O) lO1 WO.
Proof.
  apply shift_system. pose proof (He q (plus_eye O)) as P. rewrite QO in P. apply P.
  apply plus_eye_herm. rewrite <- HO. apply hO.
Qed.
Lemma lenE : List.length lE = e.
Proof. destruct sysE as [P _]. unfold lE1 in P. rewrite map_length in P. exact P. Qed.
Lemma lenO : List.length lO = q.
Proof. destruct sysO as [P _]. unfold lO1 in P. rewrite map_length in P. exact P. Qed.

Let W := joined WE WO.
Let ls := lE1 ++ lO1.
Lemma freqs_joint : to_freqs lE ++ to_freqs lO = to_freqs (lE ++ lO).
Proof. unfold to_freqs. rewrite map_app. reflexivity. Qed.
Lemma freq_joint j : (j < n)%nat -> nth j (to_freqs lE ++ to_freqs lO) 0 = freq_of (nth j ls 0).
Proof.
  intros Hj. rewrite freqs_joint, to_freqs_nth.
  - unfold ls, lE1, lO1. rewrite map_app. reflexivity.
  - rewrite app_length, lenE, lenO, en. exact Hj.
Qed.

Definition vecs_all := map (pad_below q) (columns e WE (seq 0 (List.length lE))) ++ map (pad_above e) (columns q WO (seq 0 (List.length lO))).
Lemma vecs_len : List.length vecs_all = n.
Proof. unfold vecs_all, columns. rewrite app_length, !map_length, !seq_length, lenE, lenO. apply en. Qed.
Lemma vecs_at j : (j < n)%nat -> fst (nth j vecs_all dv) = n /\ forall i, (i < n)%nat -> mvec n V (snd (nth j vecs_all dv)) i = W i j.
Proof.
  intros Hj. pose proof en as En. unfold vecs_all.
  assert (Lc : List.length (map (pad_below q) (columns e WE (seq 0 (List.length lE)))) = e).
  { unfold columns. rewrite !map_length, seq_length. apply lenE. }
  destruct (Nat.lt_ge_cases j e) as [Lj|Lj].
  - rewrite nth_app_lt by lia. unfold columns.
    rewrite (map_nth_lt (pad_below q) _ dv) by (rewrite map_length, seq_length, lenE; lia).
    rewrite (map_nth_lt (fun j => (e, fun i => WE i j)) _ 0%nat) by (rewrite seq_length, lenE; lia).
    rewrite seq_nth by (rewrite lenE; lia). cbn [Nat.add]. unfold pad_below. cbn [fst snd]. split; [lia|].
    intros i Hi. unfold W. change (joined WE WO i j) with ((fun i => joined WE WO i j) i). rewrite (join_lt WE WO j Lj).
    apply mvec_ext. intros k Hk. unfold pE. reflexivity.
  - rewrite app_nth2 by lia. rewrite Lc. unfold columns.
    rewrite (map_nth_lt (pad_above e) _ dv) by (rewrite map_length, seq_length, lenO; lia).
    rewrite (map_nth_lt (fun j => (q, fun i => WO i j)) _ 0%nat) by (rewrite seq_length, lenO; lia).
    rewrite seq_nth by (rewrite lenO; lia). cbn [Nat.add]. unfold pad_above. cbn [fst snd]. split; [lia|].
    intros i Hi. unfold W. change (joined WE WO i j) with ((fun i => joined WE WO i j) i). rewrite (join_ge WE WO j Lj).
    apply mvec_ext. intros k Hk. unfold pO. reflexivity.
Qed.
Definition symm1 := repeat 1%Z e ++ repeat (-1)%Z e.
Lemma symm_at j : (j < e + e)%nat -> (j < List.length symm1)%nat /\ nth j symm1 0%Z = if Nat.ltb j e then 1%Z else (-1)%Z.
Proof.
  intros Hj. unfold symm1. rewrite app_length, !repeat_length. split; [lia|].
  destruct (Nat.ltb_spec j e).
  - rewrite nth_app_lt by (rewrite repeat_length; auto). apply nth_repeat_lt. auto.
  - rewrite app_nth2 by (rewrite repeat_length; auto). rewrite repeat_length. apply nth_repeat_lt. lia.
Qed.
End Both.

Lemma both_any : (o_numeig o <= n)%nat ->
  (solve_both argsort eigh o b E O = Raise IndexError /\ (e < q)%nat) \/
  exists ls W idx fs vs sy, solve_both argsort eigh o b E O = Ok (fs, vs, sy) /\
    reports n H ls W idx fs vs /\ nearest n (o_numeig o) (fun j => Rabs (freq_of (nth j ls 0) - o_sigma o)) idx /\
    List.length sy = o_numeig o /\
    forall c, (c < o_numeig o)%nat -> label (nth c sy 0%Z) (snd (nth c vs dv)).
Proof.
  intros Hn. unfold solve_both. rewrite HE, HO, Hev, Hod.
  destruct (eigh q (plus_eye O)) as [lO WO] eqn:QO. destruct (eigh e (plus_eye E)) as [lE WE] eqn:QE.
  pose proof (sysE lE WE QE) as SE. pose proof (sysO lO WO QO) as SO.
  pose proof (lenE lE WE QE) as LE. pose proof (lenO lO WO QO) as LO. pose proof en as En.
  fold (vecs_all lE lO WE WO). fold symm1.
  set (fr := to_freqs lE ++ to_freqs lO).
  assert (Lf : List.length fr = n) by (unfold fr; rewrite app_length, !to_freqs_len; lia).
  destruct (pick_ok argsort Hs fr (o_sigma o) (o_numeig o)) as (ix & E1 & (N1 & N2 & N3 & N4) & Ha); [lia|].
  rewrite Lf in N3, N4. rewrite E1. cbn [bind].
  rewrite (take_ok 0) by (intros i Hi; rewrite Lf; auto). cbn [bind].
  destruct (forallb (fun i => Nat.ltb i (e + e)) ix) eqn:Hall.
  2:{ left. rewrite (take_raise symm1).
      - cbn [bind]. split; [reflexivity|]. apply Bool.not_true_iff_false in Hall. apply Nat.nle_gt. intros Hq. apply Hall.
        apply forallb_forall. intros i Hi. apply Nat.ltb_lt. specialize (N3 i Hi). lia.
      - intros F. apply Bool.not_true_iff_false in Hall. apply Hall. apply forallb_forall. intros i Hi. apply Nat.ltb_lt.
        specialize (F i Hi). unfold symm1 in F. rewrite app_length, !repeat_length in F. exact F. }
  right. rewrite forallb_forall in Hall.
  assert (Hq : forall i, In i ix -> (i < e + e)%nat) by (intros i Hi; apply Nat.ltb_lt; auto).
  rewrite (take_ok 0%Z) by (intros i Hi; apply symm_at; auto). cbn [bind].
  rewrite (take_ok dv) by (intros i Hi; rewrite (vecs_len lE lO WE WO QE QO); auto). cbn [bind].
  rewrite back_ok.
  2:{ intros v Hv. apply in_map_iff in Hv. destruct Hv as (j & <- & Hj). apply (vecs_at lE lO WE WO QE QO). auto. }
  cbn [bind].
  set (ls := map (fun l => l - 1) lE ++ map (fun l => l - 1) lO).
  assert (Hf : forall j, (j < n)%nat -> nth j fr 0 = freq_of (nth j ls 0)) by (intros; apply (freq_joint lE lO WE WO QE QO); auto).
  exists ls, (joined WE WO), ix. do 3 eexists. split; [reflexivity|].
  assert (Hvec : forall c, (c < List.length ix)%nat -> nth c (map (fun v => (n, mvec n V (snd v))) (map (fun i => nth i (vecs_all lE lO WE WO) dv) ix)) dv
     = (n, mvec n V (snd (nth (nth c ix 0%nat) (vecs_all lE lO WE WO) dv)))).
  { intros c Hc. rewrite (map_nth_lt (fun v => (n, mvec n V (snd v))) _ dv) by (rewrite map_length; auto).
    rewrite (map_nth_lt (fun i => nth i (vecs_all lE lO WE WO) dv) _ 0%nat) by auto. reflexivity. }
  split; [|split; [|split]].
  - split; [apply joint_system; auto|].
    split; [apply map_ext_in; intros j Hj; apply Hf; auto|].
    split; [exact Ha|]. split; [rewrite !map_length; auto|].
    intros c Hc. rewrite Hvec by auto. cbn [fst snd]. split; [reflexivity|]. intros i Hi.
    apply (vecs_at lE lO WE WO QE QO); auto. apply N3, nth_In. auto.
  - split; auto. split; auto. split; auto. intros i j Hi Hj Hnj. rewrite <- !Hf by auto. apply N4; auto.
  - rewrite map_length. exact N1.
  - intros c Hc. rewrite <- N1 in Hc. rewrite Hvec by auto. cbn [fst snd].
    rewrite (map_nth_lt (fun i => nth i symm1 0%Z) _ 0%nat) by auto.
    set (j := nth c ix 0%nat). assert (Hj : (j < n)%nat) by (apply N3, nth_In; auto).
    rewrite (proj2 (symm_at j (Hq j (nth_In _ _ Hc)))).
    destruct (joint_parity _ _ WE WO SE SO j Hj) as [JE JO].
    assert (Hx : forall i, (i < n)%nat -> mvec n V (snd (nth j (vecs_all lE lO WE WO) dv)) i = joined WE WO i j)
      by (apply (vecs_at lE lO WE WO QE QO); auto).
    destruct (Nat.ltb_spec j e) as [Lj|Lj].
    + left. split; [reflexivity|]. intros i Hi. rewrite (Hx i Hi), <- (JE Lj i Hi).
      apply Text; auto.
    + right. split; [reflexivity|]. intros i Hi. rewrite (Hx i Hi), <- (JO Lj i Hi). apply Text; auto.
Qed.

Lemma both_ok : (q <= e)%nat -> (o_numeig o <= n)%nat ->
  exists ls W idx fs vs sy, solve_both argsort eigh o b E O = Ok (fs, vs, sy) /\
    reports n H ls W idx fs vs /\ nearest n (o_numeig o) (fun j => Rabs (freq_of (nth j ls 0) - o_sigma o)) idx /\
    List.length sy = o_numeig o /\
    forall c, (c < o_numeig o)%nat -> label (nth c sy 0%Z) (snd (nth c vs dv)).
Proof. intros Hq Hn. destruct (both_any Hn) as [[_ X]|X]; [lia|exact X]. Qed.
Lemma both_fails : (e < q)%nat -> o_numeig o = n -> solve_both argsort eigh o b E O = Raise IndexError.
Proof.
  intros Hq Hn. unfold solve_both. rewrite HE, HO, Hev, Hod.
  destruct (eigh q (plus_eye O)) as [lO WO] eqn:QO. destruct (eigh e (plus_eye E)) as [lE WE] eqn:QE.
  pose proof (lenE lE WE QE) as LE. pose proof (lenO lO WO QO) as LO. pose proof en as En.
  fold symm1.
  set (fr := to_freqs lE ++ to_freqs lO).
  assert (Lf : List.length fr = n) by (unfold fr; rewrite app_length, !to_freqs_len; lia).
  destruct (pick_ok argsort Hs fr (o_sigma o) (o_numeig o)) as (ix & E1 & (N1 & N2 & N3 & N4) & Ha); [lia|].
  rewrite Lf in N3, N4. rewrite E1. cbn [bind].
  rewrite (take_ok 0) by (intros i Hi; rewrite Lf; auto). cbn [bind].
  rewrite take_raise; [reflexivity|].
  intros Hall.
  assert (I : incl ix (seq 0 (e + e))).
  { intros i Hi. apply in_seq. specialize (Hall i Hi). unfold symm1 in Hall. rewrite app_length, !repeat_length in Hall. lia. }
  pose proof (NoDup_incl_length N2 I) as L. rewrite seq_length in L. lia.
Qed.


(** one block only *)
Definition parity_nearest (even : bool) (ls : list R) (W : cmat) (idx : list nat) : Prop :=
  (forall j, (j < n)%nat -> label (if Nat.ltb j e then 1 else -1)%Z (fun i => W i j)) /\
  List.length idx = o_numeig o /\ NoDup idx /\
  (forall j, In j idx -> (j < n)%nat /\ Nat.ltb j e = even) /\
  forall i j, In i idx -> (j < n)%nat -> Nat.ltb j e = even -> ~ In j idx ->
    Rabs (freq_of (nth i ls 0) - o_sigma o) <= Rabs (freq_of (nth j ls 0) - o_sigma o).

Lemma even_ok : (o_numeig o <= e)%nat ->
  exists ls W idx fs vs, solve_one argsort eigh o b E (pad_below q) = Ok (fs, vs) /\
    reports n H ls W idx fs vs /\ parity_nearest true ls W idx.
Proof.
  intros Hn. unfold solve_one. rewrite HE. rewrite (proj2 (Nat.ltb_ge e (o_numeig o))) by auto.
  destruct (eigh e (plus_eye E)) as [lE WE] eqn:QE. destruct (eigh q (plus_eye O)) as [lO WO] eqn:QO.
  pose proof (sysE lE WE QE) as SE. pose proof (sysO lO WO QO) as SO.
  pose proof (lenE lE WE QE) as LE. pose proof (lenO lO WO QO) as LO. pose proof en as En.
  destruct (pick_ok argsort Hs (to_freqs lE) (o_sigma o) (o_numeig o)) as (ix & E1 & (N1 & N2 & N3 & N4) & Ha); [rewrite to_freqs_len; lia|].
  rewrite to_freqs_len, LE in N3, N4. rewrite E1. cbn [bind].
  rewrite (take_ok 0) by (intros i Hi; rewrite to_freqs_len, LE; auto). cbn [bind].
  assert (Hm : mapM (fun v => back b (pad_below q v)) (columns e WE ix) = Ok (map (fun j => (n, mvec n V (pE (fun c => WE c j)))) ix)).
  { unfold columns. clear E1 N1 N2 N3 N4 Ha. induction ix as [|j t IH]; [reflexivity|]. cbn [map mapM].
    unfold back at 1. rewrite Hcol. unfold pad_below at 1. cbn [fst]. rewrite En, Nat.eqb_refl. cbn [bind].
    rewrite IH. cbn [bind]. rewrite Hr. reflexivity. }
  rewrite Hm. cbn [bind].
  exists (map (fun l => l - 1) lE ++ map (fun l => l - 1) lO), (joined WE WO), ix. do 2 eexists. split; [reflexivity|].
  assert (Hf : forall j, (j < e)%nat -> nth j (to_freqs lE) 0 = freq_of (nth j (map (fun l => l - 1) lE ++ map (fun l => l - 1) lO) 0)).
  { intros j Hj. rewrite nth_app_lt by (rewrite map_length; lia). apply to_freqs_nth. lia. }
  split.
  - split; [apply joint_system; auto|]. split; [apply map_ext_in; intros j Hj; apply Hf; auto|]. split; [exact Ha|].
    split; [apply map_length|]. intros c Hc.
    rewrite (map_nth_lt (fun j => (n, mvec n V (pE (fun c => WE c j)))) _ 0%nat) by auto. cbn [fst snd]. split; [reflexivity|].
    intros i Hi. rewrite <- (join_lt WE WO) by (apply N3, nth_In; auto). reflexivity.
  - split.
    { intros j Hj. destruct (joint_parity _ _ WE WO SE SO j Hj) as [JE JO]. destruct (Nat.ltb_spec j e) as [Lj|Lj]; [left|right]; split; auto. }
    split; auto. split; auto. split.
    { intros j Hj. specialize (N3 j Hj). split; [lia|]. apply Nat.ltb_lt. auto. }
    intros i j Hi Hj Hp Hnj. apply Nat.ltb_lt in Hp. rewrite <- !Hf by auto. apply N4; auto.
Qed.

Lemma odd_ok : (o_numeig o <= q)%nat ->
  exists ls W idx fs vs, solve_one argsort eigh o b O (pad_above e) = Ok (fs, vs) /\
    reports n H ls W idx fs vs /\ parity_nearest false ls W idx.
Proof.
  intros Hn. unfold solve_one. rewrite HO. rewrite (proj2 (Nat.ltb_ge q (o_numeig o))) by auto.
  destruct (eigh e (plus_eye E)) as [lE WE] eqn:QE. destruct (eigh q (plus_eye O)) as [lO WO] eqn:QO.
  pose proof (sysE lE WE QE) as SE. pose proof (sysO lO WO QO) as SO.
  pose proof (lenE lE WE QE) as LE. pose proof (lenO lO WO QO) as LO. pose proof en as En.
  destruct (pick_ok argsort Hs (to_freqs lO) (o_sigma o) (o_numeig o)) as (ix & E1 & (N1 & N2 & N3 & N4) & Ha); [rewrite to_freqs_len; lia|].
  rewrite to_freqs_len, LO in N3, N4. rewrite E1. cbn [bind].
  rewrite (take_ok 0) by (intros i Hi; rewrite to_freqs_len, LO; auto). cbn [bind].
  assert (Hm : mapM (fun v => back b (pad_above e v)) (columns q WO ix) = Ok (map (fun j => (n, mvec n V (pO (fun c => WO c j)))) ix)).
  { unfold columns. clear E1 N1 N2 N3 N4 Ha. induction ix as [|j t IH]; [reflexivity|]. cbn [map mapM].
    unfold back at 1. rewrite Hcol. unfold pad_above at 1. cbn [fst]. rewrite En, Nat.eqb_refl. cbn [bind].
    rewrite IH. cbn [bind]. rewrite Hr. reflexivity. }
  rewrite Hm. cbn [bind].
  exists (map (fun l => l - 1) lE ++ map (fun l => l - 1) lO), (joined WE WO), (map (fun j => (e + j)%nat) ix). do 2 eexists. split; [reflexivity|].
  assert (Hf : forall j, (j < q)%nat -> nth j (to_freqs lO) 0 = freq_of (nth (e + j) (map (fun l => l - 1) lE ++ map (fun l => l - 1) lO) 0)).
  { intros j Hj. rewrite app_nth2 by (rewrite map_length; lia). rewrite map_length, LE.
    replace (e + j - e)%nat with j by lia. apply to_freqs_nth. lia. }
  split.
  - split; [apply joint_system; auto|]. split; [rewrite map_map; apply map_ext_in; intros j Hj; apply Hf; auto|]. split; [exact Ha|].
    split; [rewrite !map_length; auto|]. intros c Hc. rewrite map_length in Hc.
    rewrite (map_nth_lt (fun j => (n, mvec n V (pO (fun c => WO c j)))) _ 0%nat) by auto. cbn [fst snd]. split; [reflexivity|].
    intros i Hi. rewrite (map_nth_lt (fun j => (e + j)%nat) ix 0%nat 0%nat) by auto.
    change (joined WE WO i (e + nth c ix 0%nat)%nat) with ((fun i => joined WE WO i (e + nth c ix 0%nat)%nat) i).
    rewrite (join_ge WE WO) by lia. replace (e + nth c ix 0%nat - e)%nat with (nth c ix 0%nat) by lia. reflexivity.
  - split.
    { intros j Hj. destruct (joint_parity _ _ WE WO SE SO j Hj) as [JE JO]. destruct (Nat.ltb_spec j e) as [Lj|Lj]; [left|right]; split; auto. }
    split; [rewrite map_length; auto|]. split; [apply FinFun.Injective_map_NoDup; auto; intros x y Hxy; lia|]. split.
    { intros j Hj. apply in_map_iff in Hj. destruct Hj as (j' & <- & Hj). specialize (N3 j' Hj). split; [lia|]. apply Nat.ltb_ge. lia. }
    intros i j Hi Hj Hp Hnj. apply Nat.ltb_ge in Hp. apply in_map_iff in Hi. destruct Hi as (i' & <- & Hi).
    assert (Ej : j = (e + (j - e))%nat) by lia. set (j' := (j - e)%nat) in *. clearbody j'. subst j.
    rewrite <- (Hf i') by (apply N3; auto). rewrite <- (Hf j') by lia. apply N4; auto; [lia|]. intros Z. apply Hnj. apply in_map_iff. exists j'. auto.
Qed.
Lemma one_too_many M pad : (nr M < o_numeig o)%nat -> solve_one argsort eigh o b M pad = Raise ValueError.
Proof. intros Hl. unfold solve_one. rewrite (proj2 (Nat.ltb_lt _ _) Hl). reflexivity. Qed.
End Blocks.
