(** The plane waves in use are mapped to themselves (C40), and the GME matrix of
    a symmetric structure commutes with the reflection (C79). *)
From Coq Require Import Permutation.
From Verif Require Import Py CBase LatticeModel LatticeSpec RecipSpec MatElSpec SlabModel MatElModel MatElProofs MatElProofs3
  SymSpec SymModel SymProofs SymProofs2 SymProofs3 SymProofs4 SymProofs5.
Open Scope R_scope.

Fixpoint pos (x : nat) (l : list nat) : nat := match l with [] => 0%nat | y :: t => if Nat.eqb x y then 0%nat else S (pos x t) end.
Lemma pos_spec x l : In x l -> (pos x l < List.length l)%nat /\ nth (pos x l) l 0%nat = x.
Proof.
  induction l as [|y t IH]; intros H; [destruct H|]. cbn [pos]. destruct (Nat.eqb_spec x y) as [->|N]; [simpl; split; auto; lia|].
  destruct H as [->|H]; [congruence|]. destruct (IH H). simpl. split; auto. lia.
Qed.
Lemma take_nth gvec ind j : (j < List.length ind)%nat -> nth j (take_g gvec ind) (0, 0) = nth (nth j ind 0%nat) gvec (0, 0).
Proof.
  intros H. unfold take_g. set (f := fun i => nth i gvec (0, 0)). rewrite (nth_indep _ (0, 0) (f 0%nat)) by (rewrite map_length; auto).
  rewrite map_nth. reflexivity.
Qed.

Section Used.
Variables (t : R) (gvec : list (R * R)) (mate : nat -> nat).
Hypothesis HP : permuted_by (reflect t) gvec mate.
Hypothesis HS : separated gvec.
Definition lmate (ind : list nat) (j : nat) : nat := pos (mate (nth j ind 0%nat)) ind.

Lemma used_mates ind : NoDup ind -> (forall i, In i ind -> (i < List.length gvec)%nat) -> (forall i, In i ind -> In (mate i) ind) ->
  mates (reflect t) (take_g gvec ind) (lmate ind) /\
  forall j, (j < List.length ind)%nat -> (lmate ind j < List.length ind)%nat /\ nth (lmate ind j) ind 0%nat = mate (nth j ind 0%nat).
Proof.
  intros ND Hin Hm.
  assert (K : forall j, (j < List.length ind)%nat -> (lmate ind j < List.length ind)%nat /\ nth (lmate ind j) ind 0%nat = mate (nth j ind 0%nat)).
  { intros j Hj. apply pos_spec, Hm, nth_In; auto. }
  split; auto. intros j Hj. unfold take_g in Hj |- *. rewrite map_length in *. fold (take_g gvec ind). destruct (K j Hj) as [K1 K2].
  destruct (HP (nth j ind 0%nat)) as [P1 [P2 P3]]; [apply Hin, nth_In; auto|].
  split; auto. split.
  - destruct (K (lmate ind j) K1) as [K3 K4]. rewrite K2, P2 in K4.
    apply (proj1 (NoDup_nth ind 0%nat)); auto.
  - intros q Hq. rewrite !take_nth by auto. rewrite <- P3, <- K2. split.
    + intros N. apply (proj1 (NoDup_nth ind 0%nat)); auto. symmetry. apply HS; auto; apply Hin, nth_In; auto.
    + intros ->. unfold near. rewrite !Rminus_eq_0, Rabs_R0. split; apply Rdiv_lt_0_compat; simpl; lra.
Qed.
End Used.

Lemma shift_len x y dl : Rabs (sqrt ((x + dl) * (x + dl) + y * y) - sqrt (x * x + y * y)) <= Rabs dl.
Proof.
  assert (A : forall a b, sqrt (a * a + b * b) = Cmod (a, b)) by (intros; unfold Cmod; f_equal; simpl; ring).
  rewrite !A. assert (D : forall d, Cmod (d, 0) = Rabs d).
  { intros d. rewrite <- A. replace (d * d + 0 * 0) with (Rsqr d) by (unfold Rsqr; ring). apply sqrt_Rsqr_abs. }
  pose proof (Cmod_triangle (x, y) (dl, 0)) as T1. pose proof (Cmod_triangle (x + dl, y) (- dl, 0)) as T2.
  replace (Cplus (x, y) (dl, 0)) with (x + dl, y) in T1 by (apply Ceq; simpl; ring).
  replace (Cplus (x + dl, y) (- dl, 0)) with (x, y) in T2 by (apply Ceq; simpl; ring).
  rewrite D in T1, T2. rewrite Rabs_Ropp in T2. apply Rabs_le. lra.
Qed.

Section Gk.
Variables (t : R) (gvec : list (R * R)) (k : R * R) (mate : nat -> nat).
Hypothesis HP : permuted_by (reflect t) gvec mate.
Hypothesis Hk : reflect t k = k.
Let d := gk_data gvec k 0.
Lemma gk_reflect i : (i < List.length gvec)%nat -> (gk_x d (mate i), gk_y d (mate i)) = reflect t (gk_x d i, gk_y d i).
Proof.
  intros Hi. destruct (HP i Hi) as [_ [_ E]]. unfold d. cbn [gk_x gk_y gk_data]. rewrite E.
  set (g := nth i gvec (0, 0)). rewrite <- Hk at 1 2. pose proof (reflect_add t g k) as A.
  replace (fst g + fst k + 0) with (fst g + fst k) by ring. rewrite A. apply f_equal2; ring.
Qed.
Lemma gk_len_mate i : (i < List.length gvec)%nat -> gk_len d (mate i) = gk_len d i.
Proof.
  intros Hi. pose proof (gk_reflect i Hi) as E.
  assert (X : forall j, gk_len d j = len (gk_x d j, gk_y d j)) by reflexivity. rewrite !X, E.
  unfold len. rewrite reflect_inner. reflexivity.
Qed.
Lemma pq_parts i j : (i < List.length gvec)%nat -> (j < List.length gvec)%nat ->
  pp_mat d (mate i) (mate j) = pp_mat d i j /\ qq_mat d (mate i) (mate j) = qq_mat d i j /\ pq_mat d (mate i) (mate j) = - pq_mat d i j.
Proof.
  intros Hi Hj. pose proof (gk_reflect i Hi) as Ei. pose proof (gk_reflect j Hj) as Ej.
  pose proof (reflect_inner t (gk_x d i, gk_y d i) (gk_x d j, gk_y d j)) as I.
  pose proof (reflect_det t (gk_x d i, gk_y d i) (gk_x d j, gk_y d j)) as D.
  rewrite <- Ei, <- Ej in I, D. unfold LatticeSpec.inner, det in I, D. cbn [fst snd] in I, D.
  unfold pp_mat, qq_mat, pq_mat, pkx, pky, qkx, qky. rewrite !gk_len_mate by auto.
  unfold Rdiv. set (u := / gk_len d i). set (v := / gk_len d j).
  set (x := gk_x d i) in *. set (y := gk_y d i) in *. set (x' := gk_x d j) in *. set (y' := gk_y d j) in *.
  set (X := gk_x d (mate i)) in *. set (Y := gk_y d (mate i)) in *. set (X' := gk_x d (mate j)) in *. set (Y' := gk_y d (mate j)) in *.
  split; [|split].
  - transitivity ((X * X' + Y * Y') * (u * v)); [ring|]. rewrite I. ring.
  - transitivity ((X * X' + Y * Y') * (u * v)); [ring|]. rewrite I. ring.
  - transitivity ((X * Y' - Y * X') * (u * v)); [ring|]. rewrite D. ring.
Qed.
End Gk.

Lemma last_n_in {A} n (l : list A) x : In x (last_n n l) -> In x l.
Proof.
  unfold last_n. destruct n; auto. intros H. rewrite <- (firstn_skipn (List.length l - S n) l). apply in_or_app. auto.
Qed.

(** C40 *)
Lemma used_closed t gvec k mate delta garr te tm eps mode gm :
  permuted_by (reflect t) gvec mate -> reflect t k = k ->
  delta = 0 \/ (forall g i, In g garr -> (i < List.length gvec)%nat -> Rabs delta < Rabs (len (kplus k (nth i gvec (0, 0))) - (g - / 10 ^ 10))) ->
  get_guided (List.length gvec) (gk_len (gk_data gvec k delta)) garr te tm eps mode = Ok gm ->
  NoDup (md_ind gm) /\ (forall i, In i (md_ind gm) -> (i < List.length gvec)%nat) /\ (forall i, In i (md_ind gm) -> In (mate i) (md_ind gm)).
Proof.
  intros HP Hk HD HG. unfold get_guided in HG.
  destruct (nth_error _ _) as [[oms cs]|]; [|discriminate HG].
  destruct (last_n (List.length oms) garr) as [|g0 gt] eqn:E; [discriminate HG|].
  assert (G0 : In g0 garr) by (apply (last_n_in (List.length oms)); rewrite E; left; auto).
  injection HG as <-. cbn [md_ind]. unfold argwhere_gt.
  split; [apply NoDup_filter, seq_NoDup|]. split.
  - intros i Hi. apply filter_In in Hi. destruct Hi as [Hi _]. apply in_seq in Hi. lia.
  - intros i Hi. apply filter_In in Hi. destruct Hi as [Hi Ht]. apply in_seq in Hi. assert (Hi' : (i < List.length gvec)%nat) by lia.
    destruct (HP i Hi') as [P1 [P2 P3]]. apply filter_In. split; [apply in_seq; lia|].
    apply Rltb_true in Ht. apply Rltb_true.
    pose proof (gk_len_mate t gvec k mate HP Hk i Hi') as L0.
    assert (LL : forall j, gk_len (gk_data gvec k 0) j = len (kplus k (nth j gvec (0, 0)))).
    { intros j. cbn [gk_len gk_data]. unfold len, LatticeSpec.inner, kplus. cbn [fst snd]. f_equal. ring. }
    change (g0 - / 10 ^ 10 < gk_len (gk_data gvec k delta) (mate i)). change (g0 - / 10 ^ 10 < gk_len (gk_data gvec k delta) i) in Ht.
    destruct HD as [->|HD]; [eapply Rlt_le_trans; [exact Ht|right; symmetry; exact L0]|].
    assert (SH : forall j, Rabs (gk_len (gk_data gvec k delta) j - gk_len (gk_data gvec k 0) j) <= Rabs delta).
    { intros j. cbn [gk_len gk_data]. rewrite !Rplus_0_r. apply shift_len. }
    pose proof (HD g0 i G0 Hi') as D1. pose proof (HD g0 (mate i) G0 P1) as D2. rewrite <- !LL in D1, D2.
    rewrite L0 in D2. pose proof (SH i) as S1. pose proof (SH (mate i)) as S2. rewrite L0 in S2.
    set (a := gk_len (gk_data gvec k 0) i) in *. set (th := g0 - / 10 ^ 10) in *.
    set (x := gk_len (gk_data gvec k delta) i) in *. set (y := gk_len (gk_data gvec k delta) (mate i)) in *.
    destruct (Rle_or_lt a th) as [Q|Q].
    + rewrite (Rabs_left1 (a - th)) in D1 by lra. apply Rabs_def2b in S1 || (pose proof (Rle_abs (x - a))). lra.
    + rewrite (Rabs_right (a - th)) in D1 by lra. pose proof (Rle_abs (- (y - a))). rewrite Rabs_Ropp in H. lra.
Qed.
Lemma C40_lem th gvec k mate delta garr te tm eps mode gm :
  permuted_by (reflect (rad th)) gvec mate -> separated gvec -> reflect (rad th) k = k ->
  delta = 0 \/ (forall g i, In g garr -> (i < List.length gvec)%nat -> Rabs delta < Rabs (len (kplus k (nth i gvec (0, 0))) - (g - / 10 ^ 10))) ->
  get_guided (List.length gvec) (gk_len (gk_data gvec k delta)) garr te tm eps mode = Ok gm ->
  (forall i, In i (md_ind gm) -> In (mate i) (md_ind gm)) /\
  exists mt, mates (reflect (rad th)) (take_g gvec (md_ind gm)) mt /\
    forall j, (j < List.length (md_ind gm))%nat ->
      nth (mt j) (md_ind gm) 0%nat = mate (nth j (md_ind gm) 0%nat) /\
      ind_g (take_g gvec (md_ind gm)) (app2 (sym_mat th) (nth j (take_g gvec (md_ind gm)) (0, 0))) = Ok [mt j].
Proof.
  intros HP HS Hk HD HG. destruct (used_closed _ _ _ _ _ _ _ _ _ _ _ HP Hk HD HG) as [A [B D]].
  split; auto. destruct (used_mates (rad th) gvec mate HP HS (md_ind gm) A B D) as [M1 M2].
  exists (lmate mate (md_ind gm)). split; auto. intros j Hj. split; [apply M2; auto|].
  apply ind_g_mate; [|unfold take_g; rewrite map_length; auto].
  intros i Hi. destruct (M1 i Hi) as [X [Y Z]]. split; auto. split; auto. intros q Hq. rewrite app2_reflect. auto.
Qed.
