(** The two routines build parity bases. *)
From Coq Require Import Permutation.
From Verif Require Import Py CBase LatticeModel MatElSpec MatElModel SymSpec SymModel SymProofs SymProofs2.
Open Scope R_scope.

Fixpoint gmt (inds : list (list nat)) (mate : nat -> nat -> nat) (i : nat) : nat :=
  match inds with [] => i | x :: t => cat_mt (List.length x) (mate 0%nat) (gmt t (fun a => mate (S a))) i end.
Definition tsign (al : nat) : R := if Nat.even al then - 1 else 1.
Fixpoint gsg (l : list nat) (inds : list (list nat)) (i : nat) : R :=
  match l, inds with al :: l', x :: t => cat_s (List.length x) (fun _ => tsign al) (gsg l' t) i | _, _ => 1 end.

Lemma offset_S x t a : offset (x :: t) (S a) = (x + offset t a)%nat.
Proof. reflexivity. Qed.
Lemma gmt_off inds : forall mate a j, (a < List.length inds)%nat -> (j < List.length (nth a inds []))%nat ->
  let sz := map (@List.length nat) inds in
  (mate a j < List.length (nth a inds []))%nat ->
  gmt inds mate (offset sz a + j)%nat = (offset sz a + mate a j)%nat.
Proof.
  induction inds as [|x t IH]; intros mate a j Ha Hj sz Hm; [simpl in Ha; lia|]. unfold sz. cbn [gmt map].
  destruct a as [|a].
  - change (offset _ 0) with 0%nat. cbn [plus]. unfold cat_mt. simpl in Hj. rewrite (proj2 (Nat.ltb_lt j (List.length x))) by lia. reflexivity.
  - rewrite offset_S. unfold cat_mt. destruct (Nat.ltb_spec (List.length x + offset (map (@List.length nat) t) a + j)%nat (List.length x)); [lia|].
    replace (List.length x + offset (map (@List.length nat) t) a + j - List.length x)%nat with (offset (map (@List.length nat) t) a + j)%nat by lia.
    simpl in Ha, Hj, Hm. rewrite (IH (fun a => mate (S a)) a j) by (auto; lia). lia.
Qed.
Lemma gsg_off l : forall inds a j, List.length inds = List.length l -> (a < List.length inds)%nat -> (j < List.length (nth a inds []))%nat ->
  gsg l inds (offset (map (@List.length nat) inds) a + j)%nat = tsign (nth a l 0%nat).
Proof.
  induction l as [|al l IH]; intros inds a j HL Ha Hj; destruct inds as [|x t]; try discriminate HL; [simpl in Ha; lia|]. cbn [gsg map].
  destruct a as [|a].
  - change (offset _ 0) with 0%nat. cbn [plus]. unfold cat_s. simpl in Hj. rewrite (proj2 (Nat.ltb_lt j (List.length x))) by lia. reflexivity.
  - rewrite offset_S. unfold cat_s. destruct (Nat.ltb_spec (List.length x + offset (map (@List.length nat) t) a + j)%nat (List.length x)); [lia|].
    replace (List.length x + offset (map (@List.length nat) t) a + j - List.length x)%nat with (offset (map (@List.length nat) t) a + j)%nat by lia.
    simpl in HL, Ha, Hj. rewrite (IH t a j) by lia. reflexivity.
Qed.
Lemma off_split sz : forall i, (i < list_sum sz)%nat -> exists a j, (a < List.length sz)%nat /\ (j < nth a sz 0)%nat /\ i = (offset sz a + j)%nat.
Proof.
  induction sz as [|x t IH]; intros i Hi; [simpl in Hi; lia|].
  destruct (Nat.ltb_spec i x) as [H|H].
  - exists 0%nat, i. simpl. repeat split; auto; lia.
  - destruct (IH (i - x)%nat) as [a [j [H1 [H2 H3]]]]; [simpl in Hi; lia|]. exists (S a), j. rewrite offset_S. simpl. repeat split; auto; lia.
Qed.

Section Basis.
Variables (m : (R * R) * (R * R)) (gvec : list (R * R)).
Definition all_mates (inds : list (list nat)) (mate : nat -> nat -> nat) : Prop :=
  forall a, (a < List.length inds)%nat -> mates (app2 m) (take_g gvec (nth a inds [])) (mate a).
Definition all_tail x t mate : all_mates (x :: t) mate -> all_mates t (fun a => mate (S a)).
Proof. intros H a Ha. apply (H (S a)). simpl. lia. Qed.

Lemma tg_len x : List.length (take_g gvec x) = List.length x. Proof. apply map_length. Qed.
Lemma tsign_pm al : tsign al = 1 \/ tsign al = - 1. Proof. unfold tsign. destruct (Nat.even al); auto. Qed.

Lemma dense_list l : forall inds pre mate, List.length inds = List.length l -> all_mates inds mate ->
  exists bl, mapM (fun x => let* dim := get (map (@List.length nat) (pre ++ inds)) (fst x) in let* ind := get (pre ++ inds) (fst x) in
                            dense_block m gvec (snd x) dim ind) (combine (seq (List.length pre) (List.length l)) l) = Ok bl /\
    fst (block_diag bl) = list_sum (map (@List.length nat) inds) /\
    gform (fst (block_diag bl)) (snd (block_diag bl)) (labels bl) (gmt inds mate) (gsg l inds).
Proof.
  induction l as [|al l IH]; intros inds pre mate HL Ha; destruct inds as [|x t]; try discriminate HL.
  - exists []. split; [reflexivity|]. split; [reflexivity|]. apply gform_nil.
  - cbn [List.length seq combine mapM fst snd].
    assert (G1 : get (map (@List.length nat) (pre ++ x :: t)) (List.length pre) = Ok (List.length x)).
    { unfold get. rewrite map_app, nth_error_app2 by (rewrite map_length; auto). rewrite map_length, Nat.sub_diag. reflexivity. }
    assert (G2 : get (pre ++ x :: t) (List.length pre) = Ok x).
    { unfold get. rewrite nth_error_app2 by auto. rewrite Nat.sub_diag. reflexivity. }
    rewrite G1, G2. cbn [bind].
    pose proof (Ha 0%nat ltac:(simpl; lia)) as H0. cbn [nth] in H0.
    destruct (dense_colform m (take_g gvec x) (mate 0%nat) H0) as [B [w [E C]]]. rewrite tg_len in E, C.
    assert (D : dense_block m gvec al (List.length x) x = Ok (List.length x, B, if Nat.even al then fun i => - w i else w)) by (unfold dense_block; rewrite tg_len, E; reflexivity).
    rewrite D. cbn [bind].
    destruct (IH t (pre ++ [x]) (fun a => mate (S a))) as [bl [E2 [F1 F2]]]; [simpl in HL; lia|eapply all_tail; eauto|].
    rewrite <- app_assoc in E2. cbn [app] in E2. rewrite app_length, Nat.add_1_r in E2. rewrite E2. cbn [bind].
    eexists. split; [reflexivity|]. cbn [block_diag]. destruct (block_diag bl) as [n M] eqn:EB. cbn [fst snd] in *. split; [simpl; lia|].
    cbn [labels flat_map fst snd gmt gsg]. change (flat_map (fun x0 : nat * (nat -> nat -> R) * (nat -> R) => map (snd x0) (seq 0 (fst (fst x0)))) bl) with (labels bl).
    apply (gform_cons (List.length x) B w (mate 0%nat) (tsign al)); auto.
    + intros i Hi. rewrite <- tg_len in Hi. destruct (H0 i Hi) as [A [A' _]]. rewrite tg_len in A. auto.
    + apply tsign_pm.
    + rewrite map_length, seq_length. auto.
    + intros c Hc. rewrite nth_indep with (d' := (if Nat.even al then fun i => - w i else w) 0%nat) by (rewrite map_length, seq_length; auto).
      rewrite map_nth, seq_nth by auto. unfold tsign. simpl. destruct (Nat.even al); ring.
Qed.

Lemma sparse_list l : forall inds pre mate off, List.length inds = List.length l -> all_mates inds mate ->
  exists n tr sg, sparse_blocks m gvec (map (@List.length nat) (pre ++ inds)) (pre ++ inds) off (combine (seq (List.length pre) (List.length l)) l)
      = Ok ((off + n)%nat, tr, sg) /\ n = list_sum (map (@List.length nat) inds) /\
    (forall i j, (i < off \/ off + n <= i \/ j < off \/ off + n <= j)%nat -> coo tr i j = 0) /\
    gform n (fun i j => coo tr (i + off) (j + off)) sg (gmt inds mate) (gsg l inds).
Proof.
  induction l as [|al l IH]; intros inds pre mate off HL Ha; destruct inds as [|x t]; try discriminate HL.
  - exists 0%nat, [], []. cbn [List.length seq combine sparse_blocks]. rewrite Nat.add_0_r. split; [reflexivity|]. split; [reflexivity|]. split; [reflexivity|]. apply gform_nil.
  - cbn [List.length seq combine sparse_blocks fst snd].
    assert (G1 : get (map (@List.length nat) (pre ++ x :: t)) (List.length pre) = Ok (List.length x)).
    { unfold get. rewrite map_app, nth_error_app2 by (rewrite map_length; auto). rewrite map_length, Nat.sub_diag. reflexivity. }
    assert (G2 : get (pre ++ x :: t) (List.length pre) = Ok x).
    { unfold get. rewrite nth_error_app2 by auto. rewrite Nat.sub_diag. reflexivity. }
    rewrite G1, G2. cbn [bind].
    pose proof (Ha 0%nat ltac:(simpl; lia)) as H0. cbn [nth] in H0.
    destruct (sparse_colform m (take_g gvec x) (mate 0%nat) H0 off) as [tr [w [ck [E [C O]]]]]. rewrite tg_len in E, C, O.
    rewrite tg_len, E. cbn [bind].
    destruct (IH t (pre ++ [x]) (fun a => mate (S a)) (off + List.length x)%nat) as [n [trs [sgs [E2 [F1 [F2 F3]]]]]]; [simpl in HL; lia|eapply all_tail; eauto|].
    rewrite <- app_assoc in E2. cbn [app] in E2. rewrite app_length, Nat.add_1_r in E2. rewrite E2. cbn [bind].
    exists (List.length x + n)%nat. eexists. eexists. split; [rewrite Nat.add_assoc; reflexivity|]. split; [simpl; lia|]. split.
    + intros i j H. rewrite coo_app, O, F2 by lia. ring.
    + cbn [gmt gsg].
      assert (G : gform (List.length x + n) (cat_V (List.length x) (fun i j => coo tr (i + off) (j + off)) (fun i j => coo trs (i + (off + List.length x)) (j + (off + List.length x))))
         (map (if Nat.even al then fun i => - w i else w) (seq 0 (List.length x)) ++ sgs) (cat_mt (List.length x) (mate 0%nat) (gmt t (fun a => mate (S a))))
         (cat_s (List.length x) (fun _ => tsign al) (gsg l t))).
      { apply (gform_cons (List.length x) _ w (mate 0%nat) (tsign al)); auto.
        + intros i Hi. rewrite <- tg_len in Hi. destruct (H0 i Hi) as [A [A' _]]. rewrite tg_len in A. auto.
        + apply tsign_pm.
        + rewrite map_length, seq_length. auto.
        + intros c Hc. rewrite nth_indep with (d' := (if Nat.even al then fun i => - w i else w) 0%nat) by (rewrite map_length, seq_length; auto).
          rewrite map_nth, seq_nth by auto. unfold tsign. simpl. destruct (Nat.even al); ring. }
      revert G. apply gform_ext; [|auto].
      intros i c Hi Hc. rewrite coo_app. unfold cat_V.
      destruct (Nat.ltb_spec i (List.length x)), (Nat.ltb_spec c (List.length x)), (Nat.leb_spec (List.length x) i), (Nat.leb_spec (List.length x) c); cbn [andb]; try lia.
      * rewrite (F2 (i + off)%nat (c + off)%nat) by lia. ring.
      * rewrite (O (i + off)%nat), (F2 (i + off)%nat) by lia. ring.
      * rewrite (O (i + off)%nat), (F2 (i + off)%nat) by lia. ring.
      * rewrite (O (i + off)%nat) by lia.
        replace (i - List.length x + (off + List.length x))%nat with (i + off)%nat by lia.
        replace (c - List.length x + (off + List.length x))%nat with (c + off)%nat by lia. ring.
Qed.

Section Thm.
Variables (l : list nat) (inds : list (list nat)) (mate : nat -> nat -> nat) (mt : nat -> nat) (s : nat -> R).
Let sz := map (@List.length nat) inds.
Let n := list_sum sz.
Hypothesis HL : List.length inds = List.length l.
Hypothesis Ha : all_mates inds mate.
Hypothesis Hmt : forall a j, (a < List.length inds)%nat -> (j < List.length (nth a inds []))%nat ->
  mt (offset sz a + j)%nat = (offset sz a + mate a j)%nat /\ s (offset sz a + j)%nat = if Nat.even (nth a l 0%nat) then - 1 else 1.

Lemma mt_glob i : (i < n)%nat -> mt i = gmt inds mate i /\ s i = gsg l inds i.
Proof.
  intros Hi. destruct (off_split sz i Hi) as [a [j [A [B ->]]]]. unfold sz in A. rewrite map_length in A.
  assert (B' : (j < List.length (nth a inds []))%nat).
  { unfold sz in B. change 0%nat with (@List.length nat []) in B. rewrite map_nth in B. auto. }
  destruct (Hmt a j A B') as [E1 E2]. rewrite E1, E2. unfold sz. rewrite gmt_off, gsg_off; auto.
  pose proof (Ha a A) as M. unfold mates in M. rewrite tg_len in M. apply (M j B').
Qed.

Lemma mt_facts : invol n mt /\ forall i, (i < n)%nat -> s (mt i) = s i /\ (s i = 1 \/ s i = - 1).
Proof.
  destruct (dense_list l inds [] mate HL Ha) as [bl [E [F1 F2]]]. fold sz in F1. fold n in F1. rewrite F1 in F2.
  apply gform_ext with (V' := snd (block_diag bl)) (mt' := mt) (s' := s) in F2; [|auto|intros i Hi; apply mt_glob; auto].
  destruct F2 as [_ [I [S _]]]. auto.
Qed.

Lemma dense_parity : exists b, basis_dense m gvec l sz inds = Ok b /\
  sb_rows b = n /\ sb_cols b = n /\ (sb_even b + sb_odd b)%nat = n /\ parity_basis n (sb_even b) (refl_op mt s) (sb_v b) /\
  forall i c, Cconj (sb_v b i c) = sb_v b i c.
Proof.
  unfold basis_dense, enum. destruct (dense_list l inds [] mate HL Ha) as [bl [E [F1 F2]]]. cbn [app List.length] in E.
  fold sz in E. rewrite E. cbn [bind]. destruct (block_diag bl) as [n' V]. cbn [fst snd] in *. fold sz in F1. fold n in F1. subst n'.
  apply gform_ext with (V' := V) (mt' := mt) (s' := s) in F2; [|auto|intros i Hi; apply mt_glob; auto].
  destruct (gform_basis n V _ mt s F2) as [idx [ev [od [O [S1 [S2 [_ S3]]]]]]]. rewrite O.
  eexists. split; [reflexivity|]. cbn. rewrite S2. repeat split; auto; try apply S3. intros. apply Cconj_R.
Qed.

Lemma coo_P idx c i : (c < List.length idx)%nat ->
  coo (map (fun c => (1, nth c idx 0%nat, c)) (seq 0 (List.length idx))) i c = dlt i (nth c idx 0%nat).
Proof.
  intros Hc. unfold coo. rewrite map_map. cbn [fst snd].
  replace (rsuml _) with (rsuml (map (fun x => if Nat.eqb x c then dlt i (nth c idx 0%nat) else 0) (seq 0 (List.length idx)))).
  - assert (G : forall k r, rsuml (map (fun x => if Nat.eqb x c then r else 0) (seq k (List.length idx))) = if (Nat.leb k c && Nat.ltb c (k + List.length idx))%bool then r else 0).
    { generalize (List.length idx). intros N. induction N as [|N IH]; intros k r.
      - simpl. destruct (Nat.leb_spec k c), (Nat.ltb_spec c (k + 0)); try lia; reflexivity.
      - cbn [seq map rsuml fold_right]. fold (rsuml (map (fun x => if Nat.eqb x c then r else 0) (seq (S k) N))). rewrite IH.
        destruct (Nat.eqb_spec k c), (Nat.leb_spec (S k) c), (Nat.ltb_spec c (S k + N)), (Nat.leb_spec k c), (Nat.ltb_spec c (k + S N)); try lia; cbn [andb]; ring. }
    rewrite G. simpl. rewrite (proj2 (Nat.ltb_lt c (List.length idx))) by auto. reflexivity.
  - f_equal. apply map_ext_in. intros x Hx. unfold dlt. destruct (Nat.eqb_spec x c) as [->|N].
    + rewrite andb_true_r. rewrite (Nat.eqb_sym i). reflexivity.
    + rewrite andb_false_r. reflexivity.
Qed.

Lemma sparse_parity : exists b, basis_sparse m gvec l sz inds = Ok b /\
  sb_rows b = n /\ sb_cols b = n /\ (sb_even b + sb_odd b)%nat = n /\ parity_basis n (sb_even b) (refl_op mt s) (sb_v b) /\
  forall i c, Cconj (sb_v b i c) = sb_v b i c.
Proof.
  unfold basis_sparse, enum. destruct (sparse_list l inds [] mate 0 HL Ha) as [n' [tr [sg [E [F1 [F2 F3]]]]]]. cbn [app List.length] in E.
  fold sz in E, F1. fold n in F1. subst n'. rewrite E. cbn [bind plus].
  apply gform_ext with (V' := coo tr) (mt' := mt) (s' := s) in F3; [|intros i c _ _; rewrite !Nat.add_0_r; auto|intros i Hi; apply mt_glob; auto].
  destruct (gform_basis n (coo tr) _ mt s F3) as [idx [ev [od [O [S1 [S2 [S3 S4]]]]]]]. rewrite O.
  eexists. split; [reflexivity|]. cbn. split; auto. split; auto. split; auto.
  split; [|intros i c; unfold mmul; rewrite csum_conj; apply csum_ext; intros k _; rewrite Cconj_mult, !Cconj_R; reflexivity].
  set (P := coo (map (fun c => (1, nth c idx 0%nat, c)) (seq 0 (List.length idx)))).
  assert (EV : forall i c, (i < n)%nat -> (c < n)%nat -> mmul n (fun i j => RtoC (coo tr i j)) (fun i j => RtoC (P i j)) i c = RtoC (coo tr i (nth c idx 0%nat))).
  { intros i c Hi Hc. unfold mmul. rewrite (csum_ext n _ (fun k => (RtoC (dlt k (nth c idx 0%nat)) * RtoC (coo tr i k))%C)).
    - apply (csum_dlt n (nth c idx 0%nat) (fun k => RtoC (coo tr i k))). auto.
    - intros k Hk. unfold P. rewrite coo_P by lia. ring. }
  destruct S4 as [P1 [P2 [P3 P4]]]. split; [|split; [|split]].
  - intros a b A B. rewrite <- P1 by auto. apply csum_ext. intros k Hk. unfold madj. rewrite !EV by auto. reflexivity.
  - intros a b A B. rewrite <- P2 by auto. apply csum_ext. intros k Hk. unfold madj. rewrite !EV by auto. reflexivity.
  - intros i c Hi Hc. rewrite EV by (auto; lia). rewrite <- P3 by auto. unfold refl_op. f_equal. apply EV; [|lia].
    destruct F3 as [_ [I _]]. apply I. auto.
  - intros i c Hi Hc. rewrite EV by (auto; lia). rewrite <- P4 by auto. unfold refl_op. f_equal. apply EV; [|lia].
    destruct F3 as [_ [I _]]. apply I. auto.
Qed.
End Thm.
End Basis.
