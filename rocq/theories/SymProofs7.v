(** The GME matrix of a symmetric structure commutes with the reflection, and so
    separates (C42, C79). *)
From Coq Require Import Permutation.
From Verif Require Import Py CBase LatticeModel LatticeSpec RecipSpec MatElSpec SlabModel MatElModel MatElProofs MatElProofs3
  SymSpec SymModel SymProofs SymProofs2 SymProofs3 SymProofs4 SymProofs5 SymProofs6.
Open Scope R_scope.

Definition square (A : arr2) (n : nat) : Prop := nr A = n /\ nc A = n.
Lemma eigvec_ext n A B l v : (forall i j, A i j = B i j) -> eigvec n A l v -> eigvec n B l v.
Proof. intros E [H1 H2]. split; auto. intros i Hi. rewrite <- H2 by auto. apply csum_ext. intros. rewrite E. reflexivity. Qed.
Lemma eigval_ext n A B l : (forall i j, A i j = B i j) -> eigval n A l <-> eigval n B l.
Proof. intros E. split; intros [v H]; exists v; [apply (eigvec_ext n A B)|apply (eigvec_ext n B A)]; auto. Qed.

Section Sp.
Variables (n : nat) (mt : nat -> nat) (s : nat -> R) (H : cmat) (b : sbasis).
Hypothesis Hr : sb_rows b = n.
Hypothesis Hcol : sb_cols b = n.
Hypothesis Hs : (sb_even b + sb_odd b)%nat = n.
Hypothesis I : invol n mt.
Hypothesis Ss : forall i, (i < n)%nat -> s (mt i) = s i /\ (s i = 1 \/ s i = - 1).
Hypothesis PB : parity_basis n (sb_even b) (refl_op mt s) (sb_v b).
Hypothesis VR : forall i c, Cconj (sb_v b i c) = sb_v b i c.
Hypothesis HC : forall v i, (i < n)%nat -> mvec n H (refl_op mt s v) i = refl_op mt s (mvec n H v) i.

Lemma splits_gen S : (forall i j, S i j = Sm n (sb_v b) H i j) ->
  splits n (refl_op mt s) H (sb_v b) (sb_even b) (n - sb_even b) (ent (fst (blocks_of n (sb_even b) S))) (ent (snd (blocks_of n (sb_even b) S))).
Proof.
  intros ES. set (e := sb_even b) in *. assert (He : (e <= n)%nat) by lia.
  assert (E1 : forall i j, ent (fst (blocks_of n e S)) i j = Ev n (sb_v b) H i j) by (intros; apply ES).
  assert (E2 : forall i j, ent (snd (blocks_of n e S)) i j = Od n e (sb_v b) H i j) by (intros; apply ES).
  unfold splits. split; [lia|]. split; [|split; [|split]].
  - intros c d Hc Hd. rewrite <- !Sm_dot by auto. apply (Sm_off n e mt s); auto.
  - intros l. split.
    + intros [v Hv]. destruct (forth n e mt s (sb_v b) H He I Ss PB VR HC l v Hv) as [A|A]; [left|right].
      * apply (eigval_ext _ _ _ _ E1). exact A.
      * apply (eigval_ext _ _ _ _ E2). exact A.
    + intros [A|A]; destruct A as [u A].
      * apply (eigvec_ext _ _ _ _ _ E1) in A. exists (mvec n (sb_v b) (padE e u)). apply (back_even n e mt s (sb_v b) H He I Ss PB VR HC l u A).
      * apply (eigvec_ext _ _ _ _ _ E2) in A. exists (mvec n (sb_v b) (padO e u)). apply (back_odd n e mt s (sb_v b) H He I Ss PB VR HC l u A).
  - intros l u A. apply (eigvec_ext _ _ _ _ _ E1) in A. apply (back_even n e mt s (sb_v b) H He I Ss PB VR HC l u A).
  - intros l u A. apply (eigvec_ext _ _ _ _ _ E2) in A. apply (back_odd n e mt s (sb_v b) H He I Ss PB VR HC l u A).
Qed.
End Sp.

(** ** C42 for the two routines *)
Section Routines.
Variables (m : (R * R) * (R * R)) (gvec : list (R * R)) (l : list nat) (inds : list (list nat)) (mate : nat -> nat -> nat)
  (mt : nat -> nat) (s : nat -> R) (H : cmat) (thr : R).
Let sz := map (@List.length nat) inds.
Let n := list_sum sz.
Hypothesis HL : List.length inds = List.length l.
Hypothesis Ha : all_mates m gvec inds mate.
Hypothesis Hmt : forall a j, (a < List.length inds)%nat -> (j < List.length (nth a inds []))%nat ->
  mt (offset sz a + j)%nat = (offset sz a + mate a j)%nat /\ s (offset sz a + j)%nat = if Nat.even (nth a l 0%nat) then - 1 else 1.
Hypothesis HC : forall v i, (i < n)%nat -> mvec n H (refl_op mt s v) i = refl_op mt s (mvec n H v) i.
Hypothesis Ht : 0 <= thr.

Lemma dense_splits : exists b, basis_dense m gvec l sz inds = Ok b /\ (sb_even b + sb_odd b)%nat = n /\
  ((0 < sb_even b)%nat -> (0 < sb_odd b)%nat ->
   exists E O, separate thr (Arr n n H) b = Ok (E, O) /\ square E (sb_even b) /\ square O (sb_odd b) /\ splits n (refl_op mt s) H (sb_v b) (sb_even b) (sb_odd b) (ent E) (ent O)) /\
  (sb_even b = 0%nat \/ sb_odd b = 0%nat -> separate thr (Arr n n H) b = Raise ValueError).
Proof.
  destruct (dense_parity m gvec l inds mate mt s HL Ha Hmt) as [b [E [R1 [R2 [R3 [R4 R5]]]]]].
  destruct (mt_facts m gvec l inds mate mt s HL Ha Hmt) as [I Ss]. fold sz in E, R1, R2, R3, R4, I, Ss. fold n in R1, R2, R3, R4, I, Ss.
  exists b. split; auto. split; auto. split.
  - intros He Ho. do 2 eexists. split; [apply (separate_ok n mt s H b thr); auto|].
    replace (sb_odd b) with (n - sb_even b)%nat by lia. split; [split; reflexivity|]. split; [split; reflexivity|]. apply splits_gen; auto.
  - intros Z. unfold separate. cbn [nr nc ent]. rewrite R1, R2, Nat.eqb_refl. cbn [andb]. rewrite Nat.min_l by lia.
    destruct Z as [Z|Z].
    + rewrite Z. rewrite Bool.orb_true_r. reflexivity.
    + replace (n - sb_even b)%nat with 0%nat by lia. reflexivity.
Qed.
Lemma sparse_splits : exists b, basis_sparse m gvec l sz inds = Ok b /\ (sb_even b + sb_odd b)%nat = n /\
  ((0 < sb_even b)%nat -> (0 < sb_odd b)%nat ->
   exists E O, separate_sparse thr (Arr n n H) b = Ok (E, O) /\ square E (sb_even b) /\ square O (sb_odd b) /\ splits n (refl_op mt s) H (sb_v b) (sb_even b) (sb_odd b) (ent E) (ent O)) /\
  (sb_even b = 0%nat \/ sb_odd b = 0%nat -> separate_sparse thr (Arr n n H) b = Raise ValueError).
Proof.
  destruct (sparse_parity m gvec l inds mate mt s HL Ha Hmt) as [b [E [R1 [R2 [R3 [R4 R5]]]]]].
  destruct (mt_facts m gvec l inds mate mt s HL Ha Hmt) as [I Ss]. fold sz in E, R1, R2, R3, R4, I, Ss. fold n in R1, R2, R3, R4, I, Ss.
  exists b. split; auto. split; auto. split.
  - intros He Ho. destruct (separate_sparse_ok n mt s H b thr) as [S [ES ES2]]; auto. do 2 eexists. split; [exact ES|].
    replace (sb_odd b) with (n - sb_even b)%nat by lia. split; [split; reflexivity|]. split; [split; reflexivity|]. apply splits_gen; auto.
  - intros Z. unfold separate_sparse. cbn [nr nc ent]. rewrite R1, R2, Nat.eqb_refl. cbn [andb]. rewrite Nat.min_l by lia.
    destruct Z as [Z|Z].
    + rewrite Z. rewrite Bool.orb_true_r. reflexivity.
    + replace (n - sb_even b)%nat with 0%nat by lia. reflexivity.
Qed.
End Routines.

(** ** C79 *)
Lemma guided_eq ng gk garr te tm eps m g r r' : get_guided ng gk garr te tm eps m = Ok g ->
  gk (md_g g r') = gk (md_g g r) ->
  md_om g r' = md_om g r /\ forall il, md_A g il r' = md_A g il r /\ md_B g il r' = md_B g il r /\ md_chi g il r' = md_chi g il r.
Proof.
  unfold get_guided. destruct (nth_error _ _) as [[oms cs]|]; [|discriminate].
  destruct (last_n (List.length oms) garr) as [|g0 gt]; [discriminate|].
  intros E. injection E as <-. unfold md_g. cbn [md_ind md_om md_A md_B md_chi]. intros ->. auto.
Qed.
Lemma block_refl dl eps ds einv t gvec k mate garr te tm a b r r' s s' :
  permuted_by (reflect t) gvec mate -> reflect t k = k ->
  (forall il i j, (i < List.length gvec)%nat -> (j < List.length gvec)%nat -> einv il (mate i) (mate j) = einv il i j) ->
  let d := gk_data gvec k 0 in
  get_guided (List.length gvec) (gk_len d) garr te tm eps (fst a) = Ok (snd a) ->
  get_guided (List.length gvec) (gk_len d) garr te tm eps (fst b) = Ok (snd b) ->
  (md_g (snd a) r < List.length gvec)%nat -> (md_g (snd b) s < List.length gvec)%nat ->
  md_g (snd a) r' = mate (md_g (snd a) r) -> md_g (snd b) s' = mate (md_g (snd b) s) ->
  ent (mat_block dl eps ds einv d a b) r' s' =
  (RtoC (tsign (fst a)) * RtoC (tsign (fst b)) * ent (mat_block dl eps ds einv d a b) r s)%C.
Proof.
  intros HP Hk HE d Ga Gb La Lb Ea Eb.
  destruct (guided_eq _ _ _ _ _ _ _ _ r r' Ga) as [A1 A2]; [rewrite Ea; apply (gk_len_mate t); auto|].
  destruct (guided_eq _ _ _ _ _ _ _ _ s s' Gb) as [B1 B2]; [rewrite Eb; apply (gk_len_mate t); auto|].
  destruct (pq_parts t gvec k mate HP Hk _ _ La Lb) as [Q1 [Q2 Q3]].
  destruct (pq_parts t gvec k mate HP Hk _ _ Lb La) as [_ [_ Q4]]. fold d in Q1, Q2, Q3, Q4.
  pose proof (gk_len_mate t gvec k mate HP Hk _ La) as G1. pose proof (gk_len_mate t gvec k mate HP Hk _ Lb) as G2. fold d in G1, G2.
  unfold mat_block, tsign. destruct (Nat.even (fst a)), (Nat.even (fst b)).
  - unfold mat_te_te. cbn [ent]. rewrite Ea, Eb, Q2, A1, B1.
    rewrite (csum_ext (List.length eps) _ (fun il => let c1 := (md_chi (snd a) il r)^* in let c2 := md_chi (snd b) il s in
      let A1 := (md_A (snd a) il r)^* in let B1 := (md_B (snd a) il r)^* in
      let A2 := md_A (snd b) il s in let B2 := md_B (snd b) il s in
      einv il (md_g (snd a) r) (md_g (snd b) s) * RtoC (rsq (nth il eps 0%R)) *
      (A1 * A2 * IJ_layer dl il (List.length eps) (c2 - c1) ds + B1 * B2 * IJ_layer dl il (List.length eps) (- c2 + c1) ds
       + A1 * B2 * IJ_layer dl il (List.length eps) (- c2 - c1) ds + B1 * A2 * IJ_layer dl il (List.length eps) (c2 + c1) ds))%C).
    2:{ intros il _. destruct (A2 il) as [X1 [X2 X3]]. destruct (B2 il) as [Y1 [Y2 Y3]]. rewrite X1, X2, X3, Y1, Y2, Y3, HE by auto. reflexivity. }
    set (z := csum _ _). cring.
  - unfold mat_te_tm. cbn [ent]. rewrite Ea, Eb, Q4, A1.
    rewrite (csum_ext (List.length eps) _ (fun il => let c1 := (md_chi (snd a) il r)^* in let c2 := md_chi (snd b) il s in
      let A1 := (md_A (snd a) il r)^* in let B1 := (md_B (snd a) il r)^* in
      let A2 := md_A (snd b) il s in let B2 := md_B (snd b) il s in
      Ci * einv il (md_g (snd a) r) (md_g (snd b) s) * RtoC (nth il eps 0%R) * c2 *
      (- (A1 * A2) * IJ_layer dl il (List.length eps) (c2 - c1) ds + B1 * B2 * IJ_layer dl il (List.length eps) (- c2 + c1) ds
       + A1 * B2 * IJ_layer dl il (List.length eps) (- c2 - c1) ds - B1 * A2 * IJ_layer dl il (List.length eps) (c2 + c1) ds))%C).
    2:{ intros il _. destruct (A2 il) as [X1 [X2 X3]]. destruct (B2 il) as [Y1 [Y2 Y3]]. rewrite X1, X2, X3, Y1, Y2, Y3, HE by auto. reflexivity. }
    set (z := csum _ _). cring.
  - unfold mat_tm_te. cbn [ent]. rewrite Ea, Eb, Q3, B1.
    rewrite (csum_ext (List.length eps) _ (fun il => let c1 := (md_chi (snd a) il r)^* in let c2 := md_chi (snd b) il s in
      let A1 := (md_A (snd a) il r)^* in let B1 := (md_B (snd a) il r)^* in
      let A2 := md_A (snd b) il s in let B2 := md_B (snd b) il s in
      Ci * einv il (md_g (snd a) r) (md_g (snd b) s) * RtoC (nth il eps 0%R) * c1 *
      (A1 * A2 * IJ_layer dl il (List.length eps) (c2 - c1) ds - B1 * B2 * IJ_layer dl il (List.length eps) (- c2 + c1) ds
       + A1 * B2 * IJ_layer dl il (List.length eps) (- c2 - c1) ds - B1 * A2 * IJ_layer dl il (List.length eps) (c2 + c1) ds))%C).
    2:{ intros il _. destruct (A2 il) as [X1 [X2 X3]]. destruct (B2 il) as [Y1 [Y2 Y3]]. rewrite X1, X2, X3, Y1, Y2, Y3, HE by auto. reflexivity. }
    set (z := csum _ _). cring.
  - unfold mat_tm_tm. cbn [ent]. rewrite Ea, Eb, Q1, G1, G2.
    transitivity (csum (List.length eps) (fun il => let c1 := (md_chi (snd a) il r)^* in let c2 := md_chi (snd b) il s in
      let A1 := (md_A (snd a) il r)^* in let B1 := (md_B (snd a) il r)^* in
      let A2 := md_A (snd b) il s in let B2 := md_B (snd b) il s in
      let ppcc := RtoC (pp_mat d (md_g (snd a) r) (md_g (snd b) s)) * (c1 * c2) in
      let gg := RtoC (gk_len d (md_g (snd a) r) * gk_len d (md_g (snd b) s)) in
      einv il (md_g (snd a) r) (md_g (snd b) s) *
      ((ppcc + gg) * (A1 * A2 * IJ_layer dl il (List.length eps) (c2 - c1) ds + B1 * B2 * IJ_layer dl il (List.length eps) (- c2 + c1) ds)
       - (ppcc - gg) * (A1 * B2 * IJ_layer dl il (List.length eps) (- c2 - c1) ds + B1 * A2 * IJ_layer dl il (List.length eps) (c2 + c1) ds)))%C).
    + apply csum_ext. intros il _. destruct (A2 il) as [X1 [X2 X3]]. destruct (B2 il) as [Y1 [Y2 Y3]]. rewrite X1, X2, X3, Y1, Y2, Y3, HE by auto. reflexivity.
    + set (z := csum _ _). cring.
Qed.

Lemma csum_mt n mt f : invol n mt -> csum n (fun i => f (mt i)) = csum n f.
Proof.
  intros I.
  assert (P : Permutation (map mt (seq 0 n)) (seq 0 n)).
  { apply NoDup_Permutation_bis.
    - assert (N : forall l, NoDup l -> (forall x, In x l -> (x < n)%nat) -> NoDup (map mt l)).
      { induction l as [|a l IH]; intros Hl Hx; [constructor|]. inversion Hl; subst. simpl. constructor.
        - intros F. apply in_map_iff in F. destruct F as [c [F1 F2]]. apply H1.
          replace a with c; auto. rewrite <- (proj2 (I c (Hx c (or_intror F2)))), F1. apply I. apply Hx; left; auto.
        - apply IH; auto. intros x Hx'. apply Hx. right; auto. }
      apply N; [apply seq_NoDup|]. intros x Hx. apply in_seq in Hx. lia.
    - rewrite map_length. auto.
    - intros x Hx. apply in_map_iff in Hx. destruct Hx as [y [<- Hy]]. apply in_seq in Hy. apply in_seq.
      pose proof (proj1 (I y ltac:(lia))). lia. }
  rewrite <- (csum_perm n (map mt (seq 0 n)) f P).
  apply csum_ext. intros i Hi.
  rewrite nth_indep with (d' := mt 0%nat) by (rewrite map_length, seq_length; auto). rewrite map_nth, seq_nth by auto. reflexivity.
Qed.
Lemma commutes n mt s H : invol n mt -> (forall i, (i < n)%nat -> s (mt i) = s i /\ (s i = 1 \/ s i = - 1)) ->
  (forall i j, (i < n)%nat -> (j < n)%nat -> H (mt i) (mt j) = (RtoC (s i) * RtoC (s j) * H i j)%C) ->
  forall v i, (i < n)%nat -> mvec n H (refl_op mt s v) i = refl_op mt s (mvec n H v) i.
Proof.
  intros I Ss HH v i Hi. unfold mvec, refl_op. rewrite <- csum_scal_l.
  rewrite <- (csum_mt n mt (fun k => (RtoC (s i) * (H (mt i) k * v k))%C) I).
  apply csum_ext. intros j Hj. rewrite HH by auto.
  destruct (Ss i Hi) as [_ [E|E]]; rewrite E; cring.
Qed.

Lemma present_all (te tm : gtable) inds : (forall m, In m inds -> entry te tm m <> None) -> present te tm inds = inds.
Proof.
  unfold present. induction inds as [|m l IH]; intros H; [reflexivity|]. cbn [filter].
  destruct (entry te tm m) eqn:E; [|exfalso; apply (H m); [left; auto|auto]]. f_equal. apply IH. intros; apply H; right; auto.
Qed.

Lemma C79_lem th gvec k mate inds garr (te tm : gtable) eps ds einv thr :
  permuted_by (reflect (rad th)) gvec mate -> separated gvec -> reflect (rad th) k = k ->
  (forall i, (i < List.length gvec)%nat -> 0 < len (kplus k (nth i gvec (0, 0)))) ->
  herm_layers einv ->
  (forall il i j, (i < List.length gvec)%nat -> (j < List.length gvec)%nat -> einv il (mate i) (mate j) = einv il i j) ->
  (forall m oms cs, entry te tm m = Some (oms, cs) -> (0 < List.length oms <= List.length garr)%nat) ->
  inds <> [] -> (forall m, In m inds -> entry te tm m <> None) -> 0 <= thr ->
  exists ms M mt s,
    construct_mat 0 gvec k 0 inds garr te tm eps ds einv = Ok M /\ map fst ms = inds /\
    Forall (fun x => get_guided (List.length gvec) (gk_len (gk_data gvec k 0)) garr te tm eps (fst x) = Ok (snd x)) ms /\
    let ixs := map (fun x => md_ind (snd x)) ms in
    let sz := map (@List.length nat) ixs in let n := list_sum sz in
    nr M = n /\ nc M = n /\
    (forall a j, (a < List.length ms)%nat -> (j < nth a sz 0)%nat ->
       s (offset sz a + j)%nat = (if Nat.even (nth a inds 0%nat) then - 1 else 1) /\
       exists j', (j' < nth a sz 0)%nat /\ mt (offset sz a + j)%nat = (offset sz a + j')%nat /\
         nth j' (nth a ixs []) 0%nat = mate (nth j (nth a ixs []) 0%nat)) /\
    (exists b, basis_dense (sym_mat th) gvec inds sz ixs = Ok b /\ (sb_even b + sb_odd b)%nat = n /\
      ((0 < sb_even b)%nat -> (0 < sb_odd b)%nat ->
        exists E O, separate thr M b = Ok (E, O) /\ square E (sb_even b) /\ square O (sb_odd b) /\ splits n (refl_op mt s) (ent M) (sb_v b) (sb_even b) (sb_odd b) (ent E) (ent O)) /\
      (sb_even b = 0%nat \/ sb_odd b = 0%nat -> separate thr M b = Raise ValueError)) /\
    (exists b, basis_sparse (sym_mat th) gvec inds sz ixs = Ok b /\ (sb_even b + sb_odd b)%nat = n /\
      ((0 < sb_even b)%nat -> (0 < sb_odd b)%nat ->
        exists E O, separate_sparse thr M b = Ok (E, O) /\ square E (sb_even b) /\ square O (sb_odd b) /\ splits n (refl_op mt s) (ent M) (sb_v b) (sb_even b) (sb_odd b) (ent E) (ent O)) /\
      (sb_even b = 0%nat \/ sb_odd b = 0%nat -> separate_sparse thr M b = Raise ValueError)).
Proof.
  intros HP HS Hk _ HH HE Htab Hne Hall Ht.
  destruct (matrix_pairs gvec k 0 inds garr te tm eps ds einv HH Htab) as [ms [M [E1 [E2 [E3 [E4 [E5 E6]]]]]]].
  { destruct inds as [|m0 l0]; [congruence|]. exists m0. split; [left; auto|]. apply Hall. left; auto. }
  rewrite present_all in E2 by auto.
  set (ixs := map (fun x : nat * gmode => md_ind (snd x)) ms). set (sz := map (@List.length nat) ixs). set (n := list_sum sz).
  assert (Sz : map (fun x : nat * gmode => List.length (md_ind (snd x))) ms = sz) by (unfold sz, ixs; rewrite map_map; reflexivity).
  rewrite Sz in E4, E5, E6. fold n in E4, E5.
  assert (Li : List.length ixs = List.length ms) by (unfold ixs; apply map_length).
  assert (Nx : forall a, nth a ixs [] = md_ind (snd (nth a ms dgm))).
  { intros a. unfold ixs. apply (map_nth (fun x : nat * gmode => md_ind (snd x)) ms dgm a). }
  assert (Ns : forall a, nth a sz 0%nat = List.length (nth a ixs [])).
  { intros a. unfold sz. apply (map_nth (@List.length nat) ixs [] a). }
  assert (Nl : forall a, nth a inds 0%nat = fst (nth a ms dgm)).
  { intros a. rewrite <- E2. apply (map_nth fst ms dgm a). }
  rewrite Forall_forall in E3.
  assert (CL : forall a, (a < List.length ms)%nat -> NoDup (nth a ixs []) /\ (forall i, In i (nth a ixs []) -> (i < List.length gvec)%nat) /\
     (forall i, In i (nth a ixs []) -> In (mate i) (nth a ixs []))).
  { intros a La. rewrite Nx. apply (used_closed _ _ _ _ _ _ _ _ _ _ _ HP Hk (or_introl eq_refl) (E3 _ (nth_In ms dgm La))). }
  set (ml := fun a => lmate mate (nth a ixs [])).
  assert (UM : forall a, (a < List.length ms)%nat -> mates (reflect (rad th)) (take_g gvec (nth a ixs [])) (ml a) /\
     forall j, (j < List.length (nth a ixs []))%nat -> (ml a j < List.length (nth a ixs []))%nat /\
        nth (ml a j) (nth a ixs []) 0%nat = mate (nth j (nth a ixs []) 0%nat)).
  { intros a La. destruct (CL a La) as [A [B D]]. apply (used_mates (rad th) gvec mate HP HS); auto. }
  assert (AM : all_mates (sym_mat th) gvec ixs ml).
  { intros a La. rewrite Li in La. intros i Hi. destruct (proj1 (UM a La) i Hi) as [X [Y Z]]. split; auto. split; auto.
    intros q Hq. rewrite app2_reflect. auto. }
  assert (HL : List.length ixs = List.length inds) by (rewrite Li, <- E2, map_length; reflexivity).
  set (mt := gmt ixs ml). set (s := gsg inds ixs).
  assert (Hmt : forall a j, (a < List.length ixs)%nat -> (j < List.length (nth a ixs []))%nat ->
    mt (offset sz a + j)%nat = (offset sz a + ml a j)%nat /\ s (offset sz a + j)%nat = if Nat.even (nth a inds 0%nat) then - 1 else 1).
  { intros a j La Lj. unfold mt, s, sz. rewrite gmt_off, gsg_off; auto. rewrite Li in La. apply UM; auto. }
  destruct (mt_facts (sym_mat th) gvec inds ixs ml mt s HL AM Hmt) as [I Ss]. fold sz in I, Ss. fold n in I, Ss.
  assert (HC : forall v i, (i < n)%nat -> mvec n (ent M) (refl_op mt s v) i = refl_op mt s (mvec n (ent M) v) i).
  { apply commutes; auto. intros i j Hi Hj.
    destruct (off_split sz i Hi) as [a [r [A1 [A2 ->]]]]. destruct (off_split sz j Hj) as [b [q [B1 [B2 ->]]]].
    unfold sz in A1, B1. rewrite map_length in A1, B1.
    assert (A3 := A2). assert (B3 := B2). rewrite Ns in A3, B3.
    destruct (Hmt a r A1 A3) as [M1 S1]. destruct (Hmt b q B1 B3) as [M2 S2].
    rewrite Li in A1, B1. destruct (proj2 (UM a A1) r A3) as [U1 U2]. destruct (proj2 (UM b B1) q B3) as [V1 V2].
    rewrite M1, M2, S1, S2. rewrite !E6 by (auto; rewrite Ns; auto). rewrite !Nl.
    apply (block_refl 0 eps ds einv (rad th) gvec k mate garr te tm); auto.
    - apply E3, nth_In; auto.
    - apply E3, nth_In; auto.
    - unfold md_g. rewrite <- Nx. apply (proj1 (proj2 (CL a A1))), nth_In; auto.
    - unfold md_g. rewrite <- Nx. apply (proj1 (proj2 (CL b B1))), nth_In; auto.
    - unfold md_g. rewrite <- Nx. auto.
    - unfold md_g. rewrite <- Nx. auto. }
  assert (EM : M = Arr n n (ent M)) by (destruct M; cbn in *; subst; reflexivity).
  exists ms, M, mt, s. split; auto. split; auto. split; [apply Forall_forall; auto|]. cbv zeta. fold ixs. fold sz. fold n.
  split; auto. split; auto. split.
  { intros a j La Lj. rewrite Ns in Lj. destruct (Hmt a j ltac:(lia) Lj) as [X Y]. split; auto.
    destruct (proj2 (UM a La) j Lj) as [U V]. exists (ml a j). rewrite Ns. auto. }
  rewrite EM. cbn [ent].
  split; [apply (dense_splits (sym_mat th) gvec inds ixs ml mt s (ent M) thr); auto|apply (sparse_splits (sym_mat th) gvec inds ixs ml mt s (ent M) thr); auto].
Qed.
