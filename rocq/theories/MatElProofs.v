(** Matrix elements: adjointness (C30) and assembly (C29). *)
From Verif Require Import Py CBase SlabModel SlabProofs MatElModel MatElSpec.
Open Scope R_scope.
Open Scope C_scope.

(** ** adjointness *)
Lemma csin_conj z : (csin z)^* = csin (z^*).
Proof.
  unfold csin. rewrite Cconj_div, Cconj_minus, !cexp_conj, !Cconj_mult, Cconj_R, Cconj_i.
  rewrite Cconj_opp, !Cconj_mult, Cconj_i.
  replace (- (- Ci * z^*)) with (Ci * z^*) by ring. replace (- Ci * z^*) with (- (Ci * z^*)) by ring.
  replace (2 * - Ci) with (- (2 * Ci)) by ring. unfold Cdiv. rewrite Cinv_opp. ring.
Qed.
Lemma csin_opp z : csin (- z) = - csin z.
Proof.
  unfold csin. replace (Ci * - z) with (- (Ci * z)) by ring. replace (- - (Ci * z)) with (Ci * z) by ring.
  field. repeat split; auto using Ci_neq0, C2_neq0.
Qed.
Lemma I_conj dl a d : (I_alpha dl a d)^* = I_alpha (- dl) (- a^*) d.
Proof.
  unfold I_alpha. cbv zeta. rewrite RtoC_opp.
  replace (Cis0 (- a^* + - RtoC dl)) with (Cis0 (a + RtoC dl)).
  2:{ unfold Cis0. cbn [fst snd Cplus Copp Cconj RtoC]. f_equal; [destruct (Reqb (fst a + dl) 0) eqn:E|destruct (Reqb (snd a + 0) 0) eqn:E]; symmetry.
      - apply Reqb_true in E. apply Reqb_true. lra.
      - apply Reqb_false in E. apply Reqb_false. intros F. apply E. lra.
      - apply Reqb_true in E. apply Reqb_true. lra.
      - apply Reqb_false in E. apply Reqb_false. intros F. apply E. lra. }
  destruct (Cis0 (a + RtoC dl)); [apply Cconj_R|].
  rewrite Cconj_mult, csin_conj, !Cconj_div, Cconj_mult, Cconj_plus, !Cconj_R.
  replace (- a^* + - RtoC dl) with (- (a^* + RtoC dl)) by ring. set (x := a^* + RtoC dl).
  replace (- x * RtoC d / 2) with (- (x * RtoC d / 2)) by (unfold Cdiv; ring).
  rewrite csin_opp. unfold Cdiv. rewrite Cinv_opp. ring.
Qed.
Lemma J_conj dl a : (J_alpha dl a)^* = J_alpha (- dl) (- a^*).
Proof.
  unfold J_alpha. rewrite Cconj_div, Cconj_plus, Cconj_R, Cconj_i, RtoC_opp.
  replace (- a^* + - RtoC dl) with (- (a^* + RtoC dl)) by ring. unfold Cdiv. rewrite Cinv_opp. ring.
Qed.
Lemma IJ_conj dl il Nl a ds : (IJ_layer dl il Nl a ds)^* = IJ_layer (- dl) il Nl (- a^*) ds.
Proof.
  unfold IJ_layer. destruct (Nat.eqb il 0); [|destruct (Nat.eqb il (Nl - 1))].
  - rewrite J_conj, Cconj_opp. reflexivity.
  - apply J_conj.
  - apply I_conj.
Qed.


Ltac conj_norm := repeat (rewrite ?csum_conj, ?Cconj_mult, ?Cconj_plus, ?Cconj_minus, ?Cconj_opp, ?Cconj_R, ?Cconj_conj, ?Cconj_i, ?IJ_conj).

Section Adj.
Variables (dl : R) (eps ds : list R) (einv : nat -> cmat) (m1 m2 : gmode).
Hypothesis HE : herm_layers einv.

Lemma sums_eq n f g : (forall i, f i = g i) -> csum n f = csum n g.
Proof. intros; apply csum_ext; auto. Qed.

Lemma te_te_adj qq i j : (forall a b, qq a b = qq b a) ->
  (ent (mat_te_te dl eps ds einv m2 m1 qq) j i)^* = ent (mat_te_te (- dl) eps ds einv m1 m2 qq) i j.
Proof.
  intros Hq. unfold mat_te_te. cbn [ent]. cbv zeta. rewrite !Cconj_mult, csum_conj, !Cconj_R.
  rewrite (Hq (md_g m2 j) (md_g m1 i)). rewrite (Rmult_comm (rsq (md_om m2 j))).
  f_equal. f_equal. apply sums_eq. intros il. conj_norm. rewrite <- HE.
  set (c1 := (md_chi m1 il i)^*). set (c2 := md_chi m2 il j).
  replace (- (c1 - c2)) with (c2 - c1) by ring. replace (- (- c1 + c2)) with (- c2 + c1) by ring.
  replace (- (- c1 - c2)) with (c2 + c1) by ring. replace (- (c1 + c2)) with (- c2 - c1) by ring. ring.
Qed.
Lemma tm_tm_adj gk pp i j : (forall a b, pp a b = pp b a) ->
  (ent (mat_tm_tm dl eps ds einv m2 m1 gk pp) j i)^* = ent (mat_tm_tm (- dl) eps ds einv m1 m2 gk pp) i j.
Proof.
  intros Hq. unfold mat_tm_tm. cbn [ent]. cbv zeta. rewrite csum_conj.
  rewrite (Hq (md_g m2 j) (md_g m1 i)). rewrite (Rmult_comm (gk (md_g m2 j))).
  apply sums_eq. intros il. conj_norm. rewrite <- HE.
  set (c1 := (md_chi m1 il i)^*). set (c2 := md_chi m2 il j).
  replace (- (c1 - c2)) with (c2 - c1) by ring. replace (- (- c1 + c2)) with (- c2 + c1) by ring.
  replace (- (- c1 - c2)) with (c2 + c1) by ring. replace (- (c1 + c2)) with (- c2 - c1) by ring. ring.
Qed.
Lemma te_tm_adj pq i j :
  (ent (mat_tm_te dl eps ds einv m2 m1 pq) j i)^* = ent (mat_te_tm (- dl) eps ds einv m1 m2 (fun a b => pq b a)) i j.
Proof.
  unfold mat_te_tm, mat_tm_te. cbn [ent]. cbv zeta. rewrite !Cconj_mult, csum_conj, !Cconj_R.
  f_equal. f_equal. apply sums_eq. intros il. conj_norm. rewrite <- HE.
  set (c1 := (md_chi m1 il i)^*). set (c2 := md_chi m2 il j).
  replace (- (c1 - c2)) with (c2 - c1) by ring. replace (- (- c1 + c2)) with (- c2 + c1) by ring.
  replace (- (- c1 - c2)) with (c2 + c1) by ring. replace (- (c1 + c2)) with (- c2 - c1) by ring. ring.
Qed.
Lemma tm_te_adj pq i j :
  (ent (mat_te_tm dl eps ds einv m2 m1 (fun a b => pq b a)) j i)^* = ent (mat_tm_te (- dl) eps ds einv m1 m2 pq) i j.
Proof.
  unfold mat_te_tm, mat_tm_te. cbn [ent]. cbv zeta. rewrite !Cconj_mult, csum_conj, !Cconj_R.
  f_equal. f_equal. apply sums_eq. intros il. conj_norm. rewrite <- HE.
  set (c1 := (md_chi m1 il i)^*). set (c2 := md_chi m2 il j).
  replace (- (c1 - c2)) with (c2 - c1) by ring. replace (- (- c1 + c2)) with (- c2 + c1) by ring.
  replace (- (- c1 - c2)) with (c2 + c1) by ring. replace (- (c1 + c2)) with (- c2 - c1) by ring. ring.
Qed.
End Adj.

Lemma block_adj dl eps ds einv d a b i j : herm_layers einv ->
  (ent (mat_block dl eps ds einv d b a) j i)^* = ent (mat_block (- dl) eps ds einv d a b) i j.
Proof.
  intros HE. unfold mat_block. destruct (Nat.even (fst b)), (Nat.even (fst a)).
  - apply te_te_adj; auto. intros. unfold qq_mat. ring.
  - apply (tm_te_adj dl eps ds einv (snd a) (snd b) HE (pq_mat d)).
  - apply (te_tm_adj dl eps ds einv (snd a) (snd b) HE (pq_mat d)).
  - apply tm_tm_adj; auto. intros. unfold pp_mat. ring.
Qed.

(** ** assembly *)
Definition sizes (ms : list (nat * gmode)) : list nat := map (fun m => md_size (snd m)) ms.
Section Asm.
Variable bl : nat * gmode -> nat * gmode -> arr2.
Hypothesis Hr : forall a b, nr (bl a b) = md_size (snd a).
Hypothesis Hc : forall a b, nc (bl a b) = md_size (snd b).
Variable dm : nat * gmode.

Lemma off_S (x : nat) l p : offset (x :: l) (S p) = (x + offset l p)%nat.
Proof. reflexivity. Qed.
Lemma off_le l p q : (p <= q)%nat -> (offset l p <= offset l q)%nat.
Proof.
  revert p q. induction l as [|x l IH]; intros p q H.
  - unfold offset. rewrite !firstn_nil. auto.
  - destruct p, q; try lia; try (unfold offset; simpl; lia). rewrite !off_S. specialize (IH p q). lia.
Qed.
Lemma off_step l p : (p < List.length l)%nat -> offset l (S p) = (offset l p + nth p l 0)%nat.
Proof.
  revert p. induction l as [|x l IH]; intros p H; simpl in H; [lia|].
  destruct p as [|p]; [unfold offset; simpl; lia|]. rewrite !off_S, IH by lia. simpl. lia.
Qed.
Lemma off_all l : offset l (List.length l) = list_sum l.
Proof. unfold offset. rewrite firstn_all. auto. Qed.
Lemma off_inv l n : (n < list_sum l)%nat -> exists p r, (p < List.length l)%nat /\ (r < nth p l 0)%nat /\ n = (offset l p + r)%nat.
Proof.
  revert n. induction l as [|x l IH]; intros n H; simpl in H; [lia|].
  destruct (Nat.lt_ge_cases n x) as [L|L].
  - exists 0%nat, n. simpl. unfold offset. simpl. repeat split; lia.
  - destruct (IH (n - x)%nat) as [p [r [H1 [H2 H3]]]]; [lia|]. exists (S p), r. rewrite off_S. simpl. repeat split; lia.
Qed.
Lemma off_lt l p r : (p < List.length l)%nat -> (r < nth p l 0)%nat -> (offset l p + r < list_sum l)%nat.
Proof.
  intros H1 H2. pose proof (off_step l p H1). pose proof (off_le l (S p) (List.length l) ltac:(lia)). rewrite off_all in *. lia.
Qed.

Lemma hstack_ok m : forall l, l <> [] -> exists A, hstack (map (bl m) l) = Ok A /\ nr A = md_size (snd m) /\ nc A = list_sum (sizes l) /\
  forall q r s, (q < List.length l)%nat -> (s < nth q (sizes l) 0)%nat ->
    ent A r (offset (sizes l) q + s) = ent (bl m (nth q l dm)) r s.
Proof.
  induction l as [|a l IH]; intros Hne; [congruence|].
  destruct l as [|b l].
  - exists (bl m a). cbn [map hstack sizes List.length]. rewrite Hr, Hc.
    split; [reflexivity|]. split; [reflexivity|]. split; [simpl; lia|].
    intros q r s Hq Hs. destruct q; [|simpl in Hq; lia]. reflexivity.
  - destruct IH as [A [E [E1 [E2 E3]]]]; [discriminate|].
    remember (b :: l) as bl'. cbn [map]. 
    assert (HS : hstack (bl m a :: map (bl m) bl') = let* c := hstack (map (bl m) bl') in hcat (bl m a) c).
    { rewrite Heqbl'. reflexivity. }
    rewrite HS, E. cbn [bind]. unfold hcat. rewrite Hr, E1, Nat.eqb_refl.
    eexists. split; [reflexivity|]. cbn [nr nc ent]. rewrite Hc, E2. split; auto. split; auto.
    intros q r s Hq Hs. cbn [sizes map].
    destruct q as [|q].
    + simpl in Hs. replace (offset _ 0) with 0%nat by reflexivity. simpl Nat.add.
      replace (s <? md_size (snd a))%nat with true by (symmetry; apply Nat.ltb_lt; auto). reflexivity.
    + fold (sizes bl'). rewrite off_S. simpl in Hs. fold (sizes bl') in Hs.
      replace (_ <? _)%nat with false by (symmetry; apply Nat.ltb_ge; lia).
      change (nth (S q) (a :: bl') dm) with (nth q bl' dm).
      rewrite <- E3 by (auto; simpl in Hq; lia). f_equal. lia.
Qed.

Lemma rows_ok : forall ms first prev, ms <> [] -> (first = true -> prev = 0%nat) ->
  exists rs A, mapM hstack (block_rows bl first prev ms) = Ok rs /\ vstack rs = Ok A /\
    nr A = list_sum (sizes ms) /\ nc A = (prev + list_sum (sizes ms))%nat /\
    forall p q r s, (p <= q)%nat -> (q < List.length ms)%nat -> (r < nth p (sizes ms) 0)%nat -> (s < nth q (sizes ms) 0)%nat ->
      ent A (offset (sizes ms) p + r) (prev + offset (sizes ms) q + s) = ent (bl (nth p ms dm) (nth q ms dm)) r s.
Proof.
  induction ms as [|m ms IH]; intros first prev Hne Hf; [congruence|].
  destruct (hstack_ok m (m :: ms)) as [H [EH [H1 [H2 H3]]]]; [discriminate|].
  (* the whole row with its zero block *)
  assert (R : exists X, hstack ((if first then [] else [zeros (md_size (snd m)) prev]) ++ map (bl m) (m :: ms)) = Ok X /\
     nr X = md_size (snd m) /\ nc X = (prev + list_sum (sizes (m :: ms)))%nat /\
     forall r j, ent X r (prev + j) = ent H r j).
  { destruct first.
    - exists H. rewrite (Hf eq_refl). simpl app. repeat split; auto.
    - assert (HS : hstack (([zeros (md_size (snd m)) prev]) ++ map (bl m) (m :: ms)) =
        let* c := hstack (map (bl m) (m :: ms)) in hcat (zeros (md_size (snd m)) prev) c) by reflexivity.
      rewrite HS, EH. cbn [bind]. unfold hcat. cbn [zeros nr nc ent]. rewrite H1, Nat.eqb_refl.
      eexists. split; [reflexivity|]. cbn [nr nc ent]. rewrite H2. repeat split; auto.
      intros r j. replace (prev + j <? prev)%nat with false by (symmetry; apply Nat.ltb_ge; lia). f_equal. lia. }
  destruct R as [X [EX [X1 [X2 X3]]]].
  cbn [block_rows mapM]. rewrite EX. cbn [bind].
  destruct ms as [|m2 ms].
  - exists [X], X. cbn [block_rows mapM bind vstack]. split; auto. split; auto. split; [rewrite X1; simpl; lia|]. split; [auto|].
    intros p q r s Hpq Hq Hrr Hs. destruct q; [|simpl in Hq; lia]. destruct p; [|lia].
    replace (offset _ 0) with 0%nat by reflexivity. simpl Nat.add. rewrite Nat.add_0_r.
    rewrite X3. specialize (H3 0%nat r s). simpl in H3. apply H3; auto.
  - destruct (IH false (prev + md_size (snd m))%nat) as [rs [A [E1 [E2 [A1 [A2 A3]]]]]]; [discriminate|discriminate|].
    rewrite E1. cbn [bind]. exists (X :: rs).
    destruct rs as [|r0 rs]; [discriminate E2|].
    assert (VS : vstack (X :: r0 :: rs) = let* b := vstack (r0 :: rs) in vcat X b) by reflexivity.
    rewrite VS, E2. cbn [bind]. unfold vcat. 
    assert (EC : nc X = nc A) by (rewrite X2, A2; cbn [sizes map list_sum fold_right]; simpl; lia).
    rewrite EC, Nat.eqb_refl. eexists. split; [reflexivity|]. split; [reflexivity|]. cbn [nr nc ent].
    split; [rewrite X1, A1; reflexivity|]. split; [rewrite A2; simpl; lia|].
    intros p q r s Hpq Hq Hrr Hs. destruct p as [|p].
    + replace (offset _ 0) with 0%nat by reflexivity. simpl Nat.add. simpl in Hrr.
      replace (r <? nr X)%nat with true by (symmetry; apply Nat.ltb_lt; lia).
      rewrite <- Nat.add_assoc. rewrite X3. rewrite H3 by auto. reflexivity.
    + destruct q as [|q]; [lia|]. change (sizes (m :: m2 :: ms)) with (md_size (snd m) :: sizes (m2 :: ms)) in *.
      rewrite !off_S. rewrite X1.
      replace (_ <? _)%nat with false by (symmetry; apply Nat.ltb_ge; lia).
      change (nth (S p) (m :: m2 :: ms) dm) with (nth p (m2 :: ms) dm). change (nth (S q) (m :: m2 :: ms) dm) with (nth q (m2 :: ms) dm).
      rewrite <- (A3 p q r s); [|lia|simpl in *; lia|exact Hrr|exact Hs]. f_equal; lia.
Qed.

Lemma assembled ms : ms <> [] -> exists M,
  (let* rows := mapM hstack (block_rows bl true 0 ms) in let* mat := vstack rows in fill_lower mat) = Ok M /\
  nr M = list_sum (sizes ms) /\ nc M = list_sum (sizes ms) /\
  (forall i j, ent M i j = (ent M j i)^*) /\
  (forall p r, (p < List.length ms)%nat -> (r < nth p (sizes ms) 0)%nat ->
     ent M (offset (sizes ms) p + r) (offset (sizes ms) p + r) = RtoC (fst (ent (bl (nth p ms dm) (nth p ms dm)) r r))) /\
  (forall p q r s, (p < List.length ms)%nat -> (q < List.length ms)%nat -> (r < nth p (sizes ms) 0)%nat -> (s < nth q (sizes ms) 0)%nat ->
     (offset (sizes ms) p + r < offset (sizes ms) q + s)%nat ->
     ent M (offset (sizes ms) p + r) (offset (sizes ms) q + s) = ent (bl (nth p ms dm) (nth q ms dm)) r s).
Proof.
  intros Hne. destruct (rows_ok ms true 0 Hne (fun _ => eq_refl)) as [rs [A [E1 [E2 [A1 [A2 A3]]]]]].
  rewrite E1. cbn [bind]. rewrite E2. cbn [bind]. unfold fill_lower. rewrite A2, A1. simpl Nat.add. rewrite Nat.eqb_refl.
  eexists. split; [reflexivity|]. cbn [nr nc ent]. split; auto. split; auto. split; [|split].
  - intros i j. rewrite !Cconj_plus. destruct (Nat.lt_trichotomy i j) as [H|[H|H]].
    + replace (i <? j)%nat with true by (symmetry; apply Nat.ltb_lt; auto).
      replace (j <? i)%nat with false by (symmetry; apply Nat.ltb_ge; lia).
      replace (i =? j)%nat with false by (symmetry; apply Nat.eqb_neq; lia).
      replace (j =? i)%nat with false by (symmetry; apply Nat.eqb_neq; lia).
      rewrite !Cconj_R, Cconj_conj. ring.
    + subst j. rewrite Nat.eqb_refl, Nat.ltb_irrefl, !Cconj_R. reflexivity.
    + replace (j <? i)%nat with true by (symmetry; apply Nat.ltb_lt; auto).
      replace (i <? j)%nat with false by (symmetry; apply Nat.ltb_ge; lia).
      replace (i =? j)%nat with false by (symmetry; apply Nat.eqb_neq; lia).
      replace (j =? i)%nat with false by (symmetry; apply Nat.eqb_neq; lia).
      rewrite !Cconj_R. ring.
  - intros p r Hp Hrr. rewrite Nat.eqb_refl, Nat.ltb_irrefl, Cconj_R.
    rewrite <- (A3 p p r r) by auto. cbn [Nat.add]. ring.
  - intros p q r s Hp Hq Hrr Hs L.
    replace (_ <? _)%nat with true by (symmetry; apply Nat.ltb_lt; auto).
    replace (_ <? _)%nat with false by (symmetry; apply Nat.ltb_ge; lia).
    replace (_ =? _)%nat with false by (symmetry; apply Nat.eqb_neq; lia).
    rewrite Cconj_R. rewrite <- (A3 p q r s); auto; [cbn [Nat.add]; ring|].
    destruct (Nat.le_gt_cases p q) as [|G]; auto. exfalso.
    pose proof (off_step (sizes ms) q ltac:(unfold sizes; rewrite map_length; auto)).
    pose proof (off_le (sizes ms) (S q) p ltac:(lia)). lia.
Qed.
End Asm.
