(** The Hamiltonian at k and at M k for an operation M that leaves the crystal and
    the set of plane waves unchanged. *)
From Coq Require Import Permutation List.
From Coq Require Import Nsatz.
From Verif Require Import Py CBase SlabModel MatElModel MatElSpec MatElProofs MatElProofs3 RunModel RunSpec RunProofs RunProofs5 InvSpec InvProofs InvProofs3 GinvProofs.
From Verif Require Import LatticeSpec.
Open Scope R_scope.
Open Scope list_scope.

(** ** finite choices *)
Lemma choose_nat {A} (d : A) n (Q : nat -> A -> Prop) : (forall i, (i < n)%nat -> exists a, Q i a) -> exists f, forall i, (i < n)%nat -> Q i (f i).
Proof.
  induction n as [|n IH]; intros H; [exists (fun _ => d); intros; lia|]. destruct IH as (f & F); [intros; apply H; lia|]. destruct (H n ltac:(lia)) as (a & Ha).
  exists (fun i => if Nat.eqb i n then a else f i). intros i Hi. destruct (Nat.eqb_spec i n) as [->|Ne]; [exact Ha|]. apply F. lia.
Qed.
Lemma off_uniq sz p q r s : (p < List.length sz)%nat -> (q < List.length sz)%nat -> (r < nth p sz 0)%nat -> (s < nth q sz 0)%nat ->
  (offset sz p + r = offset sz q + s)%nat -> p = q /\ r = s.
Proof.
  intros Hp Hq Hr Hs L. destruct (Nat.lt_trichotomy p q) as [G|[G|G]].
  - pose proof (off_step sz p Hp). pose proof (off_le sz (S p) q ltac:(lia)). lia.
  - subst. split; auto. lia.
  - pose proof (off_step sz q Hq). pose proof (off_le sz (S q) p ltac:(lia)). lia.
Qed.
(** the permutation made of one permutation per block *)
Lemma blocks_perm sz rho : (forall p, (p < List.length sz)%nat -> perm_on (nth p sz 0%nat) (rho p)) ->
  exists tau, perm_on (list_sum sz) tau /\ forall p r, (p < List.length sz)%nat -> (r < nth p sz 0)%nat -> tau (offset sz p + r)%nat = (offset sz p + rho p r)%nat.
Proof.
  intros H. destruct (choose_nat (0, 0)%nat (list_sum sz) (fun i x => (fst x < List.length sz)%nat /\ (snd x < nth (fst x) sz 0)%nat /\ i = (offset sz (fst x) + snd x)%nat)) as (f & F).
  { intros i Hi. destruct (off_inv sz i Hi) as (p & r & A & B & D). exists (p, r). auto. }
  set (tau := fun i => (offset sz (fst (f i)) + rho (fst (f i)) (snd (f i)))%nat).
  assert (T : forall p r, (p < List.length sz)%nat -> (r < nth p sz 0)%nat -> tau (offset sz p + r)%nat = (offset sz p + rho p r)%nat).
  { intros p r Hp Hr. destruct (F (offset sz p + r)%nat (off_lt _ _ _ Hp Hr)) as (A & B & D). destruct (off_uniq sz p (fst (f (offset sz p + r)%nat)) r (snd (f (offset sz p + r)%nat)) Hp A Hr B D) as [E1 E2]. unfold tau. rewrite <- E1, <- E2. reflexivity. }
  exists tau. split; [|exact T]. split.
  - intros i Hi. destruct (F i Hi) as (A & B & _). unfold tau. apply off_lt; auto. apply H; auto.
  - intros i j Hi Hj E. destruct (F i Hi) as (A & B & D). destruct (F j Hj) as (A' & B' & D'). unfold tau in E.
    destruct (off_uniq sz _ _ _ _ A A' (proj1 (H _ A) _ B) (proj1 (H _ A') _ B') E) as [E1 E2]. rewrite <- E1 in E2. rewrite D, D'. rewrite <- E1. f_equal.
    apply (proj2 (H _ A)); auto. rewrite E1. auto.
Qed.
Lemma perm_index (f : nat -> nat) (l l' : list nat) : Permutation (map f l') l -> NoDup l ->
  exists rho, perm_on (List.length l) rho /\ forall r, (r < List.length l)%nat -> f (nth r l' 0%nat) = nth (rho r) l 0%nat.
Proof.
  intros P ND. pose proof (Permutation_length P) as L. rewrite map_length in L.
  destruct (choose_nat 0%nat (List.length l) (fun r x => (x < List.length l)%nat /\ f (nth r l' 0%nat) = nth x l 0%nat)) as (rho & F).
  { intros r Hr. assert (I : In (f (nth r l' 0%nat)) l) by (eapply Permutation_in; [exact P|]; apply in_map, nth_In; lia). apply (In_nth _ _ 0%nat) in I. destruct I as (x & Hx & Ex). exists x. auto. }
  exists rho. split; [|intros; apply F; auto]. split; [intros; apply F; auto|]. intros i j Hi Hj E.
  assert (ND' : NoDup (map f l')) by (eapply Permutation_NoDup; [symmetry; exact P|auto]).
  assert (Q : nth i (map f l') (f 0%nat) = nth j (map f l') (f 0%nat)).
  { rewrite !map_nth. rewrite (proj2 (F i Hi)), (proj2 (F j Hj)), E. reflexivity. }
  apply (proj1 (NoDup_nth (map f l') (f 0%nat)) ND') in Q; auto; rewrite map_length; lia.
Qed.

(** ** the plane waves *)
Definition cross (u v : R * R) : R := fst u * snd v - snd u * fst v.
Lemma iso_cross M : linear_isometry M -> exists e, e * e = 1 /\ forall u v, cross (M u) (M v) = e * cross u v.
Proof.
  intros [A I]. set (a := M (1, 0)). set (b := M (0, 1)). exists (cross a b).
  assert (Ha : inner a a = 1) by (unfold a; rewrite I; unfold inner; cbn [fst snd]; ring).
  assert (Hb : inner b b = 1) by (unfold b; rewrite I; unfold inner; cbn [fst snd]; ring).
  assert (Hab : inner a b = 0) by (unfold a, b; rewrite I; unfold inner; cbn [fst snd]; ring).
  assert (D : cross a b * cross a b = 1).
  { unfold cross. unfold inner in *. replace (_ * _) with ((fst a * fst a + snd a * snd a) * (fst b * fst b + snd b * snd b) - (fst a * fst b + snd a * snd b) * (fst a * fst b + snd a * snd b)) by ring. rewrite Ha, Hb, Hab. ring. }
  split; [exact D|].
  assert (E : forall u, M u = (fst u * fst a + snd u * fst b, fst u * snd a + snd u * snd b)).
  { intros u. assert (X : inner (M u) a = fst u) by (unfold a; rewrite I; unfold inner; cbn [fst snd]; ring). assert (Y : inner (M u) b = snd u) by (unfold b; rewrite I; unfold inner; cbn [fst snd]; ring).
    rewrite <- X, <- Y. clear X Y. destruct (M u) as [x y]. unfold inner, cross in *. cbn [fst snd] in *. destruct a as [a1 a2], b as [b1 b2]. cbn [fst snd] in *.
    clear - Ha Hb Hab. f_equal; nsatz. }
  intros u v. rewrite !E. unfold cross. cbn [fst snd]. ring.
Qed.
Section Sy.
Variables (gvec : list (R * R)) (k k' : R * R) (dgx : R) (M : R * R -> R * R) (sg : nat -> nat).
Let n := List.length gvec.
Hypothesis HM : linear_isometry M.
Hypothesis P : perm_on n sg.
Hypothesis E : forall i, (i < n)%nat -> nth i gvec (0, 0) = M (nth (sg i) gvec (0, 0)).
Hypothesis K : (fst k' + dgx, snd k') = M (fst k + dgx, snd k).
Let d := gk_data gvec k dgx.
Let d' := gk_data gvec k' dgx.
Definition gkv (d : gkdata) (i : nat) : R * R := (gk_x d i, gk_y d i).
Lemma gkv_moved i : (i < n)%nat -> gkv d' i = M (gkv d (sg i)).
Proof.
  intros Hi. pose proof (proj1 HM (nth (sg i) gvec (0, 0)) (fst k + dgx, snd k)) as A. rewrite <- E, <- K in A by auto. cbn [fst snd] in A.
  unfold gkv, d, d', gk_data. cbn [gk_x gk_y]. rewrite !Rplus_assoc. rewrite A. reflexivity.
Qed.
Lemma gkl_inner dd i : dd = d \/ dd = d' -> gk_len dd i = sqrt (inner (gkv dd i) (gkv dd i)).
Proof. intros [-> | ->]; reflexivity. Qed.
Lemma gkl_moved i : (i < n)%nat -> gk_len d' i = gk_len d (sg i).
Proof. intros Hi. rewrite !gkl_inner by auto. rewrite gkv_moved by auto. rewrite (proj2 HM). reflexivity. Qed.
Lemma pp_form dd i j : pp_mat dd i j = inner (gkv dd i) (gkv dd j) * (/ gk_len dd i * / gk_len dd j).
Proof. unfold pp_mat, pkx, pky, inner, gkv, Rdiv. cbn [fst snd]. ring. Qed.
Lemma qq_form dd i j : qq_mat dd i j = pp_mat dd i j.
Proof. unfold qq_mat, pp_mat, qkx, qky, pkx, pky, Rdiv. ring. Qed.
Lemma pq_form dd i j : pq_mat dd i j = cross (gkv dd i) (gkv dd j) * (/ gk_len dd i * / gk_len dd j).
Proof. unfold pq_mat, pkx, pky, qkx, qky, cross, gkv, Rdiv. cbn [fst snd]. ring. Qed.
Lemma pp_moved i j : (i < n)%nat -> (j < n)%nat -> pp_mat d' i j = pp_mat d (sg i) (sg j).
Proof. intros Hi Hj. rewrite !pp_form, !gkv_moved, !gkl_moved, (proj2 HM) by auto. reflexivity. Qed.
Lemma qq_moved i j : (i < n)%nat -> (j < n)%nat -> qq_mat d' i j = qq_mat d (sg i) (sg j).
Proof. intros Hi Hj. rewrite !qq_form. apply pp_moved; auto. Qed.
Variable e : R.
Hypothesis He : forall u v, cross (M u) (M v) = e * cross u v.
Lemma pq_moved i j : (i < n)%nat -> (j < n)%nat -> pq_mat d' i j = e * pq_mat d (sg i) (sg j).
Proof. intros Hi Hj. rewrite !pq_form, !gkv_moved, !gkl_moved, He by auto. ring. Qed.

(** ** one guided mode *)
Definition moved_mode (g g' : gmode) (rho : nat -> nat) : Prop :=
  md_size g' = md_size g /\ perm_on (md_size g) rho /\ (forall r, (r < md_size g)%nat -> (md_g g' r < n)%nat) /\
  (forall r, (r < md_size g)%nat -> sg (md_g g' r) = md_g g (rho r) /\ md_om g' r = md_om g (rho r) /\
     forall il, md_A g' il r = md_A g il (rho r) /\ md_B g' il r = md_B g il (rho r) /\ md_chi g' il r = md_chi g il (rho r)).
Lemma waves_perm thr : Permutation (map sg (argwhere_gt n (gk_len d') thr)) (argwhere_gt n (gk_len d) thr).
Proof.
  unfold argwhere_gt. apply NoDup_Permutation.
  - assert (G : forall l, NoDup l -> (forall x, In x l -> (x < n)%nat) -> NoDup (map sg l)).
    { induction l as [|x l IH]; intros ND H; [constructor|]. inversion ND; subst. cbn [map]. constructor.
      - intros I. apply in_map_iff in I. destruct I as (y & Ey & I). apply (proj2 P) in Ey; [subst; auto| |]; apply H; simpl; auto.
      - apply IH; auto. intros; apply H; simpl; auto. }
    apply G; [apply NoDup_filter, seq_NoDup|]. intros x I. apply filter_In in I. destruct I as [I _]. apply in_seq in I. lia.
  - apply NoDup_filter, seq_NoDup.
  - intros x. rewrite in_map_iff, filter_In, in_seq. split.
    + intros (y & <- & I). apply filter_In in I. destruct I as [I L]. apply in_seq in I. rewrite gkl_moved in L by lia. split; [|exact L]. pose proof (proj1 P y ltac:(lia)). lia.
    + intros [I L]. destruct (perm_inv n sg P) as (tau & T). destruct (T x ltac:(lia)) as [T1 T2]. exists (tau x). split; [exact T2|]. apply filter_In. rewrite in_seq. split; [lia|]. rewrite gkl_moved, T2 by auto. exact L.
Qed.
Lemma guided_moved garr te tm eps m :
  match get_guided n (gk_len d) garr te tm eps m, get_guided n (gk_len d') garr te tm eps m with
  | Ok g, Ok g' => exists rho, moved_mode g g' rho
  | Raise x, Raise y => x = y
  | _, _ => False
  end.
Proof.
  unfold get_guided. destruct (nth_error _ _) as [[oms cs]|]; [|reflexivity]. destruct (last_n _ _) as [|g0 t] eqn:El; [reflexivity|].
  pose proof (waves_perm (g0 - / 10 ^ 10)) as WP. set (ind := argwhere_gt n (gk_len d) _) in *. set (ind' := argwhere_gt n (gk_len d') _) in *.
  pose proof (Permutation_length WP) as WL. rewrite map_length in WL.
  destruct (perm_index sg ind ind' WP) as (rho & R1 & R2); [apply NoDup_filter, seq_NoDup|].
  assert (B : forall r, (r < List.length ind)%nat -> (nth r ind' 0 < n)%nat).
  { intros r Hr. assert (I : In (nth r ind' 0%nat) ind') by (apply nth_In; lia). apply filter_In in I. destruct I as [I _]. apply in_seq in I. lia. }
  exists rho. unfold moved_mode, md_size, md_g. cbn [md_ind md_om md_A md_B md_chi]. split; [exact WL|]. split; [exact R1|]. split; [exact B|].
  intros r Hr. assert (G : gk_len d' (nth r ind' 0%nat) = gk_len d (nth (rho r) ind 0%nat)) by (rewrite gkl_moved, R2 by auto; reflexivity).
  rewrite G. repeat split; auto.
Qed.

(** ** one block *)
Variables (eps ds : list R) (einv : nat -> cmat).
Hypothesis Hinv : forall il i j, (i < n)%nat -> (j < n)%nat -> einv il i j = einv il (sg i) (sg j).
Definition sgn (m : nat) : R := if Nat.even m then 1 else e.
Hypothesis Hee : e * e = 1.
Lemma block_moved dl m1 m2 g1 g1' g2 g2' r1 r2 r s : moved_mode g1 g1' r1 -> moved_mode g2 g2' r2 -> (r < md_size g1)%nat -> (s < md_size g2)%nat ->
  ent (mat_block dl eps ds einv d' (m1, g1') (m2, g2')) r s = (RtoC (sgn m1) * ent (mat_block dl eps ds einv d (m1, g1) (m2, g2)) (r1 r) (r2 s) * RtoC (sgn m2))%C.
Proof.
  intros (S1 & _ & B1 & F1) (S2 & _ & B2 & F2) Hr Hs. destruct (F1 r Hr) as (G1 & O1 & L1). destruct (F2 s Hs) as (G2 & O2 & L2).
  assert (A1 : forall il, md_A g1' il r = md_A g1 il (r1 r)) by (intros; apply L1). assert (A2 : forall il, md_A g2' il s = md_A g2 il (r2 s)) by (intros; apply L2).
  assert (Bb1 : forall il, md_B g1' il r = md_B g1 il (r1 r)) by (intros; apply L1). assert (Bb2 : forall il, md_B g2' il s = md_B g2 il (r2 s)) by (intros; apply L2).
  assert (C1 : forall il, md_chi g1' il r = md_chi g1 il (r1 r)) by (intros; apply L1). assert (C2 : forall il, md_chi g2' il s = md_chi g2 il (r2 s)) by (intros; apply L2).
  assert (EI : forall il, einv il (md_g g1' r) (md_g g2' s) = einv il (md_g g1 (r1 r)) (md_g g2 (r2 s))) by (intros; rewrite Hinv, G1, G2; auto).
  unfold mat_block, sgn. cbn [fst snd]. destruct (Nat.even m1), (Nat.even m2).
  - unfold mat_te_te. cbn [ent]. rewrite O1, O2, qq_moved, G1, G2 by auto.
    erewrite (csum_ext _ (fun il => _)); [|intros il _; rewrite A1, A2, Bb1, Bb2, C1, C2, EI; reflexivity]. ring.
  - unfold mat_te_tm. cbn [ent]. rewrite O1, pq_moved, G1, G2, RtoC_mult by auto.
    erewrite (csum_ext _ (fun il => _)); [|intros il _; rewrite A1, A2, Bb1, Bb2, C1, C2, EI; reflexivity]. ring.
  - unfold mat_tm_te. cbn [ent]. rewrite O2, pq_moved, G1, G2, RtoC_mult by auto.
    erewrite (csum_ext _ (fun il => _)); [|intros il _; rewrite A1, A2, Bb1, Bb2, C1, C2, EI; reflexivity]. ring.
  - unfold mat_tm_tm. cbn [ent].
    erewrite (csum_ext _ (fun il => _)); [|intros il _; rewrite A1, A2, Bb1, Bb2, C1, C2, EI, pp_moved, !gkl_moved, G1, G2 by auto; reflexivity].
    assert (EE : (RtoC e * RtoC e)%C = RtoC 1) by (rewrite <- RtoC_mult, Hee; reflexivity).
    match goal with |- ?x = (_ * ?y * _)%C => transitivity ((RtoC e * RtoC e) * y)%C; [rewrite EE; rewrite Cmult_1_l; reflexivity|ring] end.
Qed.

(** ** the whole matrix *)
Lemma pairs_all (Hh : herm_layers einv) dd ms : ms <> [] -> exists A,
  (let* rows := mapM hstack (block_rows (mat_block 0 eps ds einv dd) true 0 ms) in let* mat := vstack rows in fill_lower mat) = Ok A /\
  nr A = list_sum (sizes ms) /\ nc A = list_sum (sizes ms) /\
  forall p q r s, (p < List.length ms)%nat -> (q < List.length ms)%nat -> (r < nth p (sizes ms) 0)%nat -> (s < nth q (sizes ms) 0)%nat ->
    ent A (offset (sizes ms) p + r) (offset (sizes ms) q + s) = ent (mat_block 0 eps ds einv dd (nth p ms dgm) (nth q ms dgm)) r s.
Proof.
  intros Hne. destruct (assembled (mat_block 0 eps ds einv dd) (bl_nr 0 eps ds einv dd) (bl_nc 0 eps ds einv dd) dgm ms Hne) as (A & E1 & E2 & E3 & E5 & E6 & E7).
  exists A. split; [exact E1|]. split; [exact E2|]. split; [exact E3|]. intros p q r s Hp Hq Hr Hs.
  assert (Z : (- 0)%R = 0%R) by ring. assert (SL : List.length (sizes ms) = List.length ms) by (unfold sizes; apply map_length).
  destruct (Nat.lt_trichotomy (offset (sizes ms) p + r) (offset (sizes ms) q + s)) as [L|[L|L]].
  - apply E7; auto.
  - destruct (off_uniq (sizes ms) p q r s ltac:(lia) ltac:(lia) Hr Hs L) as [-> ->]. rewrite E6 by auto.
    pose proof (block_adj 0 eps ds einv dd (nth q ms dgm) (nth q ms dgm) s s Hh) as A'. rewrite Z in A'.
    set (x := ent _ s s) in *. apply (f_equal snd) in A'. simpl in A'. apply Ceq; simpl; lra.
  - rewrite E5, E7 by auto. pose proof (block_adj 0 eps ds einv dd (nth p ms dgm) (nth q ms dgm) r s Hh) as A'. rewrite Z in A'. exact A'.
Qed.
Definition moved_pair (x x' : nat * gmode) : Prop := fst x' = fst x /\ exists rho, moved_mode (snd x) (snd x') rho.
Lemma modes_moved garr te tm l :
  match mapM (fun m => let* g := get_guided n (gk_len d) garr te tm eps m in Ok (m, g)) l, mapM (fun m => let* g := get_guided n (gk_len d') garr te tm eps m in Ok (m, g)) l with
  | Ok ms, Ok ms' => Forall2 moved_pair ms ms'
  | Raise x, Raise y => x = y
  | _, _ => False
  end.
Proof.
  induction l as [|m l IH]; [constructor|]. cbn [mapM]. pose proof (guided_moved garr te tm eps m) as G.
  destruct (get_guided n (gk_len d) garr te tm eps m) as [g|], (get_guided n (gk_len d') garr te tm eps m) as [g'|]; cbn [bind]; try contradiction; auto.
  destruct (mapM _ l) as [ms|], (mapM (fun m => let* g := get_guided n (gk_len d') garr te tm eps m in Ok (m, g)) l) as [ms'|]; cbn [bind]; try contradiction; auto.
  constructor; auto. split; auto.
Qed.
Lemma sizes_moved ms ms' : Forall2 moved_pair ms ms' -> sizes ms' = sizes ms.
Proof. induction 1 as [|x x' ms ms' (_ & rho & H & _) F IH]; [reflexivity|]. unfold sizes in *. cbn [map]. rewrite IH, H. reflexivity. Qed.
Lemma forall2_at {A B} (Q : A -> B -> Prop) l l' i a b : Forall2 Q l l' -> (i < List.length l)%nat -> Q (nth i l a) (nth i l' b).
Proof. intros F. revert i. induction F as [|x y l l' H F IH]; intros [|i] Hi; cbn [nth List.length] in *; try lia; auto. apply IH. lia. Qed.
Definition twisted (a b : arr2) : Prop := nr b = nr a /\ exists tau u, perm_on (nr a) tau /\ (forall i, (i < nr a)%nat -> (u i * Cconj (u i))%C = RtoC 1) /\
  forall i j, (i < nr a)%nat -> (j < nr a)%nat -> ent b i j = (u i * ent a (tau i) (tau j) * Cconj (u j))%C.
Lemma matrix_moved0 inds garr te tm : herm_layers einv ->
  match construct_mat 0 gvec k dgx inds garr te tm eps ds einv, construct_mat 0 gvec k' dgx inds garr te tm eps ds einv with
  | Ok a, Ok b => twisted a b
  | Raise x, Raise y => x = y
  | _, _ => False
  end.
Proof.
  intros Hh. unfold construct_mat. destruct (gmode_include inds te tm) as [|m0 l]; [reflexivity|]. fold n d d'.
  pose proof (modes_moved garr te tm (m0 :: l)) as MM.
  destruct (mapM _ (m0 :: l)) as [ms|] eqn:Em; destruct (mapM (fun m => let* g := get_guided n (gk_len d') garr te tm eps m in Ok (m, g)) (m0 :: l)) as [ms'|] eqn:Em'; try contradiction; auto.
  cbn [bind]. pose proof (sizes_moved _ _ MM) as SM.
  assert (Ne : ms <> []). { cbn [mapM] in Em. intros ->. destruct (get_guided _ _ _ _ _ _ m0); [|discriminate]. cbn [bind] in Em. destruct (mapM _ l); discriminate. }
  assert (Ne' : ms' <> []) by (intros ->; inversion MM; subst; congruence).
  destruct (pairs_all Hh d ms Ne) as (a & E1 & E2 & _ & E4). destruct (pairs_all Hh d' ms' Ne') as (b & F1 & F2 & _ & F4).
  rewrite E1, F1. rewrite SM in F2, F4. split; [congruence|]. rewrite E2.
  assert (ML : List.length ms' = List.length ms) by (clear -MM; induction MM; cbn [List.length]; auto). rewrite ML in F4.
  assert (SL : List.length (sizes ms) = List.length ms) by (unfold sizes; apply map_length).
  destruct (choose_nat (fun i : nat => i) (List.length ms) (fun p rho => moved_mode (snd (nth p ms dgm)) (snd (nth p ms' dgm)) rho)) as (rho & Hrho).
  { intros p Hp. apply (forall2_at _ _ _ p dgm dgm MM Hp). }
  assert (SZ : forall p, (p < List.length ms)%nat -> nth p (sizes ms) 0%nat = md_size (snd (nth p ms dgm))).
  { intros p Hp. unfold sizes. rewrite (nth_indep _ 0%nat (md_size (snd dgm))) by (rewrite map_length; auto). rewrite (map_nth (fun m => md_size (snd m))). reflexivity. }
  destruct (blocks_perm (sizes ms) rho) as (tau & T1 & T2). { intros p Hp. rewrite SL in Hp. rewrite SZ by auto. apply Hrho; auto. }
  destruct (choose_nat 0 (list_sum (sizes ms)) (fun i x => forall p r, (p < List.length ms)%nat -> (r < nth p (sizes ms) 0)%nat -> i = (offset (sizes ms) p + r)%nat -> x = sgn (fst (nth p ms dgm)))) as (v & Hv).
  { intros i Hi. destruct (off_inv _ _ Hi) as (p & r & Hp & Hr & ->). exists (sgn (fst (nth p ms dgm))). intros q s Hq Hs Q. destruct (off_uniq (sizes ms) p q r s ltac:(lia) ltac:(lia) Hr Hs Q) as [-> _]. reflexivity. }
  assert (SS : forall m, sgn m * sgn m = 1) by (intros m; unfold sgn; destruct (Nat.even m); lra).
  exists tau, (fun i => RtoC (v i)). split; [exact T1|]. split.
  - intros i Hi. rewrite Cconj_R, <- RtoC_mult. f_equal. destruct (off_inv _ _ Hi) as (p & r & Hp & Hr & Q). rewrite (Hv i Hi p r ltac:(lia) Hr Q). apply SS.
  - intros i j Hi Hj. destruct (off_inv _ _ Hi) as (p & r & Hp & Hr & Qi). destruct (off_inv _ _ Hj) as (q & s & Hq & Hs & Qj). rewrite SL in Hp, Hq.
    rewrite Cconj_R, (Hv i Hi p r Hp Hr Qi), (Hv j Hj q s Hq Hs Qj). rewrite Qi, Qj, !T2 by lia. rewrite F4 by auto.
    assert (Rp : (rho p r < nth p (sizes ms) 0)%nat) by (rewrite SZ in Hr |- * by auto; apply (proj1 (proj2 (Hrho p Hp))); auto).
    assert (Rq : (rho q s < nth q (sizes ms) 0)%nat) by (rewrite SZ in Hs |- * by auto; apply (proj1 (proj2 (Hrho q Hq))); auto).
    rewrite E4 by auto.
    pose proof (Hrho p Hp) as Mp. pose proof (Hrho q Hq) as Mq. pose proof (proj1 (forall2_at _ _ _ p dgm dgm MM Hp)) as Np. pose proof (proj1 (forall2_at _ _ _ q dgm dgm MM Hq)) as Nq.
    rewrite SZ in Hr, Hs by auto.
    destruct (nth p ms dgm) as [m1 g1], (nth q ms dgm) as [m2 g2], (nth p ms' dgm) as [m1' g1'], (nth q ms' dgm) as [m2' g2']. cbn [fst snd] in *. subst m1' m2'.
    apply (block_moved 0 m1 m2 g1 g1' g2 g2' (rho p) (rho q)); auto.
Qed.
End Sy.
