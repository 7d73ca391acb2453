(** The subspaces spanned by a parity basis, the counts, and the invariance of
    inverse matrices; counterexample to C40; sample data. *)
From Verif Require Import Py CBase LatticeModel LatticeSpec RecipSpec MatElSpec SlabModel MatElModel MatElProofs MatElProofs3
  SymSpec SymModel SymProofs SymProofs2 SymProofs3 SymProofs4 SymProofs5 SymProofs6 SymProofs7.
Open Scope R_scope.

Section Span.
Variables (n e : nat) (mt : nat -> nat) (s : nat -> R) (V : cmat).
Hypothesis He : (e <= n)%nat.
Hypothesis I : invol n mt.
Hypothesis Ss : forall i, (i < n)%nat -> s (mt i) = s i /\ (s i = 1 \/ s i = - 1).
Hypothesis PB : parity_basis n e (refl_op mt s) V.
Hypothesis VR : forall i c, Cconj (V i c) = V i c.

Let u (v : cvec) c := mvec n (mtr V) v c.
Lemma u_dot v c : u v c = cdot n (fun i => V i c) v.
Proof. unfold u, mvec, mtr, cdot. apply csum_ext. intros i Hi. rewrite VR. reflexivity. Qed.
Lemma u_refl v c : (c < n)%nat -> cdot n (fun i => V i c) (refl_op mt s v) = if Nat.ltb c e then u v c else (- u v c)%C.
Proof.
  intros Hc. rewrite (refl_sym n e mt s He I Ss), !u_dot. destruct PB as [_ [_ [P1 P2]]]. unfold cdot.
  destruct (Nat.ltb_spec c e) as [L|L]; [|rewrite <- csum_opp]; apply csum_ext; intros i Hi.
  - rewrite P1 by auto. reflexivity.
  - rewrite P2 by auto. rewrite Cconj_opp. ring.
Qed.
Lemma expand v i : (i < n)%nat -> v i = (csum e (fun c => V i c * u v c) + csum (n - e) (fun c => V i (e + c)%nat * u v (e + c)%nat))%C.
Proof.
  intros Hi. rewrite <- (VVt n e mt s V PB VR v i Hi) at 1. unfold mvec at 1. fold (u v).
  replace n with (e + (n - e))%nat at 1 by lia. rewrite csum_add. reflexivity.
Qed.
Lemma Z2 x : x = Copp x -> x = RtoC 0.
Proof. intros E. apply Ceq; [apply (f_equal fst) in E|apply (f_equal snd) in E]; simpl in *; lra. Qed.
Lemma span_even v : (forall i, (i < n)%nat -> refl_op mt s v i = v i) <->
  in_span n (fun i c => V i c) e v.
Proof.
  split.
  - intros H. exists (u v). intros i Hi. rewrite expand at 1 by auto.
    rewrite (csum_0 (n - e)); [ring|]. intros c Hc.
    assert (Z : u v (e + c)%nat = RtoC 0); [|rewrite Z; ring]. apply Z2.
    pose proof (u_refl v (e + c)%nat ltac:(lia)) as E. rewrite (proj2 (Nat.ltb_ge (e + c) e)) in E by lia.
    rewrite <- E. rewrite u_dot. unfold cdot. apply csum_ext. intros j Hj. rewrite H by auto. reflexivity.
  - intros [a Ha] i Hi. destruct PB as [_ [_ [P1 _]]]. unfold refl_op. rewrite !Ha by (auto; apply I; auto).
    rewrite <- csum_scal_l. apply csum_ext. intros c Hc. rewrite <- (P1 i c Hi Hc) at 1. unfold refl_op. ring.
Qed.
Lemma span_odd v : (forall i, (i < n)%nat -> refl_op mt s v i = (- v i)%C) <->
  in_span n (fun i c => V i (e + c)%nat) (n - e) v.
Proof.
  split.
  - intros H. exists (fun c => u v (e + c)%nat). intros i Hi. rewrite expand at 1 by auto.
    rewrite (csum_0 e); [ring|]. intros c Hc.
    assert (Z : u v c = RtoC 0); [|rewrite Z; ring]. apply Z2.
    pose proof (u_refl v c ltac:(lia)) as E. rewrite (proj2 (Nat.ltb_lt c e)) in E by lia.
    rewrite <- E at 1. rewrite u_dot. unfold cdot. rewrite <- csum_opp. apply csum_ext. intros j Hj. rewrite H by auto. ring.
  - intros [a Ha] i Hi. destruct PB as [_ [_ [_ P2]]]. unfold refl_op. rewrite !Ha by (auto; apply I; auto).
    rewrite <- csum_scal_l, <- csum_opp. apply csum_ext. intros c Hc.
    pose proof (P2 i (e + c)%nat Hi ltac:(lia)) as E. unfold refl_op in E.
    transitivity ((RtoC (s i) * V (mt i) (e + c)%nat) * a c)%C; [ring|]. rewrite E. ring.
Qed.
(** even count minus odd count: the sum of the signs of the self-paired functions *)
Lemma count_trace : RtoC (INR e - INR (n - e)) = csum n (fun i => if Nat.eqb (mt i) i then RtoC (s i) else RtoC 0).
Proof.
  destruct PB as [Q1 [Q2 [P1 P2]]].
  transitivity (csum n (fun c => csum n (fun i => Cconj (V i c) * refl_op mt s (fun i => V i c) i)%C)).
  - transitivity (csum n (fun c => if Nat.ltb c e then RtoC 1 else RtoC (- 1))).
    + replace n with (e + (n - e))%nat at 2 by lia. rewrite csum_add.
      rewrite (csum_ext e _ (fun _ => RtoC 1)) by (intros c Hc; rewrite (proj2 (Nat.ltb_lt c e)); auto).
      rewrite (csum_ext (n - e) _ (fun _ => RtoC (- 1))) by (intros c Hc; rewrite (proj2 (Nat.ltb_ge (e + c) e)); auto; lia).
      rewrite !csum_const. cring.
    + apply csum_ext. intros c Hc. pose proof (Q1 c c Hc Hc) as E. unfold mmul, madj, mid in E. rewrite Nat.eqb_refl in E.
      destruct (Nat.ltb_spec c e) as [L|L].
      * rewrite <- E. apply csum_ext. intros i Hi. rewrite P1 by auto. reflexivity.
      * replace (RtoC (- 1)) with (- RtoC 1)%C by cring. rewrite <- E, <- csum_opp. apply csum_ext. intros i Hi. rewrite P2 by auto. ring.
  - rewrite csum_swap. apply csum_ext. intros i Hi.
    pose proof (Q2 (mt i) i (proj1 (I i Hi)) Hi) as E. unfold mmul, madj, mid in E.
    transitivity (RtoC (s i) * csum n (fun c => V (mt i) c * Cconj (V i c)))%C.
    + rewrite <- csum_scal_l. apply csum_ext. intros c Hc. unfold refl_op. ring.
    + rewrite E. destruct (Nat.eqb (mt i) i); ring.
Qed.
End Span.

(** the inverse of a matrix unchanged by the pairing is unchanged by it *)
Lemma inverse_invariant n mate A B : invol n mate ->
  (forall i j, (i < n)%nat -> (j < n)%nat -> A (mate i) (mate j) = A i j) ->
  meq n n (mmul n A B) mid -> meq n n (mmul n B A) mid ->
  forall i j, (i < n)%nat -> (j < n)%nat -> B (mate i) (mate j) = B i j.
Proof.
  intros I HA H1 H2.
  set (B' := fun i j => B (mate i) (mate j)).
  assert (AB : meq n n (mmul n A B') mid).
  { intros i j Hi Hj. unfold mmul, B'.
    transitivity (mid (mate i) (mate j)).
    - rewrite <- (H1 (mate i) (mate j)) by (apply I; auto). unfold mmul.
      rewrite <- (csum_mt n mate (fun k => A (mate i) k * B k (mate j))%C I). apply csum_ext. intros k Hk. rewrite HA by auto. reflexivity.
    - unfold mid. destruct (Nat.eqb_spec (mate i) (mate j)) as [E|E], (Nat.eqb_spec i j) as [F|F]; auto.
      + exfalso. apply F. rewrite <- (proj2 (I i Hi)), E. apply I; auto.
      + subst. congruence. }
  intros i j Hi Hj. change (B' i j = B i j).
  transitivity (mmul n B (mmul n A B') i j).
  - rewrite <- mmul_assoc. transitivity (mmul n mid B' i j); [symmetry; apply mmul_id_l; auto|].
    apply csum_ext. intros k Hk. rewrite H2 by auto. reflexivity.
  - transitivity (mmul n B mid i j); [|apply mmul_id_r; auto].
    apply csum_ext. intros k Hk. rewrite AB by auto. reflexivity.
Qed.

(** ** C40: a plane wave just above the threshold whose partner is just below *)
Definition cx_te : gtable := [([1], [fun _ => (RtoC 1, RtoC 1)])].
Lemma refl90 x y : reflect (rad 90) (x, y) = (- x, y).
Proof.
  unfold reflect, rad. replace (90 * PI / 180) with (PI / 2) by field. rewrite cos_PI2, sin_PI2. cbn [fst snd]. apply f_equal2; ring.
Qed.
Lemma C40_cx : exists gm, let gvec := [(1, 0); (-1, 0)] in
  permuted_by (reflect (rad 90)) gvec (fun i => (1 - i)%nat) /\ separated gvec /\ reflect (rad 90) (0, 0) = (0, 0) /\
  get_guided 2 (gk_len (gk_data gvec (0, 0) (1 / 10 ^ 15))) [1 + / 10 ^ 10] cx_te [] [1; 2; 1] 0 = Ok gm /\
  In 0%nat (md_ind gm) /\ ~ In 1%nat (md_ind gm) /\
  ind_g (take_g gvec (md_ind gm)) (app2 (sym_mat 90) (nth 0 (take_g gvec (md_ind gm)) (0, 0))) = Raise ValueError.
Proof.
  unfold get_guided. cbn [Nat.even cx_te nth_error Nat.div Nat.divmod fst List.length last_n Nat.sub skipn].
  eexists. cbv zeta. split; [|split; [|split; [|split; [reflexivity|]]]].
  - intros [|[|j]] Hj; simpl in Hj |- *; try lia; repeat split; try lia; rewrite refl90; apply f_equal2; ring.
  - intros [|[|i]] [|[|j]] Hi Hj; simpl in Hi, Hj; try lia; intros [N _]; cbn [nth fst] in N.
    + rewrite Rabs_left in N by lra. simpl in N. lra.
    + rewrite Rabs_right in N by lra. simpl in N. lra.
  - rewrite refl90. apply f_equal2; ring.
  - cbn [md_ind]. set (ind := argwhere_gt _ _ _).
    assert (E : ind = [0%nat]).
    { unfold ind, argwhere_gt. cbn [seq filter gk_len gk_data nth fst snd].
      replace (sqrt ((1 + 0 + 1 / 10 ^ 15) * (1 + 0 + 1 / 10 ^ 15) + (0 + 0) * (0 + 0))) with (1 + 1 / 10 ^ 15)
        by (replace ((1 + 0 + 1 / 10 ^ 15) * (1 + 0 + 1 / 10 ^ 15) + (0 + 0) * (0 + 0)) with ((1 + 1 / 10 ^ 15) * (1 + 1 / 10 ^ 15)) by ring;
            rewrite sqrt_square; simpl; lra).
      replace (sqrt ((-1 + 0 + 1 / 10 ^ 15) * (-1 + 0 + 1 / 10 ^ 15) + (0 + 0) * (0 + 0))) with (1 - 1 / 10 ^ 15)
        by (replace ((-1 + 0 + 1 / 10 ^ 15) * (-1 + 0 + 1 / 10 ^ 15) + (0 + 0) * (0 + 0)) with ((1 - 1 / 10 ^ 15) * (1 - 1 / 10 ^ 15)) by ring;
            rewrite sqrt_square; simpl; lra).
      rewrite (proj2 (Rltb_true _ _)) by (simpl; lra). rewrite (proj2 (Rltb_false _ _)) by (simpl; lra). reflexivity. }
    rewrite E. split; [left; auto|]. split; [simpl; intros [|[]]; discriminate|].
    rewrite app2_reflect. cbn [take_g map nth]. rewrite refl90. unfold ind_g. cbn [List.length seq filter nth].
    unfold near_b. cbn [fst snd]. rewrite (proj2 (Rltb_false _ _)); [reflexivity|]. rewrite Rabs_right; unfold thr_g; simpl; lra.
Qed.

(** ** sample data: three plane waves on a line, reflected in the x axis *)
Definition ex_g : list (R * R) := [(0, 0); (0, 1); (0, -1)].
Definition ex_mate (i : nat) : nat := match i with 1%nat => 2%nat | 2%nat => 1%nat | _ => i end.
Lemma refl0 x y : reflect (rad 0) (x, y) = (x, - y).
Proof.
  unfold reflect, rad. replace (0 * PI / 180) with 0 by field. rewrite cos_0, sin_0. cbn [fst snd]. apply f_equal2; ring.
Qed.
Lemma ex_perm : permuted_by (reflect (rad 0)) ex_g ex_mate.
Proof. intros [|[|[|j]]] Hj; simpl in Hj |- *; try lia; repeat split; try lia; rewrite refl0; apply f_equal2; ring. Qed.
Lemma ex_sep : separated ex_g.
Proof.
  intros [|[|[|i]]] [|[|[|j]]] Hi Hj; simpl in Hi, Hj; try lia; intros [_ N]; cbn [nth snd ex_g] in N; exfalso;
    first [rewrite Rabs_right in N by lra|rewrite Rabs_left in N by lra]; simpl in N; lra.
Qed.
Lemma ex_mates : mates (reflect (rad 0)) (take_g ex_g [0%nat; 1%nat; 2%nat]) (lmate ex_mate [0%nat; 1%nat; 2%nat]).
Proof.
  apply (used_mates (rad 0) ex_g ex_mate ex_perm ex_sep).
  - repeat constructor; simpl; intuition discriminate.
  - simpl. intuition lia.
  - simpl. intros i H. repeat (destruct H as [<-|H]; [simpl; tauto|]). destruct H.
Qed.

Definition reflect_pairs (th : R) (gvec : list (R * R)) (l : list nat) (inds : list (list nat)) (mate : nat -> nat -> nat)
  (mt : nat -> nat) (s : nat -> R) : Prop :=
  List.length inds = List.length l /\
  (forall a, (a < List.length inds)%nat -> mates (reflect (rad th)) (take_g gvec (nth a inds [])) (mate a)) /\
  forall a j, (a < List.length inds)%nat -> (j < List.length (nth a inds []))%nat ->
    let sz := map (@List.length nat) inds in
    mt (offset sz a + j)%nat = (offset sz a + mate a j)%nat /\
    s (offset sz a + j)%nat = if Nat.even (nth a l 0%nat) then - 1 else 1.
Lemma pairs_all th gvec l inds mate mt s : reflect_pairs th gvec l inds mate mt s -> all_mates (sym_mat th) gvec inds mate.
Proof.
  intros [_ [H _]] a Ha i Hi. destruct (H a Ha i Hi) as [X [Y Z]]. split; auto. split; auto. intros q Hq. rewrite app2_reflect. auto.
Qed.
Lemma C41_lem th gvec l inds mate mt s : reflect_pairs th gvec l inds mate mt s ->
  let sz := map (@List.length nat) inds in let n := list_sum sz in let T := refl_op mt s in
  forall build, build = basis_dense \/ build = basis_sparse ->
  exists b, build (sym_mat th) gvec l sz inds = Ok b /\ sb_rows b = n /\ sb_cols b = n /\ (sb_even b + sb_odd b)%nat = n /\
    (forall i c, is_real (sb_v b i c)) /\ parity_basis n (sb_even b) T (sb_v b) /\
    RtoC (INR (sb_even b) - INR (sb_odd b)) = csum n (fun i => if Nat.eqb (mt i) i then RtoC (s i) else RtoC 0) /\
    (forall v, (forall i, (i < n)%nat -> T v i = v i) <-> in_span n (sb_v b) (sb_even b) v) /\
    (forall v, (forall i, (i < n)%nat -> T v i = (- v i)%C) <-> in_span n (fun i c => sb_v b i (sb_even b + c)%nat) (sb_odd b) v).
Proof.
  intros HR. pose proof (pairs_all _ _ _ _ _ _ _ HR) as Ha. destruct HR as [HL [_ Hmt]]. cbv zeta.
  destruct (mt_facts (sym_mat th) gvec l inds mate mt s HL Ha Hmt) as [I Ss].
  intros build HB.
  assert (P : exists b, build (sym_mat th) gvec l (map (@List.length nat) inds) inds = Ok b /\
     sb_rows b = list_sum (map (@List.length nat) inds) /\ sb_cols b = list_sum (map (@List.length nat) inds) /\
     (sb_even b + sb_odd b)%nat = list_sum (map (@List.length nat) inds) /\
     parity_basis (list_sum (map (@List.length nat) inds)) (sb_even b) (refl_op mt s) (sb_v b) /\
     forall i c, Cconj (sb_v b i c) = sb_v b i c).
  { destruct HB as [->| ->]; [apply (dense_parity (sym_mat th) gvec l inds mate mt s HL Ha Hmt)|apply (sparse_parity (sym_mat th) gvec l inds mate mt s HL Ha Hmt)]. }
  set (n := list_sum (map (@List.length nat) inds)) in *.
  destruct P as [b [E [R1 [R2 [R3 [R4 R5]]]]]]. exists b. split; auto. split; auto. split; auto. split; auto.
  split.
  { intros i c. exact (R5 i c) || (unfold is_real; pose proof (R5 i c) as X; apply (f_equal snd) in X; unfold Cconj in X; cbn [snd] in X; lra). }
  split; auto.
  assert (O : sb_odd b = (n - sb_even b)%nat) by lia. rewrite O.
  split; [apply (count_trace n (sb_even b) mt s (sb_v b)); auto; lia|].
  split; intros v; [apply (span_even n (sb_even b) mt s (sb_v b)); auto; lia|apply (span_odd n (sb_even b) mt s (sb_v b)); auto; lia].
Qed.
Lemma C42_dense_lem th gvec l inds mate mt s H thr : reflect_pairs th gvec l inds mate mt s -> 
  let sz := map (@List.length nat) inds in let n := list_sum sz in let T := refl_op mt s in
  (forall v i, (i < n)%nat -> mvec n H (T v) i = T (mvec n H v) i) -> 0 <= thr ->
  exists b, basis_dense (sym_mat th) gvec l sz inds = Ok b /\ (sb_even b + sb_odd b)%nat = n /\
  ((0 < sb_even b)%nat -> (0 < sb_odd b)%nat ->
   exists E O, separate thr (Arr n n H) b = Ok (E, O) /\ square E (sb_even b) /\ square O (sb_odd b) /\
     splits n T H (sb_v b) (sb_even b) (sb_odd b) (ent E) (ent O)) /\
  (sb_even b = 0%nat \/ sb_odd b = 0%nat -> separate thr (Arr n n H) b = Raise ValueError).
Proof.
  intros HR. pose proof (pairs_all _ _ _ _ _ _ _ HR) as Ha. destruct HR as [HL [_ Hmt]]. cbv zeta. intros HC Ht.
  apply (dense_splits (sym_mat th) gvec l inds mate mt s H thr); auto.
Qed.
Lemma C42_sparse_lem th gvec l inds mate mt s H thr : reflect_pairs th gvec l inds mate mt s -> 
  let sz := map (@List.length nat) inds in let n := list_sum sz in let T := refl_op mt s in
  (forall v i, (i < n)%nat -> mvec n H (T v) i = T (mvec n H v) i) -> 0 <= thr ->
  exists b, basis_sparse (sym_mat th) gvec l sz inds = Ok b /\ (sb_even b + sb_odd b)%nat = n /\
  ((0 < sb_even b)%nat -> (0 < sb_odd b)%nat ->
   exists E O, separate_sparse thr (Arr n n H) b = Ok (E, O) /\ square E (sb_even b) /\ square O (sb_odd b) /\
     splits n T H (sb_v b) (sb_even b) (sb_odd b) (ent E) (ent O)) /\
  (sb_even b = 0%nat \/ sb_odd b = 0%nat -> separate_sparse thr (Arr n n H) b = Raise ValueError).
Proof.
  intros HR. pose proof (pairs_all _ _ _ _ _ _ _ HR) as Ha. destruct HR as [HL [_ Hmt]]. cbv zeta. intros HC Ht.
  apply (sparse_splits (sym_mat th) gvec l inds mate mt s H thr); auto.
Qed.
Lemma ex_pairs : reflect_pairs 0 ex_g [0%nat] [[0%nat; 1%nat; 2%nat]] (fun _ => lmate ex_mate [0%nat; 1%nat; 2%nat]) ex_mate (fun _ => - 1).
Proof.
  split; [reflexivity|]. split.
  - intros [|a] Ha; [apply ex_mates|simpl in Ha; lia].
  - intros [|a] j Ha Hj; [|simpl in Ha; lia]. simpl in Hj. split; [|reflexivity].
    destruct j as [|[|[|j]]]; try reflexivity. lia.
Qed.
Definition ex_H : cmat := fun i j => if Nat.eqb i j then RtoC 2 else if Nat.eqb (i * j) 0 then RtoC 1 else Ci.
Lemma ex_comm : forall v i, (i < 3)%nat -> mvec 3 ex_H (refl_op ex_mate (fun _ => - 1) v) i = refl_op ex_mate (fun _ => - 1) (mvec 3 ex_H v) i.
Proof.
  apply commutes.
  - intros [|[|[|i]]] Hi; simpl; try lia; split; try lia; reflexivity.
  - intros i Hi. split; auto.
  - intros [|[|[|i]]] [|[|[|j]]] Hi Hj; try lia; cbn; cring.
Qed.
