(** From the blocks to the whole change of basis. *)
From Coq Require Import Permutation.
From Verif Require Import Py CBase LatticeModel MatElSpec MatElModel SymSpec SymModel SymProofs.
Open Scope R_scope.

Notation blk := (nat * (nat -> nat -> R) * (nat -> R))%type (only parsing).

(** ** sums over permuted indices *)
Lemma csum_fold n f : csum n f = fold_right Cplus (RtoC 0) (map f (seq 0 n)).
Proof.
  induction n as [|n IH]; [reflexivity|]. rewrite seq_S, map_app, fold_right_app. cbn [csum map fold_right plus]. rewrite IH.
  generalize (map f (seq 0 n)). intros l. induction l as [|a l IHl]; cbn [fold_right]; [ring|]. rewrite <- IHl. ring.
Qed.
Lemma csum_perm n l f : Permutation l (seq 0 n) -> csum n (fun c => f (nth c l 0%nat)) = csum n f.
Proof.
  intros P. pose proof (Permutation_length P) as L. rewrite seq_length in L.
  rewrite !csum_fold. replace (map (fun c => f (nth c l 0%nat)) (seq 0 n)) with (map f l).
  - apply Permutation_map with (f := f) in P. revert P. generalize (map f l) (map f (seq 0 n)). intros a b P.
    induction P; cbn [fold_right]; auto; [rewrite IHP; auto|ring|congruence].
  - apply nth_ext with (d := f 0%nat) (d' := f 0%nat); [rewrite !map_length, seq_length; auto|].
    intros i Hi. rewrite map_length in Hi. rewrite map_nth. rewrite nth_indep with (d' := (fun c => f (nth c l 0%nat)) 0%nat).
    + rewrite (map_nth (fun c => f (nth c l 0%nat)) (seq 0 n) 0%nat i), seq_nth by lia. reflexivity.
    + rewrite map_length, seq_length. lia.
Qed.
Lemma csum_dlt n x (g : nat -> C) : (x < n)%nat -> csum n (fun i => (RtoC (dlt i x) * g i)%C) = g x.
Proof.
  intros H. rewrite (csum_single n x); auto.
  - unfold dlt. rewrite Nat.eqb_refl. ring.
  - intros i _ N. unfold dlt. rewrite (proj2 (Nat.eqb_neq i x)) by auto. ring.
Qed.

(** ** consequences of the closed form *)
Definition invol (n : nat) (mt : nat -> nat) : Prop := forall i, (i < n)%nat -> (mt i < n)%nat /\ mt (mt i) = i.
Lemma dlt_sym i c : dlt i c = dlt c i. Proof. unfold dlt. rewrite Nat.eqb_sym. reflexivity. Qed.
Lemma dlt_mt n mt i c : invol n mt -> (i < n)%nat -> (c < n)%nat -> dlt (mt i) c = dlt i (mt c).
Proof.
  intros H Hi Hc. unfold dlt. destruct (Nat.eqb_spec (mt i) c) as [E|E], (Nat.eqb_spec i (mt c)) as [F|F]; auto; exfalso.
  - subst c. apply F. rewrite (proj2 (H i Hi)). auto.
  - subst i. apply E. apply H; auto.
Qed.

Section Cf.
Variables (n : nat) (V : nat -> nat -> R) (w : nat -> R) (mt : nat -> nat).
Hypothesis Hi : invol n mt.
Hypothesis Hf : colform n V w mt.

Definition al c := if Nat.eqb (mt c) c then 1 else rs2 * w c.
Definition be c := if Nat.eqb (mt c) c then 0 else rs2.
Lemma V_ab i c : (i < n)%nat -> (c < n)%nat -> V i c = al c * dlt i c + be c * dlt i (mt c).
Proof. intros A B. rewrite (proj2 Hf i c A B). unfold al, be. destruct (Nat.eqb (mt c) c); ring. Qed.

Lemma V_sym i c : (i < n)%nat -> (c < n)%nat -> V i c = V c i.
Proof.
  intros A B. rewrite !V_ab by auto. rewrite (dlt_sym c i). rewrite <- (dlt_mt n mt i c), (dlt_sym (mt i) c) by auto.
  unfold dlt at 1 3. destruct (Nat.eqb_spec i c) as [->|N]; [|].
  - reflexivity.
  - unfold dlt. destruct (Nat.eqb_spec c (mt i)) as [E|E]; [|ring].
    unfold be. subst c. rewrite (proj2 (Hi i A)). rewrite (Nat.eqb_sym i (mt i)). ring.
Qed.

Lemma ortho x y : (x < n)%nat -> (y < n)%nat -> csum n (fun i => (RtoC (V i x) * RtoC (V i y))%C) = RtoC (dlt x y).
Proof.
  intros A B. destruct (Hi x A) as [A1 A2]. destruct (Hi y B) as [B1 B2].
  rewrite (csum_ext n _ (fun i => (RtoC (dlt i x) * (RtoC (al x) * RtoC (V i y)) + RtoC (dlt i (mt x)) * (RtoC (be x) * RtoC (V i y)))%C)).
  2:{ intros i H. rewrite (V_ab i x) by auto. rewrite RtoC_plus, !RtoC_mult. ring. }
  rewrite csum_plus, (csum_dlt n x (fun i => (RtoC (al x) * RtoC (V i y))%C)), (csum_dlt n (mt x) (fun i => (RtoC (be x) * RtoC (V i y))%C)) by auto.
  rewrite !V_ab by auto. rewrite <- !RtoC_mult, <- RtoC_plus. f_equal.
  destruct (proj1 Hf x A) as [W1 [W2 W3]]. destruct (proj1 Hf y B) as [Y1 [Y2 Y3]].
  unfold al, be, dlt.
  destruct (Nat.eqb_spec x y) as [->|N].
  - destruct (Nat.eqb_spec (mt y) y) as [E|E]; [rewrite Nat.eqb_refl; rewrite E; rewrite Nat.eqb_refl; ring|].
    destruct (Nat.eqb_spec y (mt y)); [congruence|]. rewrite Nat.eqb_refl.
    pose proof rs2_sq. destruct W1 as [->| ->]; nra.
  - destruct (Nat.eqb_spec (mt x) (mt y)) as [E|E]; [exfalso; apply N; rewrite <- A2, <- B2, E; auto|].
    destruct (Nat.eqb_spec (mt x) y) as [F|F].
    + subst y. rewrite A2. destruct (Nat.eqb_spec x (mt x)); [congruence|]. destruct (Nat.eqb_spec (mt x) x); [congruence|].
      rewrite Nat.eqb_refl. rewrite (W2 ltac:(auto)). ring.
    + destruct (Nat.eqb_spec x (mt y)) as [G|G]; [subst x; rewrite B2 in F; congruence|]. ring.
Qed.
Lemma ortho' x y : (x < n)%nat -> (y < n)%nat -> csum n (fun i => (RtoC (V x i) * RtoC (V y i))%C) = RtoC (dlt x y).
Proof.
  intros A B. rewrite <- ortho by auto. apply csum_ext. intros i H. rewrite (V_sym x i), (V_sym y i) by auto. reflexivity.
Qed.

Lemma parity i c : (i < n)%nat -> (c < n)%nat -> V (mt i) c = w c * V i c.
Proof.
  intros A B. destruct (Hi i A) as [A1 A2]. destruct (Hi c B) as [B1 B2]. rewrite !V_ab by auto.
  rewrite (dlt_mt n mt i c), (dlt_mt n mt i (mt c)), B2 by auto.
  destruct (proj1 Hf c B) as [W1 [W2 W3]]. unfold al, be. destruct (Nat.eqb_spec (mt c) c) as [E|E].
  - rewrite E, W3 by auto. ring.
  - destruct W1 as [->| ->]; ring.
Qed.
Lemma V_supp i c : (i < n)%nat -> (c < n)%nat -> V i c <> 0 -> i = c \/ i = mt c.
Proof.
  intros A B H. rewrite V_ab in H by auto. unfold dlt in H. destruct (Nat.eqb_spec i c); auto. destruct (Nat.eqb_spec i (mt c)); auto.
  exfalso. apply H. ring.
Qed.
End Cf.

(** ** global form *)
Definition gform (n : nat) (V : nat -> nat -> R) (sg : list R) (mt : nat -> nat) (s : nat -> R) : Prop :=
  List.length sg = n /\ invol n mt /\ (forall i, (i < n)%nat -> s (mt i) = s i /\ (s i = 1 \/ s i = - 1)) /\
  exists w, colform n V w mt /\ forall c, (c < n)%nat -> nth c sg 0 = s c * w c.

Definition cat_mt (d : nat) (m0 m1 : nat -> nat) (i : nat) : nat := if Nat.ltb i d then m0 i else (d + m1 (i - d))%nat.
Definition cat_s {A} (d : nat) (s0 s1 : nat -> A) (i : nat) : A := if Nat.ltb i d then s0 i else s1 (i - d)%nat.
Definition cat_V (d : nat) (B M : nat -> nat -> R) (i j : nat) : R :=
  if (Nat.ltb i d && Nat.ltb j d)%bool then B i j
  else if (Nat.leb d i && Nat.leb d j)%bool then M (i - d)%nat (j - d)%nat else 0.

Ltac eqbs := repeat match goal with
  | |- context [Nat.eqb ?a ?b] => destruct (Nat.eqb_spec a b); try (exfalso; lia); cbn [andb orb]
  | |- context [Nat.ltb ?a ?b] => destruct (Nat.ltb_spec a b); try (exfalso; lia); cbn [andb orb]
  | |- context [Nat.leb ?a ?b] => destruct (Nat.leb_spec a b); try (exfalso; lia); cbn [andb orb]
  end.

Lemma gform_cons d B w m0 t n M sgs m1 s1 sg0 : invol d m0 -> colform d B w m0 -> (t = 1 \/ t = - 1) ->
  List.length sg0 = d -> (forall c, (c < d)%nat -> nth c sg0 0 = t * w c) ->
  gform n M sgs m1 s1 -> gform (d + n) (cat_V d B M) (sg0 ++ sgs) (cat_mt d m0 m1) (cat_s d (fun _ => t) s1).
Proof.
  intros I0 C0 Ht L0 E0 [L1 [I1 [S1 [w1 [C1 E1]]]]]. split; [rewrite app_length; lia|]. split; [|split].
  - intros i Hi. unfold cat_mt. destruct (Nat.ltb_spec i d) as [H|H].
    + destruct (I0 i H) as [A B0]. split; [lia|]. rewrite (proj2 (Nat.ltb_lt (m0 i) d)); auto.
    + destruct (I1 (i - d)%nat) as [A B0]; [lia|]. split; [lia|].
      destruct (Nat.ltb_spec (d + m1 (i - d)%nat)%nat d); [lia|]. replace (d + m1 (i - d)%nat - d)%nat with (m1 (i - d)%nat) by lia. rewrite B0. lia.
  - intros i Hi. unfold cat_s, cat_mt. destruct (Nat.ltb_spec i d) as [H|H].
    + destruct (I0 i H) as [A _]. rewrite (proj2 (Nat.ltb_lt (m0 i) d)) by auto. auto.
    + destruct (Nat.ltb_spec (d + m1 (i - d)%nat)%nat d); [lia|]. replace (d + m1 (i - d)%nat - d)%nat with (m1 (i - d)%nat) by lia. apply S1. lia.
  - exists (cat_s d w w1). split; [split|].
    + intros c Hc. unfold cat_s, cat_mt. destruct (Nat.ltb_spec c d) as [H|H].
      * destruct (I0 c H) as [A _]. rewrite (proj2 (Nat.ltb_lt (m0 c) d)) by auto. apply C0; auto.
      * destruct (Nat.ltb_spec (d + m1 (c - d)%nat)%nat d); [lia|]. replace (d + m1 (c - d)%nat - d)%nat with (m1 (c - d)%nat) by lia.
        destruct (proj1 C1 (c - d)%nat) as [A1 [A2 A3]]; [lia|]. split; auto. split; intros G; [apply A2|apply A3]; lia.
    + intros i c Hi Hc. unfold cat_V, cat_s, cat_mt. destruct (Nat.ltb_spec c d) as [H|H].
      * destruct (I0 c H) as [A _]. destruct (Nat.ltb_spec i d) as [H'|H']; cbn [andb].
        -- apply C0; auto.
        -- rewrite (proj2 (Nat.leb_gt d c)) by auto. rewrite andb_false_r. unfold dlt. eqbs; ring.
      * destruct (I1 (c - d)%nat) as [A _]; [lia|]. rewrite andb_false_r. destruct (Nat.leb_spec d i) as [H'|H']; cbn [andb].
        -- rewrite (proj2 (Nat.leb_le d c)) by auto. rewrite (proj2 C1) by lia. unfold dlt. eqbs; auto.
        -- unfold dlt. eqbs; ring.
    + intros c Hc. unfold cat_s. destruct (Nat.ltb_spec c d) as [H|H].
      * rewrite app_nth1 by lia. auto.
      * rewrite app_nth2 by lia. rewrite L0. apply E1. lia.
Qed.
Lemma gform_nil V mt s : gform 0 V [] mt s.
Proof. split; auto. split; [intros i H; lia|]. split; [intros i H; lia|]. exists (fun _ => 0). split; [split|]; intros; lia. Qed.

Lemma gform_ext n V V' sg mt mt' s s' : (forall i c, (i < n)%nat -> (c < n)%nat -> V' i c = V i c) ->
  (forall i, (i < n)%nat -> mt' i = mt i /\ s' i = s i) -> gform n V sg mt s -> gform n V' sg mt' s'.
Proof.
  intros EV Em [L [I [S [w [C E]]]]]. split; auto. split; [|split].
  - intros i Hi. destruct (I i Hi) as [A B]. rewrite (proj1 (Em i Hi)). split; auto. rewrite (proj1 (Em _ A)). auto.
  - intros i Hi. destruct (I i Hi) as [A B]. rewrite (proj1 (Em i Hi)), (proj2 (Em i Hi)), (proj2 (Em _ A)). apply S; auto.
  - exists w. split; [split|].
    + intros c Hc. rewrite (proj1 (Em c Hc)). apply C; auto.
    + intros i c Hi Hc. rewrite EV, (proj1 (Em c Hc)) by auto. apply C; auto.
    + intros c Hc. rewrite (proj2 (Em c Hc)). auto.
Qed.

(** ** ordering of the columns *)
Definition pos_of_lab (v : R) (i : nat) (sig : list R) : list nat :=
  map fst (filter (fun x => Reqb (snd x) v) (combine (seq i (List.length sig)) sig)).
Lemma order_cols_eq sig : forall i a b,
  order_cols i sig (rev a ++ b, List.length a, List.length b) =
  (rev (a ++ pos_of_lab 1 i sig) ++ b ++ pos_of_lab (- 1) i sig,
   (List.length a + List.length (pos_of_lab 1 i sig))%nat, (List.length b + List.length (pos_of_lab (- 1) i sig))%nat).
Proof.
  induction sig as [|s t IH]; intros i a b.
  - unfold pos_of_lab. cbn [seq List.length combine filter map order_cols]. rewrite !app_nil_r, !Nat.add_0_r. reflexivity.
  - cbn [order_cols].
    assert (P : forall v, pos_of_lab v i (s :: t) = (if Reqb s v then [i] else []) ++ pos_of_lab v (S i) t).
    { intros v. unfold pos_of_lab. cbn [seq List.length combine filter snd]. destruct (Reqb s v); reflexivity. }
    rewrite !P. destruct (Reqb s 1) eqn:E1; destruct (Reqb s (- 1)) eqn:E2.
    + apply Reqb_true in E1, E2. lra.
    + specialize (IH (S i) (a ++ [i]) b). rewrite rev_app_distr, app_length in IH. cbn [rev app List.length] in IH.
      rewrite Nat.add_1_r in IH. cbn [app]. rewrite IH. rewrite <- !app_assoc. cbn [app List.length]. apply f_equal2; [apply f_equal2; [reflexivity|lia]|lia].
    + specialize (IH (S i) a (b ++ [i])). rewrite app_length in IH. cbn [List.length] in IH. rewrite Nat.add_1_r in IH.
      rewrite app_assoc in IH. cbn [app]. rewrite IH. rewrite <- !app_assoc. cbn [app List.length]. apply f_equal2; [apply f_equal2; [reflexivity|lia]|lia].
    + cbn [app]. rewrite IH. reflexivity.
Qed.
Lemma pos_in v sig : forall i k, In k (pos_of_lab v i sig) -> (i <= k < i + List.length sig)%nat /\ nth (k - i) sig 0 = v.
Proof.
  induction sig as [|s t IH]; intros i k H; [destruct H|]. unfold pos_of_lab in H. cbn [seq List.length combine filter snd] in H.
  destruct (Reqb s v) eqn:E.
  - destruct H as [H|H].
    + simpl in H. subst k. split; [simpl; lia|]. rewrite Nat.sub_diag. apply Reqb_true in E. auto.
    + apply IH in H. destruct H as [H1 H2]. split; [simpl; lia|]. replace (k - i)%nat with (S (k - S i)) by lia. auto.
  - apply IH in H. destruct H as [H1 H2]. split; [simpl; lia|]. replace (k - i)%nat with (S (k - S i)) by lia. auto.
Qed.
Lemma pos_perm sig : (forall c, (c < List.length sig)%nat -> nth c sig 0 = 1 \/ nth c sig 0 = - 1) -> forall i,
  Permutation (pos_of_lab 1 i sig ++ pos_of_lab (- 1) i sig) (seq i (List.length sig)).
Proof.
  induction sig as [|s t IH]; intros H i; [reflexivity|].
  assert (P : forall v, pos_of_lab v i (s :: t) = (if Reqb s v then [i] else []) ++ pos_of_lab v (S i) t).
  { intros v. unfold pos_of_lab. cbn [seq List.length combine filter snd]. destruct (Reqb s v); reflexivity. }
  rewrite !P. assert (IH' := IH (fun c Hc => H (S c) ltac:(simpl; lia)) (S i)).
  destruct (H 0%nat) as [E|E]; [simpl; lia| |]; simpl in E; subst s.
  - rewrite (proj2 (Reqb_true 1 1) eq_refl), (proj2 (Reqb_false 1 (-1)) ltac:(lra)). cbn [app seq List.length]. constructor. auto.
  - rewrite (proj2 (Reqb_true (-1) (-1)) eq_refl), (proj2 (Reqb_false (-1) 1) ltac:(lra)). cbn [app seq List.length].
    rewrite <- Permutation_middle. constructor. auto.
Qed.

(** the theorem on a globally well-formed matrix *)
Lemma gform_basis n V sg mt s : gform n V sg mt s ->
  exists idx ev od, order_cols 0 sg ([], 0%nat, 0%nat) = (idx, ev, od) /\ (ev + od)%nat = n /\ List.length idx = n /\
    (forall c, (c < n)%nat -> (nth c idx 0 < n)%nat) /\
    parity_basis n ev (refl_op mt s) (fun i c => RtoC (V i (nth c idx 0%nat))).
Proof.
  intros [L [I [S [w [C E]]]]].
  assert (Hpm : forall c, (c < n)%nat -> nth c sg 0 = 1 \/ nth c sg 0 = - 1).
  { intros c Hc. rewrite E by auto. destruct (S c Hc) as [_ [->| ->]]; destruct (proj1 C c Hc) as [[->| ->] _]; lra. }
  pose proof (order_cols_eq sg 0 [] []) as O. cbn [rev app List.length plus] in O.
  set (ps := pos_of_lab 1 0 sg) in *. set (qs := pos_of_lab (-1) 0 sg) in *.
  assert (P : Permutation (rev ps ++ qs) (seq 0 n)).
  { rewrite <- L. rewrite <- Permutation_rev. apply pos_perm. rewrite L. auto. }
  exists (rev ps ++ qs), (List.length ps), (List.length qs). split; [exact O|].
  assert (Ln : List.length (rev ps ++ qs) = n) by (rewrite (Permutation_length P), seq_length; auto).
  split; [rewrite app_length, rev_length in Ln; auto|]. split; auto.
  set (idx := rev ps ++ qs) in *.
  assert (Hidx : forall c, (c < n)%nat -> (nth c idx 0 < n)%nat).
  { intros c Hc. assert (In (nth c idx 0%nat) (seq 0 n)) by (eapply Permutation_in; [exact P|]; apply nth_In; lia). apply in_seq in H. lia. }
  split; auto.
  assert (Hnd : NoDup idx) by (eapply Permutation_NoDup; [symmetry; exact P|apply seq_NoDup]).
  assert (Hsg : forall i c, (i < n)%nat -> (c < n)%nat -> refl_op mt s (fun i => RtoC (V i c)) i = (RtoC (nth c sg 0%R) * RtoC (V i c))%C).
  { intros i c Hi Hc. unfold refl_op. rewrite (parity n V w mt I C i c Hi Hc), (E c Hc). rewrite <- !RtoC_mult. f_equal.
    destruct (Req_dec (V i c) 0) as [->|N]; [ring|].
    destruct (V_supp n V w mt C i c Hi Hc N) as [->| ->]; [ring|]. rewrite (proj1 (S c Hc)). ring. }
  split; [|split; [|split]].
  - intros a b Ha Hb. unfold mmul, madj. rewrite (csum_ext n _ (fun i => (RtoC (V i (nth a idx 0%nat)) * RtoC (V i (nth b idx 0%nat)))%C)).
    2:{ intros i Hi. rewrite Cconj_R. reflexivity. }
    rewrite (ortho n V w mt I C) by auto. unfold mid, dlt.
    destruct (Nat.eqb_spec a b) as [->|N]; [rewrite Nat.eqb_refl; auto|].
    destruct (Nat.eqb_spec (nth a idx 0) (nth b idx 0))%nat as [F|F]; auto.
    exfalso. apply N. apply (NoDup_nth idx 0%nat); auto; lia.
  - intros a b Ha Hb. unfold mmul, madj. rewrite (csum_ext n _ (fun i => (RtoC (V a (nth i idx 0%nat)) * RtoC (V b (nth i idx 0%nat)))%C)).
    2:{ intros i Hi. rewrite Cconj_R. reflexivity. }
    rewrite (csum_perm n idx (fun c => (RtoC (V a c) * RtoC (V b c))%C) P).
    rewrite (ortho' n V w mt I C) by auto. unfold mid, dlt. destruct (Nat.eqb a b); auto.
  - intros i c Hi Hc. assert (Hcn : (c < n)%nat) by (unfold idx in Ln; rewrite app_length, rev_length in Ln; lia). rewrite Hsg by auto.
    replace (nth (nth c idx 0%nat) sg 0) with 1; [ring|]. symmetry.
    assert (H : In (nth c idx 0%nat) ps). { unfold idx. rewrite app_nth1 by (rewrite rev_length; auto). apply in_rev. apply nth_In. rewrite rev_length. auto. }
    apply pos_in in H. rewrite Nat.sub_0_r in H. apply H.
  - intros i c Hi [Hc1 Hc2]. rewrite Hsg by auto.
    replace (nth (nth c idx 0%nat) sg 0) with (-1); [cring|]. symmetry.
    assert (H : In (nth c idx 0%nat) qs). { unfold idx. unfold idx in Ln; rewrite app_length, rev_length in Ln. rewrite app_nth2 by (rewrite rev_length; auto). apply nth_In. rewrite rev_length. lia. }
    apply pos_in in H. rewrite Nat.sub_0_r in H. apply H.
Qed.
