(** Forms of the potential: integrals of squares, and energies of neighbouring
    matrices. *)
From Coq Require Import Permutation List.
From Coquelicot Require Import Hierarchy RInt RInt_analysis.
From Verif Require Import Py CBase LatticeModel PhcModel PhcSpec RecipModel RecipSpec RecipProofs RecipProofs2 RecipProofs3 MatElModel RunModel RunSpec RunProofs RunProofs5 PweSpec PweModel PweProofs PweProofs2 ExcSpec ExcModel ExcProofs ExcProofs2 ExcProofs3 ShapesSpec CInt LatticeSpec.
From Verif Require Import LinProofs LinProofs2 LinProofs3 InvSpec InvProofs InvProofs2 InvProofs3 InvProofs4 EinvSpec EinvProofs EinvProofs2 EinvProofs3.
Open Scope R_scope.
Open Scope list_scope.

(** ** double integrals *)
Lemma int2_ext (f g : R -> R -> C) M v : (forall x y, f x y = g x y) -> is_CInt2 f M v -> is_CInt2 g M v.
Proof. intros H [i [H1 H2]]. exists i. split; [|exact H2]. intros y. eapply is_CInt_ext; [|apply H1]. intros x _. apply H. Qed.
Lemma int2_zero M : is_CInt2 (fun _ _ => RtoC 0) M (RtoC 0).
Proof. exists (fun _ => RtoC 0). split; [intros y|]; apply is_CInt_zero. Qed.
Lemma int2_plus f g M v w : is_CInt2 f M v -> is_CInt2 g M w -> is_CInt2 (fun x y => (f x y + g x y)%C) M (v + w)%C.
Proof.
  intros (i & A & B) (j & A' & B'). exists (fun y => (i y + j y)%C). split; [intros y; apply (is_CInt_plus (fun x => f x y) (fun x => g x y)); auto|].
  apply is_CInt_plus; auto.
Qed.
Lemma int2_scal f M v c : is_CInt2 f M v -> is_CInt2 (fun x y => (c * f x y)%C) M (c * v)%C.
Proof. intros (i & A & B). exists (fun y => (c * i y)%C). split; [intros y; apply (is_CInt_scal (fun x => f x y)); auto|]. apply is_CInt_scal; auto. Qed.
Lemma int2_sum n (f : nat -> R -> R -> C) M v : (forall i, (i < n)%nat -> is_CInt2 (f i) M (v i)) -> is_CInt2 (fun x y => csum n (fun i => f i x y)) M (csum n v).
Proof.
  induction n as [|n IH]; intros H; [apply int2_zero|]. apply (int2_ext (fun x y => (csum n (fun i => f i x y) + f n x y)%C)); [reflexivity|].
  apply (int2_plus (fun x y => csum n (fun i => f i x y)) (f n)); [apply IH; intros; apply H; lia|apply H; lia].
Qed.
Lemma int_nonneg (f : R -> C) M v : 0 <= M -> is_CInt f (- M) M v -> (forall x, 0 <= fst (f x)) -> 0 <= fst v.
Proof.
  intros HM (H & _) P. apply (is_RInt_le (fun _ => 0) (fun t => fst (f t)) (- M) M 0 (fst v)); [lra| |exact H|intros; apply P].
  eapply is_RInt_eq; [|apply is_RInt_constR]. ring.
Qed.
Lemma int2_nonneg f M v : 0 <= M -> is_CInt2 f M v -> (forall x y, 0 <= fst (f x y)) -> 0 <= fst v.
Proof. intros HM (i & A & B) P. apply (int_nonneg i M v HM B). intros y. apply (int_nonneg (fun x => f x y) M (i y) HM (A y)). intros x. apply P. Qed.

(** ** the form of an indicator function *)
Lemma square_form n (g : nat -> R * R) (v : cvec) x y :
  csum n (fun i => (Cconj (v i) * csum n (fun j => (v j * expi (- (fst (diff (g i) (g j)) * x + snd (diff (g i) (g j)) * y)))%C))%C) =
  RtoC (sqm (csum n (fun j => (v j * expi (fst (g j) * x + snd (g j) * y))%C))).
Proof.
  set (w := csum n (fun j => (v j * expi (fst (g j) * x + snd (g j) * y))%C)).
  transitivity (Cconj w * w)%C; [|unfold sqm; destruct w; apply Ceq; cbn; ring].
  unfold w at 1. rewrite csum_conj, <- csum_scal_r. apply csum_ext. intros i Hi. rewrite Cconj_mult, expi_conj.
  rewrite <- !csum_scal_l. unfold w. rewrite <- csum_scal_l. apply csum_ext. intros j Hj.
  replace (- (fst (diff (g i) (g j)) * x + snd (diff (g i) (g j)) * y)) with (- (fst (g i) * x + snd (g i) * y) + (fst (g j) * x + snd (g j) * y)) by (unfold diff; cbn [fst snd]; ring).
  rewrite expi_plus. ring.
Qed.
Lemma indicator_psd n (g : nat -> R * R) (ins : R -> R -> bool) B F v : 0 <= B ->
  (forall i j, (i < n)%nat -> (j < n)%nat -> is_CInt2 (fun x y => if ins x y then expi (- (fst (diff (g i) (g j)) * x + snd (diff (g i) (g j)) * y)) else RtoC 0) B (F i j)) ->
  0 <= fst (cdot n v (mvec n F v)).
Proof.
  intros HB H. eapply (int2_nonneg (fun x y => csum n (fun i => (Cconj (v i) * csum n (fun j => (v j * (if ins x y then expi (- (fst (diff (g i) (g j)) * x + snd (diff (g i) (g j)) * y)) else RtoC 0))%C))%C)) B); [exact HB| |].
  - unfold cdot. apply int2_sum. intros i Hi. apply int2_scal. unfold mvec.
    assert (E : csum n (fun j => (F i j * v j)%C) = csum n (fun j => (v j * F i j)%C)) by (apply csum_ext; intros; ring). rewrite E.
    apply int2_sum. intros j Hj. apply int2_scal. apply H; auto.
  - intros x y. destruct (ins x y).
    + rewrite square_form. cbn [fst RtoC]. apply sqm_nonneg.
    + rewrite csum_0; [cbn; lra|]. intros i Hi. rewrite csum_0; [ring|]. intros; ring.
Qed.
Lemma small_form n E d v : 0 <= d -> (forall i j, (i < n)%nat -> (j < n)%nat -> Cmod (E i j) <= d) -> - (INR n * d * nrm n v) <= fst (cdot n v (mvec n E v)).
Proof.
  intros Hd H.
  assert (Nr : forall m, fst (csum m (fun i => RtoC (sqm (v i)))) = nrm m v).
  { induction m as [|m IH]; [reflexivity|]. rewrite nrm_S, <- IH. reflexivity. }
  apply Rle_trans with (fst (csum n (fun i => csum n (fun j => RtoC (- (d / 2 * (sqm (v i) + sqm (v j)))))))).
  - right. transitivity (fst (csum n (fun i => (RtoC (- (INR n * (d / 2))) * RtoC (sqm (v i)) - RtoC (d / 2) * csum n (fun j => RtoC (sqm (v j))))%C))).
    + rewrite csum_minus, !csum_scal_l, csum_const. rewrite (surjective_pairing (csum n (fun i => RtoC (sqm (v i))))), Nr.
      cbn [fst snd Cplus Cminus Copp Cmult RtoC]. field.
    + f_equal. apply csum_ext. intros i Hi. symmetry.
      transitivity (csum n (fun j => (RtoC (- (d / 2) * sqm (v i)) - RtoC (d / 2) * RtoC (sqm (v j)))%C)).
      * apply csum_ext. intros j Hj. apply Ceq; cbn; ring.
      * rewrite csum_minus, csum_const, csum_scal_l. f_equal. apply Ceq; cbn; ring.
  - unfold cdot. apply fst_csum_le. intros i Hi. unfold mvec. rewrite <- csum_scal_l. apply fst_csum_le. intros j Hj. cbn [fst RtoC].
    apply re_bound. auto.
Qed.
Lemma form_add n A A2 v : cdot n v (mvec n (fun i j => (A i j + A2 i j)%C) v) = (cdot n v (mvec n A v) + cdot n v (mvec n A2 v))%C.
Proof.
  unfold cdot, mvec. rewrite <- csum_plus. apply csum_ext. intros i _. rewrite <- Cmult_plus_distr_l. f_equal. rewrite <- csum_plus. apply csum_ext. intros. ring.
Qed.
Lemma form_scale n A c v : cdot n v (mvec n (fun i j => (RtoC c * A i j)%C) v) = (RtoC c * cdot n v (mvec n A v))%C.
Proof.
  unfold cdot, mvec. rewrite <- csum_scal_l. apply csum_ext. intros i _. transitivity (Cconj (v i) * (RtoC c * csum n (fun j => (A i j * v j)%C)))%C; [|ring].
  f_equal. rewrite <- csum_scal_l. apply csum_ext. intros. ring.
Qed.
Lemma form_ext n A A2 v : (forall i j, (i < n)%nat -> (j < n)%nat -> A i j = A2 i j) -> cdot n v (mvec n A v) = cdot n v (mvec n A2 v).
Proof. intros H. unfold cdot, mvec. apply csum_ext. intros i Hi. f_equal. apply csum_ext. intros j Hj. rewrite H; auto. Qed.
(** the form of the transform of a shape is at least -n d |v|^2 *)
Lemma shape_form s d gs (b : bool) v : near_integral s d gs ->
  - (INR (List.length gs) * d * nrm (List.length gs) v) <=
  fst (cdot (List.length gs) v (mvec (List.length gs) (fun i j => flip b (sh_ft s) (diff (gat gs i) (gat gs j))) v)).
Proof.
  intros (B & HB & H). set (n := List.length gs). set (g := fun i => if b then opp (gat gs i) else gat gs i).
  assert (DI : forall i j, (i < n)%nat -> (j < n)%nat -> difference_of gs (diff (g i) (g j)) /\ flip b (sh_ft s) (diff (gat gs i) (gat gs j)) = sh_ft s (diff (g i) (g j))).
  { intros i j Hi Hj. unfold g, flip. destruct b.
    - replace (diff (opp (gat gs i)) (opp (gat gs j))) with (diff (gat gs j) (gat gs i)) by (unfold diff, opp; cbn [fst snd]; f_equal; ring).
      split; [|rewrite opp_diff; reflexivity]. exists (gat gs j), (gat gs i). split; [apply nth_In; auto|]. split; [apply nth_In; auto|reflexivity].
    - split; [|reflexivity]. exists (gat gs i), (gat gs j). split; [apply nth_In; auto|]. split; [apply nth_In; auto|reflexivity]. }
  assert (C1 : exists F : nat -> nat -> C, forall i j, (i < n)%nat -> (j < n)%nat ->
     is_CInt2 (fun x y => if sh_inside s x y then expi (- (fst (diff (g i) (g j)) * x + snd (diff (g i) (g j)) * y)) else RtoC 0) B (F i j) /\ Cmod (sh_ft s (diff (g i) (g j)) - F i j)%C <= d).
  { assert (ONE : forall i, exists Fi : nat -> C, (i < n)%nat -> forall j, (j < n)%nat ->
     is_CInt2 (fun x y => if sh_inside s x y then expi (- (fst (diff (g i) (g j)) * x + snd (diff (g i) (g j)) * y)) else RtoC 0) B (Fi j) /\ Cmod (sh_ft s (diff (g i) (g j)) - Fi j)%C <= d).
    { intros i. destruct (lt_dec i n) as [Hi|N]; [|exists (fun _ => RtoC 0); intros; lia].
      assert (K : forall m, (m <= n)%nat -> exists Fi : nat -> C, forall j, (j < m)%nat ->
        is_CInt2 (fun x y => if sh_inside s x y then expi (- (fst (diff (g i) (g j)) * x + snd (diff (g i) (g j)) * y)) else RtoC 0) B (Fi j) /\ Cmod (sh_ft s (diff (g i) (g j)) - Fi j)%C <= d).
      { induction m as [|m IH]; intros Hm; [exists (fun _ => RtoC 0); intros; lia|]. destruct (IH ltac:(lia)) as (Fi & HF). destruct (H _ (proj1 (DI i m Hi ltac:(lia)))) as (F & A1 & A2).
        exists (fun j => if Nat.eqb j m then F else Fi j). intros j Hj. destruct (Nat.eqb_spec j m) as [->|Nj]; [auto|]. apply HF. lia. }
      destruct (K n (le_n n)) as (Fi & HF). exists Fi. auto. }
    assert (K : forall m, (m <= n)%nat -> exists F : nat -> nat -> C, forall i j, (i < m)%nat -> (j < n)%nat ->
        is_CInt2 (fun x y => if sh_inside s x y then expi (- (fst (diff (g i) (g j)) * x + snd (diff (g i) (g j)) * y)) else RtoC 0) B (F i j) /\ Cmod (sh_ft s (diff (g i) (g j)) - F i j)%C <= d).
    { induction m as [|m IH]; intros Hm; [exists (fun _ _ => RtoC 0); intros; lia|]. destruct (IH ltac:(lia)) as (F & HF). destruct (ONE m) as (Fm & HFm).
      exists (fun i => if Nat.eqb i m then Fm else F i). intros i j Hi Hj. destruct (Nat.eqb_spec i m) as [->|Ni]; [apply HFm; auto|]. apply HF; lia. }
    destruct (K n (le_n n)) as (F & HF). exists F. auto. }
  destruct C1 as (F & HF).
  assert (P : 0 <= fst (cdot n v (mvec n F v))) by (eapply (indicator_psd n g (sh_inside s) B); [exact HB|]; intros i j Hi Hj; apply HF; auto).
  rewrite (form_ext n _ (fun i j => (F i j + (sh_ft s (diff (g i) (g j)) - F i j))%C)).
  2:{ intros i j Hi Hj. rewrite (proj2 (DI i j Hi Hj)). ring. }
  rewrite form_add. destruct n as [|n'] eqn:En; [cbn; lra|]. rewrite <- En in *.
  assert (Hd : 0 <= d) by (eapply Rle_trans; [apply Cmod_ge_0|apply (HF 0%nat 0%nat); lia]).
  pose proof (small_form n (fun i j => (sh_ft s (diff (g i) (g j)) - F i j)%C) d v Hd (fun i j Hi Hj => proj2 (HF i j Hi Hj))) as S.
  cbn [fst Cplus]. lra.
Qed.

(** ** neighbouring matrices *)
Lemma levels_within n m A A' c es vs es' vs' : levels n m A es vs -> levels n m A' es' vs' ->
  (forall v, fst (cdot n v (mvec n A' v)) <= fst (cdot n v (mvec n A v)) + c * nrm n v) ->
  List.length es' = List.length es /\ forall b, (b < List.length es)%nat -> nth b es' 0 <= nth b es 0 + c.
Proof.
  intros (ls & V & (E1 & E2 & E3) & H1 & -> & _) (ls' & V' & E' & H1' & -> & _) Le.
  set (A2 := fun i j => (A i j + if Nat.eqb i j then RtoC c else RtoC 0)%C).
  assert (MV : forall v i, (i < n)%nat -> mvec n A2 v i = (mvec n A v i + RtoC c * v i)%C).
  { intros v i Hi. unfold mvec, A2. transitivity (csum n (fun j => (A i j * v j + (if Nat.eqb j i then RtoC c * v i else RtoC 0))%C)).
    - apply csum_ext. intros j Hj. rewrite (Nat.eqb_sym j i). destruct (Nat.eqb_spec i j) as [->|]; ring.
    - rewrite csum_plus, csum_delta by auto. reflexivity. }
  assert (S2 : eigensystem n A2 (map (fun l => l + c) ls) V).
  { split; [rewrite map_length; auto|]. split; [exact E2|]. intros i j Hi Hj. rewrite MV, E3 by auto.
    rewrite (nth_indep (map (fun l => l + c) ls) 0 (0 + c)) by (rewrite map_length, E1; auto). rewrite (map_nth (fun l => l + c)). rewrite RtoC_plus. ring. }
  assert (As : ascending (map (fun l => l + c) ls)).
  { intros i j Hij. rewrite map_length in Hij. rewrite !(nth_indep (map (fun l => l + c) ls) 0 (0 + c)) by (rewrite map_length; lia). rewrite !(map_nth (fun l => l + c)). specialize (H1 i j Hij). lra. }
  assert (Fm : forall v, fst (cdot n v (mvec n A2 v)) = fst (cdot n v (mvec n A v)) + c * nrm n v).
  { intros v. transitivity (fst (cdot n v (mvec n A v) + RtoC c * cdot n v v)%C).
    - f_equal. unfold cdot. rewrite <- csum_scal_l, <- csum_plus. apply csum_ext. intros i Hi. rewrite MV by auto. ring.
    - rewrite cdot_nrm. cbn. ring. }
  destruct E' as (L' & E').
  split; [rewrite !firstn_length; lia|]. intros b Hb. rewrite firstn_length in Hb.
  pose proof (eigs_embedded n n (fun i => i) (fun i Hi => Hi) (fun i j _ _ E => E) A2 A' _ V ls' V' S2 (conj L' E') As H1' (le_n n)) as M.
  rewrite !firstn_nth by lia. rewrite <- (map_nth (fun l => l + c)). rewrite (nth_indep _ (0 + c) 0) by (rewrite map_length; lia).
  apply M; [|lia]. intros v. rewrite Fm. exact (Le v).
Qed.
