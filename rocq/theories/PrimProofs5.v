(** The gradients of eigh and eigsh. *)
From Verif Require Import Py CBase RecipModel PweProofs2 PrimSpec PrimModel PrimProofs PrimProofs3.
Open Scope R_scope.
Open Scope list_scope.

(** ** a vanishing differentiable factor times a continuous one *)
Lemma dlim_mul_cont p q l : derivable_pt_lim p 0 l -> p 0 = 0 -> continuity_pt q 0 -> derivable_pt_lim (fun s => p s * q s) 0 (l * q 0).
Proof.
  intros Hp P0 Hq eps He.
  set (e1 := Rmin 1 (eps / (Rabs (q 0) + Rabs l + 2))).
  pose proof (Rabs_pos (q 0)) as Q0. pose proof (Rabs_pos l) as L0.
  assert (X0 : 0 < eps / (Rabs (q 0) + Rabs l + 2)) by (apply Rdiv_lt_0_compat; lra).
  assert (X1 : eps / (Rabs (q 0) + Rabs l + 2) * (Rabs (q 0) + Rabs l + 2) = eps) by (field; lra).
  assert (He1 : 0 < e1) by (apply Rmin_pos; lra).
  assert (E1 : e1 <= 1) by apply Rmin_l. assert (E2 : e1 <= eps / (Rabs (q 0) + Rabs l + 2)) by apply Rmin_r.
  destruct (Hp e1 He1) as (d1 & D1). destruct (Hq e1 He1) as (d2 & Hd2 & D2).
  assert (Hm : 0 < Rmin d1 d2) by (apply Rmin_pos; [apply cond_pos|lra]).
  exists (mkposreal _ Hm). intros h Hh Hlt. cbn [pos] in Hlt. rewrite Rplus_0_l, P0, Rmult_0_l, Rminus_0_r.
  pose proof (D1 h Hh ltac:(eapply Rlt_le_trans; [exact Hlt|apply Rmin_l])) as B1. rewrite Rplus_0_l, P0, Rminus_0_r in B1.
  assert (B2 : Rabs (q h - q 0) < e1).
  { apply D2. split; [split; [exact Logic.I|auto]|]. cbn. unfold R_dist. rewrite Rminus_0_r. eapply Rlt_le_trans; [exact Hlt|apply Rmin_r]. }
  set (a := p h / h) in *. set (b := q h) in *. replace (p h * b / h) with (a * b) by (unfold a, b; field; auto).
  replace (a * b - l * q 0) with ((a - l) * b + l * (b - q 0)) by ring.
  eapply Rle_lt_trans; [apply Rabs_triang|]. rewrite !Rabs_mult.
  assert (Bb : Rabs b <= Rabs (q 0) + 1).
  { replace b with (q 0 + (b - q 0)) by ring. eapply Rle_trans; [apply Rabs_triang|]. lra. }
  pose proof (Rabs_pos (a - l)). pose proof (Rabs_pos (b - q 0)). pose proof (Rabs_pos b).
  assert (Rabs (a - l) * Rabs b <= e1 * (Rabs (q 0) + 1)) by (apply Rmult_le_compat; lra).
  assert (Rabs l * Rabs (b - q 0) <= Rabs l * e1) by (apply Rmult_le_compat_l; lra). nra.
Qed.
Lemma cderiv_mul_cont p q a : cderiv p a -> p 0 = RtoC 0 -> ccont q -> cderiv (fun s => Cmult (p s) (q s)) (Cmult a (q 0)).
Proof.
  intros (A1 & A2) P0 (Q1 & Q2). pose proof (f_equal fst P0) as P1. pose proof (f_equal snd P0) as P2. cbn [fst snd RtoC] in P1, P2.
  split; cbn [fst snd Cmult].
  - apply (derivable_pt_lim_minus _ _ 0 _ _ (dlim_mul_cont _ _ _ A1 P1 Q1) (dlim_mul_cont _ _ _ A2 P2 Q2)).
  - apply (derivable_pt_lim_plus _ _ 0 _ _ (dlim_mul_cont _ _ _ A1 P1 Q2) (dlim_mul_cont _ _ _ A2 P2 Q1)).
Qed.
Lemma ccont_const c : ccont (fun _ => c).
Proof. split; apply continuity_pt_const; intros ? ?; auto. Qed.
Lemma ccont_plus z w : ccont z -> ccont w -> ccont (fun s => Cplus (z s) (w s)).
Proof. intros (A & B) (A' & B'). split; cbn [fst snd Cplus]; [apply (continuity_pt_plus _ _ 0 A A')|apply (continuity_pt_plus _ _ 0 B B')]. Qed.
Lemma ccont_mult z w : ccont z -> ccont w -> ccont (fun s => Cmult (z s) (w s)).
Proof.
  intros (A & B) (A' & B'). split; cbn [fst snd Cmult].
  - apply (continuity_pt_minus _ _ 0 (continuity_pt_mult _ _ 0 A A') (continuity_pt_mult _ _ 0 B B')).
  - apply (continuity_pt_plus _ _ 0 (continuity_pt_mult _ _ 0 A B') (continuity_pt_mult _ _ 0 B A')).
Qed.
Lemma ccont_conj z : ccont z -> ccont (fun s => Cconj (z s)).
Proof. intros (A & B). split; cbn [fst snd Cconj]; [auto|apply (continuity_pt_opp _ 0 B)]. Qed.
Lemma ccont_csum n Z : (forall i, (i < n)%nat -> ccont (fun s => Z s i)) -> ccont (fun s => csum n (Z s)).
Proof.
  induction n; intros H; [apply (ccont_const (RtoC 0))|]. cbn [csum]. apply (ccont_plus (fun s => csum n (Z s)) (fun s => Z s n)); auto.
Qed.
Lemma cderiv_ccont z a : cderiv z a -> ccont z.
Proof.
  intros (A & B). split; apply derivable_continuous_pt; [exists (fst a)|exists (snd a)]; auto.
Qed.

(** ** perturbation of eigenpairs *)
Section Eig.
Variables (n k : nat) (H : R -> cmat) (w : R -> nat -> R) (V : R -> cmat) (dH : cmat).
Hypothesis HH : curve2 n n H dH.
Hypothesis Hherm : hermitian n (H 0).
Hypothesis HE : nearby (fun s => eigenpairs n k (H s) (w s) (V s)).
Let v := V 0.
Let M l j := csum n (fun i => Cmult (Cconj (v i l)) (csum n (fun a => Cmult (dH i a) (v a j)))).

Lemma E0 : eigenpairs n k (H 0) (w 0) v.
Proof. destruct HE as (d & Hd & F). apply F. rewrite Rabs_R0. auto. Qed.
Lemma left_eig l a : (l < k)%nat -> (a < n)%nat -> csum n (fun i => Cmult (Cconj (v i l)) (H 0 i a)) = Cmult (RtoC (w 0 l)) (Cconj (v a l)).
Proof.
  intros Hl Ha. destruct E0 as (_ & E). pose proof (E a l Ha Hl) as X. apply (f_equal Cconj) in X. rewrite Cconj_mult, Cconj_R in X. rewrite <- X.
  unfold mvec. rewrite csum_conj. apply csum_ext. intros i Hi. rewrite Cconj_mult. rewrite (Hherm a i Ha Hi), Cconj_conj. ring.
Qed.

(** the eigenvalues, for merely continuous eigenvectors *)
Lemma w_deriv : (forall i j, (i < n)%nat -> (j < k)%nat -> ccont (fun s => V s i j)) -> forall j, (j < k)%nat ->
  derivable_pt_lim (fun s => w s j) 0 (fst (M j j)).
Proof.
  intros HV j Hj.
  set (c s := csum n (fun i => Cmult (Cconj (v i j)) (V s i j))).
  assert (Cc : ccont c).
  { apply (ccont_csum n (fun s i => Cmult (Cconj (v i j)) (V s i j))). intros i Hi. apply ccont_mult; [apply ccont_const|]. apply HV; auto. }
  assert (C0 : c 0 = RtoC 1) by (unfold c; destruct E0 as (O & _); fold v; rewrite O, Nat.eqb_refl; auto).
  set (N s := csum n (fun i => csum n (fun a => Cmult (Cmult (Cconj (v i j)) (Cminus (H s i a) (H 0 i a))) (Cmult (V s a j) (Cconj (c s)))))).
  assert (DN : cderiv N (csum n (fun i => csum n (fun a => Cmult (Cmult (Cconj (v i j)) (dH i a)) (Cmult (v a j) (Cconj (c 0))))))).
  { apply (cderiv_csum n (fun s i => csum n (fun a => Cmult (Cmult (Cconj (v i j)) (Cminus (H s i a) (H 0 i a))) (Cmult (V s a j) (Cconj (c s)))))).
    intros i Hi. apply (cderiv_csum n (fun s a => Cmult (Cmult (Cconj (v i j)) (Cminus (H s i a) (H 0 i a))) (Cmult (V s a j) (Cconj (c s))))).
    intros a Ha. apply (cderiv_mul_cont (fun s => Cmult (Cconj (v i j)) (Cminus (H s i a) (H 0 i a))) (fun s => Cmult (V s a j) (Cconj (c s)))).
    - apply cderiv_scal. eapply cderiv_val; [|apply (cderiv_minus (fun s => H s i a) (fun _ => H 0 i a) (dH i a) (RtoC 0)); [apply HH; auto|apply cderiv_const]]. ring.
    - ring.
    - apply ccont_mult; [apply HV; auto|]. apply ccont_conj. auto. }
  assert (VN : csum n (fun i => csum n (fun a => Cmult (Cmult (Cconj (v i j)) (dH i a)) (Cmult (v a j) (Cconj (c 0))))) = M j j).
  { rewrite C0, Cconj_R. unfold M. apply csum_ext. intros i _. rewrite <- csum_scal_l. apply csum_ext. intros. ring. }
  rewrite VN in DN.
  set (m s := fst (c s) * fst (c s) + snd (c s) * snd (c s)).
  assert (Cm : continuity_pt m 0).
  { destruct Cc as (A & B). apply (continuity_pt_plus _ _ 0 (continuity_pt_mult _ _ 0 A A) (continuity_pt_mult _ _ 0 B B)). }
  assert (M0 : m 0 = 1) by (unfold m; rewrite C0; cbn; ring).
  assert (Mpos : nearby (fun s => 0 < m s)).
  { destruct (Cm (1 / 2) ltac:(lra)) as (d & Hd & F). exists d. split; [lra|]. intros s Hs. destruct (Req_dec s 0) as [->|Ns]; [lra|].
    assert (B : Rabs (m s - m 0) < 1 / 2).
    { apply F. split; [split; [exact Logic.I|auto]|]. cbn. unfold R_dist. rewrite Rminus_0_r. auto. }
    rewrite M0 in B. apply Rabs_def2 in B. lra. }
  destruct Mpos as (d1 & Hd1 & Mp). destruct HE as (d2 & Hd2 & F).
  assert (Id : forall s, Rabs s < d2 -> Cmult (RtoC (w s j - w 0 j)) (c s) =
     csum n (fun i => csum n (fun a => Cmult (Cmult (Cconj (v i j)) (Cminus (H s i a) (H 0 i a))) (V s a j)))).
  { intros s Hs. destruct (F s Hs) as (_ & Es).
    transitivity (Cminus (csum n (fun i => Cmult (Cconj (v i j)) (mvec n (H s) (fun a => V s a j) i)))
                         (csum n (fun a => Cmult (csum n (fun i => Cmult (Cconj (v i j)) (H 0 i a))) (V s a j)))).
    - rewrite (csum_ext n (fun i => Cmult (Cconj (v i j)) (mvec n (H s) (fun a => V s a j) i)) (fun i => Cmult (RtoC (w s j)) (Cmult (Cconj (v i j)) (V s i j)))).
      2:{ intros i Hi. rewrite Es by auto. ring. }
      rewrite csum_scal_l. rewrite (csum_ext n (fun a => Cmult (csum n (fun i => Cmult (Cconj (v i j)) (H 0 i a))) (V s a j)) (fun a => Cmult (RtoC (w 0 j)) (Cmult (Cconj (v a j)) (V s a j)))).
      2:{ intros a Ha. rewrite left_eig by auto. ring. }
      rewrite csum_scal_l. fold (c s). rewrite RtoC_minus. ring.
    - rewrite (csum_ext n (fun a => Cmult (csum n (fun i => Cmult (Cconj (v i j)) (H 0 i a))) (V s a j)) (fun a => csum n (fun i => Cmult (Cmult (Cconj (v i j)) (H 0 i a)) (V s a j)))) by (intros; rewrite csum_scal_r; auto).
      rewrite (csum_swap n n). rewrite <- csum_minus. apply csum_ext. intros i _. unfold mvec. rewrite <- csum_scal_l, <- csum_minus. apply csum_ext. intros. ring. }
  assert (Eq : forall s, Rabs s < Rmin d1 d2 -> w s j = w 0 j + fst (N s) * / m s).
  { intros s Hs. pose proof (Rmin_l d1 d2). pose proof (Rmin_r d1 d2). pose proof (Mp s ltac:(lra)).
    assert (X : Cmult (Cmult (RtoC (w s j - w 0 j)) (c s)) (Cconj (c s)) = N s).
    { rewrite Id by lra. unfold N. rewrite <- csum_scal_r. apply csum_ext. intros i _. rewrite <- csum_scal_r. apply csum_ext. intros. ring. }
    rewrite <- Cmult_assoc, Cconj_mod in X. apply (f_equal fst) in X. cbn [fst Cmult RtoC snd] in X. rewrite <- X. fold (m s). field. lra. }
  apply (dlim_near (fun s => w 0 j + fst (N s) * / m s)).
  { exists (Rmin d1 d2). split; [apply Rmin_pos; auto|]. intros s Hs. symmetry. apply Eq; auto. }
  eapply dlim_val; [|apply (derivable_pt_lim_plus (fun _ => w 0 j) (fun s => fst (N s) * / m s) 0 0 (fst (M j j) * / m 0)); [apply derivable_pt_lim_const|]].
  - rewrite M0. field.
  - apply (dlim_mul_cont (fun s => fst (N s)) (fun s => / m s) (fst (M j j))).
    + apply DN.
    + unfold N. rewrite csum_0; [reflexivity|]. intros i _. apply csum_0. intros. ring.
    + apply (continuity_pt_inv m 0 Cm). rewrite M0. lra.
Qed.

(** the eigenvectors, when differentiable *)
Variable dV : cmat.
Hypothesis HV : forall i j, (i < n)%nat -> (j < k)%nat -> cderiv (fun s => V s i j) (dV i j).
Let O l j := csum n (fun i => Cmult (Cconj (v i l)) (dV i j)).
Lemma w_deriv' j : (j < k)%nat -> derivable_pt_lim (fun s => w s j) 0 (fst (M j j)).
Proof. intros Hj. apply w_deriv; auto. intros i j' Hi Hj'. apply (cderiv_ccont _ (dV i j')). auto. Qed.
Lemma diff_eq i j : (i < n)%nat -> (j < k)%nat ->
  Cplus (csum n (fun a => Cmult (dH i a) (v a j))) (csum n (fun a => Cmult (H 0 i a) (dV a j))) =
  Cplus (Cmult (RtoC (fst (M j j))) (v i j)) (Cmult (RtoC (w 0 j)) (dV i j)).
Proof.
  intros Hi Hj. apply (cderiv_unique (fun s => mvec n (H s) (fun a => V s a j) i)).
  - unfold mvec. rewrite <- csum_plus.
    apply (cderiv_csum n (fun s a => Cmult (H s i a) (V s a j))). intros a Ha. apply (cderiv_mult (fun s => H s i a) (fun s => V s a j)); auto.
  - destruct HE as (d & Hd & F). apply (cderiv_near (fun s => Cmult (RtoC (w s j)) (V s i j))).
    { exists d. split; auto. intros s Hs. destruct (F s Hs) as (_ & E). symmetry. apply E; auto. }
    apply (cderiv_mult (fun s => RtoC (w s j)) (fun s => V s i j)); auto. apply cderiv_RtoC. apply w_deriv'. auto.
Qed.
Lemma contract l j : (l < k)%nat -> (j < k)%nat ->
  Cplus (M l j) (Cmult (RtoC (w 0 l)) (O l j)) = Cplus (Cmult (RtoC (fst (M j j))) (if Nat.eqb l j then RtoC 1 else RtoC 0)) (Cmult (RtoC (w 0 j)) (O l j)).
Proof.
  intros Hl Hj. destruct E0 as (On & _). rewrite <- (On l j Hl Hj). unfold O. rewrite <- !csum_scal_l.
  transitivity (csum n (fun i => Cmult (Cconj (v i l)) (Cplus (csum n (fun a => Cmult (dH i a) (v a j))) (csum n (fun a => Cmult (H 0 i a) (dV a j)))))).
  - symmetry. rewrite (csum_ext n _ (fun i => Cplus (Cmult (Cconj (v i l)) (csum n (fun a => Cmult (dH i a) (v a j)))) (csum n (fun a => Cmult (Cmult (Cconj (v i l)) (H 0 i a)) (dV a j))))).
    2:{ intros i Hi. rewrite Cmult_plus_distr_l. f_equal. rewrite <- csum_scal_l. apply csum_ext. intros. ring. }
    rewrite csum_plus. fold (M l j). f_equal. rewrite csum_swap. apply csum_ext. intros a Ha. rewrite csum_scal_r, left_eig by auto. ring.
  - rewrite <- csum_plus. apply csum_ext. intros i Hi. rewrite diff_eq by auto. ring.
Qed.
Lemma M_real j : (j < k)%nat -> M j j = RtoC (fst (M j j)).
Proof. intros Hj. pose proof (contract j j Hj Hj) as X. rewrite Nat.eqb_refl in X. 
  transitivity (Cminus (Cplus (M j j) (Cmult (RtoC (w 0 j)) (O j j))) (Cmult (RtoC (w 0 j)) (O j j))); [ring|]. rewrite X. ring. Qed.
Lemma O_off l j : (l < k)%nat -> (j < k)%nat -> l <> j -> Cmult (RtoC (w 0 j - w 0 l)) (O l j) = M l j.
Proof.
  intros Hl Hj N. pose proof (contract l j Hl Hj) as X. destruct (Nat.eqb_spec l j); [congruence|]. rewrite RtoC_minus.
  transitivity (Cminus (Cplus (Cmult (RtoC (fst (M j j))) (RtoC 0)) (Cmult (RtoC (w 0 j)) (O l j))) (Cmult (RtoC (w 0 l)) (O l j))); [ring|].
  rewrite <- X. ring.
Qed.
Lemma O_imag j : (j < k)%nat -> fst (O j j) = 0.
Proof.
  intros Hj. assert (X : Cplus (csum n (fun i => Cmult (Cconj (dV i j)) (v i j))) (O j j) = RtoC 0).
  { unfold O. rewrite <- csum_plus. apply (cderiv_unique (fun s => csum n (fun i => Cmult (Cconj (V s i j)) (V s i j)))).
    - apply (cderiv_csum n (fun s i => Cmult (Cconj (V s i j)) (V s i j))). intros i Hi.
      apply (cderiv_mult (fun s => Cconj (V s i j)) (fun s => V s i j)); auto. apply cderiv_conj; auto.
    - destruct HE as (d & Hd & F). apply (cderiv_near (fun _ => RtoC 1)); [|apply cderiv_const].
      exists d. split; auto. intros s Hs. destruct (F s Hs) as (On & _). rewrite On, Nat.eqb_refl by auto. auto. }
  assert (Y : csum n (fun i => Cmult (Cconj (dV i j)) (v i j)) = Cconj (O j j)).
  { unfold O. rewrite csum_conj. apply csum_ext. intros. rewrite Cconj_mult, Cconj_conj. ring. }
  rewrite Y in X. apply (f_equal fst) in X. cbn [fst Cplus Cconj RtoC] in X. lra.
Qed.
Lemma phase_term vg j : (j < k)%nat -> phase_ok n (fun i => v i j) (fun i => dV i j) vg ->
  fst (Cmult (csum n (fun a => Cmult (v a j) (vg a))) (O j j)) = 0.
Proof.
  intros Hj [P|P].
  - fold (O j j) in P. rewrite P. cbn. ring.
  - rewrite (csum_ext n _ (fun a => Cmult (vg a) (v a j))) by (intros; ring). cbn [fst Cmult]. rewrite P, (O_imag j Hj). ring.
Qed.
End Eig.

(** ** the fold to a triangle *)
Lemma any2_false n m g : any2 n m g = false -> forall i j, (i < n)%nat -> (j < m)%nat -> g i j = RtoC 0.
Proof.
  intros H i j Hi Hj. unfold any2 in H.
  assert (X : existsb (fun j => cnz (g i j)) (seq 0 m) = false).
  { destruct (existsb (fun j => cnz (g i j)) (seq 0 m)) eqn:E; auto. rewrite <- H. symmetry. apply existsb_exists. exists i. split; [apply in_seq; lia|auto]. }
  assert (Y : cnz (g i j) = false).
  { destruct (cnz (g i j)) eqn:E; auto. rewrite <- X. symmetry. apply existsb_exists. exists j. split; [apply in_seq; lia|auto]. }
  unfold cnz in Y. apply negb_false_iff, andb_true_iff in Y. destruct Y as [A B]. apply Reqb_true in A, B. apply Ceq; auto.
Qed.
Definition herm (low : bool) (X : cmat) : cmat := if low then herm_low X else herm_up X.
Lemma fold_pair low n G T : pair2 n n (fold_tri low G) T = pair2 n n G (herm low T).
Proof.
  unfold pair2. rewrite (pairs_split n (fun i j => Cmult (fold_tri low G i j) (T i j))), (pairs_split n (fun i j => Cmult (G i j) (herm low T i j))).
  apply fst_csum. intros a Ha. apply fst_csum. intros d Hd. unfold fold_tri, herm, herm_low, herm_up.
  destruct (Nat.eqb_spec d 0) as [->|Nd].
  - rewrite Nat.add_0_r, !Nat.eqb_refl. rewrite Nat.ltb_irrefl. destruct low; rewrite ?Nat.eqb_refl; destruct (G a a), (T a a); cbn; ring.
  - destruct (Nat.eqb_spec a (a + d)); [lia|]. destruct (Nat.eqb_spec (a + d) a); [lia|].
    destruct (Nat.ltb_spec (a + d) a); [lia|]. destruct (Nat.ltb_spec a (a + d)); [|lia].
    destruct low; (destruct (Nat.eqb_spec a (a + d)); [lia|]; destruct (Nat.eqb_spec (a + d) a); [lia|];
      destruct (Nat.ltb_spec (a + d) a); [lia|]; destruct (Nat.ltb_spec a (a + d)); [|lia]);
      destruct (G a (a + d)%nat), (G (a + d)%nat a), (T a (a + d)%nat), (T (a + d)%nat a); cbn; ring.
Qed.
Lemma herm_hermitian low n X : hermitian n (herm low X).
Proof.
  intros i j _ _. unfold herm, herm_low, herm_up. destruct low; destruct (Nat.eqb_spec i j) as [->|]; rewrite ?Nat.eqb_refl, ?Cconj_R; auto;
  (destruct (Nat.eqb_spec j i); [congruence|]); destruct (Nat.ltb_spec i j), (Nat.ltb_spec j i); try lia; rewrite ?Cconj_conj; auto.
Qed.
Lemma herm_curve low n X dX : curve2 n n X dX -> curve2 n n (fun s => herm low (X s)) (herm low dX).
Proof.
  intros H i j Hi Hj. unfold herm, herm_low, herm_up.
  destruct low; destruct (Nat.eqb_spec i j) as [->|]; try (apply cderiv_RtoC; apply (H j j Hj Hj)).
  - destruct (Nat.ltb_spec j i); [apply H; auto|]. apply (cderiv_conj (fun s => X s j i)). apply H; auto.
  - destruct (Nat.ltb_spec i j); [apply H; auto|]. apply (cderiv_conj (fun s => X s j i)). apply H; auto.
Qed.
