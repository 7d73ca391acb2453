(** The whole run; lossless systems have real energies; two coupled oscillators. *)
From Coq Require Import Permutation List.
From Verif Require Import Py CBase LatticeModel PhcModel RecipModel MatElModel SymModel SymSpec FieldsModel RunModel RunSpec RunProofs RunProofs3 PweModel ExcModel PolSpec PolModel PolSpec2 PolProofs PolProofs2 PolProofs4.
Open Scope R_scope.
Open Scope list_scope.

Section WholeRun.
Variables (eig : nat -> cmat -> list C * cmat) (cargsort : list C -> list nat) (argsort : list R -> list nat) (eigh : nat -> cmat -> list R * cmat).
Hypothesis Heig : solves eig.
Hypothesis Hs : csorts cargsort.

Lemma run_inv gme_run o ks m ws res mat : pol_run eig cargsort argsort eigh gme_run o ks m = (ws, Ok (res, mat)) -> exists p, gme_run ks = Ok p /\
  run_wells argsort eigh (po_exc o) ks m = (ws, Ok tt) /\ List.length res = List.length ks /\
  forall i r, nth_error res i = Some r -> exists H ms, construct (po_a o) p m ws i = Ok H /\
    positive_modes (2 * (ph_N p + m * List.length ws)) H ms /\
    let kept := firstn (ph_N p + m * List.length ws - 1) ms in
    r = KRes (map (fun m => fst (fst m)) kept) (map (fun m => snd (fst m)) kept) (map snd kept)
          (map (fun x => fst (fractions (ph_N p) (m * List.length ws) (snd x))) kept) (map (fun x => snd (fractions (ph_N p) (m * List.length ws) (snd x))) kept).
Proof.
  unfold pol_run. destruct (gme_run ks) as [p|]; [|discriminate]. intros E. exists p. split; auto.
  destruct (run_wells argsort eigh (po_exc o) ks m) as [ws' [u|]] eqn:ER; cbn [bind] in E; [|discriminate].
  injection E as <- E. destruct u. split; auto. destruct (k_loop _ _ _ _ _ _ _ _ _) as [[res' mat']|] eqn:EL; [|discriminate]. cbn [bind] in E.
  destruct mat' as [A|]; [|discriminate]. injection E as <- <-. destruct (loop_inv _ _ _ _ _ _ _ _ _ _ _ EL) as (more & -> & F). cbn [app].
  assert (G : forall s l more, Forall2 (fun kind r => exists A, construct (po_a o) p m ws' kind = Ok A /\ solve_k eig cargsort (ph_N p) (m * List.length ws') A = Ok r) (seq s l) more ->
    List.length more = l /\ forall i r, nth_error more i = Some r -> exists A, construct (po_a o) p m ws' (s + i) = Ok A /\ solve_k eig cargsort (ph_N p) (m * List.length ws') A = Ok r).
  { clear. intros s l. revert s. induction l as [|l IH]; intros s more F; inversion F; subst; [split; auto; intros [|i] r Hr; discriminate|].
    destruct (IH (S s) l' H3) as [L1 L2]. split; [simpl; lia|]. intros [|i] r Hr; [injection Hr as <-; rewrite Nat.add_0_r; auto|].
    destruct (L2 i r Hr) as (A & EA). exists A. replace (s + S i)%nat with (S s + i)%nat by lia. exact EA. }
  destruct (G _ _ _ F) as [L1 L2]. split; auto. intros i r Hr. destruct (L2 i r Hr) as (H & EH & Es). cbn [plus] in EH. exists H.
  destruct (solve_modes eig cargsort Heig Hs (ph_N p) (m * List.length ws') H) as (ms & HP & E'). exists ms. split; auto. split; auto. cbv zeta in *. rewrite E' in Es. injection Es as <-. reflexivity.
Qed.
(** fractions *)
Lemma run_fractions gme_run o ks m ws res mat : pol_run eig cargsort argsort eigh gme_run o ks m = (ws, Ok (res, mat)) ->
  forall r, In r res -> List.length (kr_fx r) = List.length (kr_e r) /\ List.length (kr_fp r) = List.length (kr_e r) /\
  forall b, (b < List.length (kr_e r))%nat -> 0 <= nth b (kr_fx r) 0 <= 1 /\ 0 <= nth b (kr_fp r) 0 <= 1 /\ nth b (kr_fx r) 0 + nth b (kr_fp r) 0 = 1.
Proof.
  intros E r Hr. destruct (run_inv _ _ _ _ _ _ _ E) as (p & _ & _ & _ & HR). apply In_nth_error in Hr. destruct Hr as [i Hi].
  destruct (HR i r Hi) as (H & ms & _ & (HM & _) & ->). cbn [kr_fx kr_fp kr_e]. set (kept := firstn _ ms).
  rewrite !map_length. split; auto. split; auto. intros b Hb. set (K := (m * List.length ws)%nat) in *.
  rewrite (map_nth_lt (fun x => fst (fractions (ph_N p) K (snd x))) kept (RtoC 0, fun _ => RtoC 0) 0 b Hb).
  rewrite (map_nth_lt (fun x => snd (fractions (ph_N p) K (snd x))) kept (RtoC 0, fun _ => RtoC 0) 0 b Hb).
  assert (I : In (nth b kept (RtoC 0, fun _ => RtoC 0)) ms).
  { assert (I : In (nth b kept (RtoC 0, fun _ => RtoC 0)) kept) by (apply nth_In; auto). unfold kept in I. rewrite <- (firstn_skipn (ph_N p + K - 1) ms). apply in_or_app. auto. }
  destruct (HM _ I) as (_ & HU & _). pose proof (fractions_unit _ _ _ HU) as HF. destruct (fractions _ _ _) as [x y]. exact HF.
Qed.
End WholeRun.

(** ** lossless *)
Lemma mod2 z : (Cconj z * z)%C = RtoC (Cmod z ^ 2).
Proof.
  apply Ceq; cbn [fst snd Cmult Cconj RtoC]; [|ring]. unfold Cmod. rewrite pow2_sqrt; [ring|]. pose proof (pow2_ge_0 (fst z)); pose proof (pow2_ge_0 (snd z)); lra.
Qed.
Lemma csum_re n f : fst (csum n f) = fold_right Rplus 0 (map (fun i => fst (f i)) (seq 0 n)).
Proof.
  assert (G : forall s, fst (csum n (fun i => f (s + i)%nat)) = fold_right Rplus 0 (map (fun i => fst (f i)) (seq s n))).
  { induction n as [|n IH]; intros s; [reflexivity|]. rewrite csum_first. cbn [seq map fold_right fst Cplus]. rewrite Nat.add_0_r. f_equal.
    rewrite <- IH. f_equal. apply csum_ext. intros i Hi. f_equal. lia. }
  apply (G 0%nat).
Qed.
Lemma fr_nonneg l : (forall x, In x l -> 0 <= x) -> 0 <= fold_right Rplus 0 l.
Proof. induction l as [|x t IH]; intros H; simpl; [lra|]. pose proof (H x (or_introl eq_refl)). specialize (IH ltac:(intros; apply H; right; auto)). lra. Qed.
Lemma csum_nonneg n f : (forall i, (i < n)%nat -> 0 <= fst (f i)) -> 0 <= fst (csum n f).
Proof. intros H. rewrite csum_re. apply fr_nonneg. intros x Hx. apply in_map_iff in Hx. destruct Hx as (i & <- & I). apply in_seq in I. apply H. lia. Qed.
Lemma csum_pos n f k : (forall i, (i < n)%nat -> 0 <= fst (f i)) -> (k < n)%nat -> 0 < fst (f k) -> 0 < fst (csum n f).
Proof.
  intros H Hk Hp. induction n as [|n IH]; [lia|]. cbn [csum fst Cplus]. destruct (Nat.eq_dec k n) as [->|Hn].
  - pose proof (csum_nonneg n f ltac:(intros; apply H; lia)). lra.
  - specialize (IH ltac:(intros; apply H; lia) ltac:(lia)). pose proof (H n ltac:(lia)). lra.
Qed.
Lemma csum_snd_zero n f : (forall i, (i < n)%nat -> snd (f i) = 0) -> snd (csum n f) = 0.
Proof. intros H. induction n as [|n IH]; [reflexivity|]. cbn [csum snd Cplus]. rewrite H, IH by auto. ring. Qed.
Lemma mod_pos z : z <> RtoC 0 -> 0 < Cmod z ^ 2.
Proof. intros H. apply pow_lt, Cmod_gt_0. auto. Qed.
Section Lossless.
Variables (N K : nat) (w : nat -> R) (c : cmat) (e : nat -> R).
Hypothesis Hw : forall n, (n < N)%nat -> 0 < w n.
Hypothesis He : forall j, (j < K)%nat -> 0 < e j.
Definition dD : cmat := fun n1 n2 => csum K (fun j => Cconj (c n1 j) * c n2 j / RtoC (e j))%C.
Hypothesis HD : forall n1 n2, (n1 < N)%nat -> (n2 < N)%nat -> snd (dD n1 n2) = 0.
Variables (A d : cmat) (eC : nat -> C).
Hypothesis HA : forall i j, (i < N)%nat -> (j < N)%nat -> A i j = ((if Nat.eqb i j then RtoC (w i) else RtoC 0) + RtoC 2 * dD i j)%C.
Hypothesis Hd : forall i j, (i < N)%nat -> (j < N)%nat -> d i j = dD i j.
Hypothesis HeC : forall j, (j < K)%nat -> eC j = RtoC (e j).
Local Notation H := (hopfield N K A c d eC).
Local Notation n := (2 * (N + K))%nat.

Lemma dD_sym i j : (i < N)%nat -> (j < N)%nat -> dD i j = csum K (fun k => c i k * Cconj (c j k) / RtoC (e k))%C.
Proof.
  intros Hi Hj. transitivity (Cconj (dD i j)).
  - apply Ceq; cbn [fst snd Cconj]; auto. rewrite HD by auto. ring.
  - unfold dD. rewrite csum_conj. apply csum_ext. intros k Hk. unfold Cdiv. rewrite !Cconj_mult, Cconj_conj. f_equal.
    pose proof (He k Hk) as E. rewrite <- RtoC_inv by lra. apply Cconj_R.
Qed.
(** <v, eta H v> *)
Variables (l : C) (v : cvec).
Hypothesis HE : eigvec n H l v.
Local Notation a := v.
Local Notation b := (part1 N v).
Local Notation c' := (part2 N K v).
Local Notation d' := (part3 N K v).
Local Notation x := (fun i => v i - part2 N K v i)%C.
Local Notation y := (fun i => part1 N v i + part3 N K v i)%C.
Definition tk (j : nat) : C := csum N (fun i => Cconj (c i j) * x i)%C.
Local Notation t := tk.
Definition norm_eta : C := (csum N (fun i => Cconj (a i) * a i - Cconj (c' i) * c' i) + csum K (fun j => Cconj (b j) * b j - Cconj (d' j) * d' j))%C.
Definition form : C := (csum N (fun i => RtoC (w i) * (Cconj (a i) * a i + Cconj (c' i) * c' i)) +
  csum K (fun j => RtoC 2 / RtoC (e j) * (Cconj (t j) * t j) + RtoC (e j) * (Cconj (b j) * b j + Cconj (d' j) * d' j)
     - Ci * (Cconj (t j) * y j) + Ci * (Cconj (y j) * t j)))%C.
Lemma mvec_A z i : (i < N)%nat -> mvec N A z i = (RtoC (w i) * z i + RtoC 2 * csum K (fun k => c i k / RtoC (e k) * csum N (fun j => Cconj (c j k) * z j)))%C.
Proof.
  intros Hi. unfold mvec. rewrite (csum_ext N _ (fun j => (if Nat.eqb i j then RtoC (w i) else RtoC 0) * z j + RtoC 2 * csum K (fun k => c i k / RtoC (e k) * (Cconj (c j k) * z j)))%C).
  - rewrite csum_plus. f_equal.
    + rewrite (csum_single N i); auto; [rewrite Nat.eqb_refl; auto|]. intros j Hj Hn. rewrite (proj2 (Nat.eqb_neq i j)) by auto. ring.
    + rewrite csum_scal_l. f_equal. rewrite csum_swap. apply csum_ext. intros k Hk. rewrite csum_scal_l. reflexivity.
  - intros j Hj. rewrite HA, dD_sym by auto. rewrite Cmult_plus_distr_r. f_equal. rewrite <- Cmult_assoc. f_equal. rewrite <- csum_scal_r. apply csum_ext. intros k Hk. unfold Cdiv. ring.
Qed.
Lemma mvec_d z i : (i < N)%nat -> mvec N d z i = csum K (fun k => c i k / RtoC (e k) * csum N (fun j => Cconj (c j k) * z j))%C.
Proof.
  intros Hi. unfold mvec. rewrite (csum_ext N _ (fun j => csum K (fun k => c i k / RtoC (e k) * (Cconj (c j k) * z j)))%C).
  - rewrite csum_swap. apply csum_ext. intros k Hk. rewrite csum_scal_l. reflexivity.
  - intros j Hj. rewrite Hd, dD_sym by auto. rewrite <- csum_scal_r. apply csum_ext. intros k Hk. unfold Cdiv. ring.
Qed.
Lemma t_diff j : t j = (adjv N c v j - adjv N c (part2 N K v) j)%C.
Proof. unfold tk, adjv, Cminus. rewrite <- csum_opp, <- csum_plus. apply csum_ext. intros i Hi. ring. Qed.
Lemma eq0 i : (i < N)%nat -> (l * a i = RtoC (w i) * a i + csum K (fun k => c i k * (RtoC 2 / RtoC (e k) * t k - Ci * y k)))%C.
Proof.
  intros Hi. destruct HE as [_ E]. rewrite <- (E i) by lia. rewrite (row0 N K A c d eC v i Hi), mvec_A, mvec_d by auto. unfold mvec.
  unfold Cminus. rewrite <- !csum_scal_l, <- !csum_opp, <- !Cplus_assoc. f_equal. rewrite <- !csum_plus. apply csum_ext. intros k Hk.
  rewrite (t_diff k). unfold adjv, Cdiv, Cminus. ring.
Qed.
Lemma eq2 i : (i < N)%nat -> (l * c' i = - RtoC (w i) * c' i + csum K (fun k => c i k * (RtoC 2 / RtoC (e k) * t k - Ci * y k)))%C.
Proof.
  intros Hi. destruct HE as [_ E]. unfold part2 at 1. rewrite <- (E (N + K + i)%nat) by lia. rewrite (row2 N K A c d eC v i Hi), mvec_A, mvec_d by auto. unfold mvec.
  transitivity (- RtoC (w i) * c' i + (RtoC 2 * csum K (fun k => c i k / RtoC (e k) * csum N (fun j => Cconj (c j k) * v j)) - Ci * csum K (fun j => c i j * b j) - RtoC 2 * csum K (fun k => c i k / RtoC (e k) * csum N (fun j => Cconj (c j k) * c' j)) - Ci * csum K (fun j => c i j * d' j)))%C; [ring|].
  unfold Cminus. rewrite <- !csum_scal_l, <- !csum_opp. f_equal. rewrite <- !csum_plus. apply csum_ext. intros k Hk.
  rewrite (t_diff k). unfold adjv, Cdiv, Cminus. ring.
Qed.
Lemma eq1 j : (j < K)%nat -> (l * b j = Ci * t j + RtoC (e j) * b j)%C.
Proof.
  intros Hj. destruct HE as [_ E]. unfold part1 at 1. rewrite <- (E (N + j)%nat) by lia. rewrite (row1 N K A c d eC v j Hj), (t_diff j), HeC by auto. ring.
Qed.
Lemma eq3 j : (j < K)%nat -> (l * d' j = - Ci * t j - RtoC (e j) * d' j)%C.
Proof.
  intros Hj. destruct HE as [_ E]. unfold part3 at 1. rewrite <- (E (N + K + N + j)%nat) by lia. rewrite (row3 N K A c d eC v j Hj), (t_diff j), HeC by auto. ring.
Qed.
Lemma form_eq : (l * norm_eta = form)%C.
Proof.
  unfold norm_eta, form. rewrite Cmult_plus_distr_l, <- !csum_scal_l.
  rewrite (csum_ext N _ (fun i => RtoC (w i) * (Cconj (a i) * a i + Cconj (c' i) * c' i) + csum K (fun k => Cconj (x i) * c i k * (RtoC 2 / RtoC (e k) * t k - Ci * y k)))%C).
  2:{ intros i Hi. replace (l * (Cconj (a i) * a i - Cconj (c' i) * c' i))%C with (Cconj (a i) * (l * a i) - Cconj (c' i) * (l * c' i))%C by ring.
      rewrite eq0, eq2 by auto. rewrite (csum_ext K (fun k => Cconj (x i) * c i k * _)%C (fun k => Cconj (x i) * (c i k * (RtoC 2 / RtoC (e k) * t k - Ci * y k)))%C) by (intros; ring).
      rewrite csum_scal_l, Cconj_minus. ring. }
  rewrite csum_plus, <- !Cplus_assoc. f_equal. rewrite csum_swap, <- csum_plus. apply csum_ext. intros k Hk.
  replace (l * (Cconj (b k) * b k - Cconj (d' k) * d' k))%C with (Cconj (b k) * (l * b k) - Cconj (d' k) * (l * d' k))%C by ring. rewrite eq1, eq3 by auto.
  rewrite csum_scal_r. replace (csum N (fun i => Cconj (x i) * c i k)%C) with (Cconj (t k)).
  - rewrite Cconj_plus. ring.
  - unfold tk. rewrite csum_conj. apply csum_ext. intros i Hi. rewrite Cconj_mult, Cconj_conj. ring.
Qed.
Lemma norm_real : snd norm_eta = 0.
Proof.
  unfold norm_eta. cbn [snd Cplus]. rewrite !csum_snd_zero; [ring|..]; intros i Hi; unfold Cminus; rewrite !mod2; simpl; ring.
Qed.
Definition cell k : C := (RtoC 2 / RtoC (e k) * (Cconj (t k) * t k) + RtoC (e k) * (Cconj (b k) * b k + Cconj (d' k) * d' k)
     - Ci * (Cconj (t k) * y k) + Ci * (Cconj (y k) * t k))%C.
Lemma cell_re k : (k < K)%nat -> fst (cell k) =
  2 / e k * ((fst (t k) + e k / 2 * snd (y k)) ^ 2 + (snd (t k) - e k / 2 * fst (y k)) ^ 2) + e k / 2 * ((fst (b k) - fst (d' k)) ^ 2 + (snd (b k) - snd (d' k)) ^ 2) /\ snd (cell k) = 0.
Proof.
  intros Hk. pose proof (He k Hk) as Hp. unfold cell. generalize (t k). cbv beta. intros z. destruct z as [t1 t2]. destruct (b k) as [b1 b2]. destruct (d' k) as [d1 d2].
  unfold Cdiv. rewrite <- RtoC_inv by lra. unfold Cminus, Cplus, Copp, Cmult, Cconj, Ci, RtoC. cbn [fst snd]. split; field; lra.
Qed.
Lemma cell_nonneg k : (k < K)%nat -> 0 <= fst (cell k).
Proof.
  intros Hk. pose proof (He k Hk) as Hp. rewrite (proj1 (cell_re k Hk)).
  assert (0 < 2 / e k) by (apply Rdiv_lt_0_compat; lra).
  apply Rplus_le_le_0_compat; apply Rmult_le_pos; try lra; apply Rplus_le_le_0_compat; apply pow2_ge_0.
Qed.
Lemma phot_nonneg i : (i < N)%nat -> 0 <= fst (RtoC (w i) * (Cconj (a i) * a i + Cconj (c' i) * c' i))%C /\
  (a i <> RtoC 0 \/ c' i <> RtoC 0 -> 0 < fst (RtoC (w i) * (Cconj (a i) * a i + Cconj (c' i) * c' i))%C) /\ snd (RtoC (w i) * (Cconj (a i) * a i + Cconj (c' i) * c' i))%C = 0.
Proof.
  intros Hi. pose proof (Hw i Hi) as Hp. rewrite !mod2, <- RtoC_plus, <- RtoC_mult. cbn [fst snd RtoC].
  pose proof (pow2_ge_0 (Cmod (a i))). pose proof (pow2_ge_0 (Cmod (c' i))). split; [nra|]. split; auto.
  intros [X|X]; apply mod_pos in X; nra.
Qed.
Lemma form_pos : 0 < fst form /\ snd form = 0.
Proof.
  change form with (csum N (fun i => RtoC (w i) * (Cconj (a i) * a i + Cconj (c' i) * c' i)) + csum K cell)%C. cbn [fst snd Cplus]. split.
  - pose proof (csum_nonneg N (fun i => RtoC (w i) * (Cconj (a i) * a i + Cconj (c' i) * c' i))%C (fun i Hi => proj1 (phot_nonneg i Hi))) as P1.
    pose proof (csum_nonneg K cell cell_nonneg) as P2.
    destruct (zero_dec N v) as [(i & Hi & X)|Z1].
    { pose proof (csum_pos N (fun i => RtoC (w i) * (Cconj (a i) * a i + Cconj (c' i) * c' i))%C i (fun i Hi => proj1 (phot_nonneg i Hi)) Hi (proj1 (proj2 (phot_nonneg i Hi)) (or_introl X))). lra. }
    destruct (zero_dec N c') as [(i & Hi & X)|Z2].
    { pose proof (csum_pos N (fun i => RtoC (w i) * (Cconj (a i) * a i + Cconj (c' i) * c' i))%C i (fun i Hi => proj1 (phot_nonneg i Hi)) Hi (proj1 (proj2 (phot_nonneg i Hi)) (or_intror X))). lra. }
    assert (T0 : forall k, t k = RtoC 0).
    { intros k. unfold tk. apply csum_0. intros i Hi. cbn beta. rewrite Z1, Z2 by auto. unfold Cminus. ring. }
    assert (HX : exists k, (k < K)%nat /\ (b k <> RtoC 0 \/ d' k <> RtoC 0)).
    { destruct HE as [(i & Hi & X) _]. revert X. pattern i. revert i Hi. apply split4; intros i Hi X.
      - exfalso. auto.
      - exists i. auto.
      - exfalso. apply X. apply Z2. auto.
      - exists i. auto. }
    destruct HX as (k & Hk & X). pose proof (He k Hk) as Hp.
    assert (CP : 0 < fst (cell k)).
    { assert (CE : cell k = RtoC (e k * (Cmod (b k) ^ 2 + Cmod (d' k) ^ 2))).
      { unfold cell. rewrite (T0 k), Cconj_R, RtoC_mult, RtoC_plus, <- !mod2. unfold Cdiv. ring. }
      rewrite CE. cbn [fst RtoC]. pose proof (pow2_ge_0 (Cmod (b k))). pose proof (pow2_ge_0 (Cmod (d' k))). destruct X as [X|X]; apply mod_pos in X; nra. }
    pose proof (csum_pos K cell k cell_nonneg Hk CP). lra.
  - rewrite !csum_snd_zero; [ring| |]; intros i Hi; [apply cell_re; auto|apply phot_nonneg; auto].
Qed.
Lemma real_energy : snd l = 0 /\ fst l <> 0.
Proof.
  pose proof form_eq as E. pose proof norm_real as R0. destruct form_pos as [P1 P2]. rewrite <- E in P1, P2. cbn [fst snd Cmult] in P1, P2. rewrite R0 in *.
  assert (fst norm_eta <> 0) by (intros Z; rewrite Z in P1; lra). split.
  - rewrite Rmult_0_r, Rplus_0_l in P2. apply Rmult_integral in P2. tauto.
  - intros Z. rewrite Z in P1. lra.
Qed.
End Lossless.
