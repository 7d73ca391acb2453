(** The frequencies of the guided-mode expansion do not depend on the
    eigensolver. *)
From Coq Require Import Permutation.
From Verif Require Import Py CBase LatticeModel PhcModel SymModel SymSpec RecipModel SlabModel MatElModel MatElSpec
  RadModel RunModel RunSpec RunProofs RunProofs2 RunProofs3 RunProofs4 RunProofs5 PweSpec PweProofs2 OracSpec OracProofs.
Open Scope R_scope.
Open Scope list_scope.

Lemma sort_reals l : exists s, Permutation s l /\ ascending s.
Proof.
  destruct (sort_list R Rle ltac:(intros x y; destruct (Rle_dec x y); [auto|right; lra]) Rle_trans l) as (s & P & S). exists s. split; [exact P|].
  intros i j Hij. apply (sorted_nth R Rle 0 s S). exact Hij.
Qed.

Lemma complete {A} : forall (a l : list A), NoDup a -> incl a l -> exists r, Permutation (a ++ r) l.
Proof.
  induction a as [|x a IH]; intros l ND HI; [exists l; reflexivity|]. inversion ND as [|y t Hx Ha]; subst.
  destruct (in_split x l (HI x (or_introl eq_refl))) as (l1 & l2 & ->).
  destruct (IH (l1 ++ l2) Ha) as [r Hr].
  { intros y Hy. specialize (HI y (or_intror Hy)). apply in_app_or in HI. apply in_or_app. destruct HI as [|[->|]]; auto. contradiction. }
  exists r. cbn [app]. rewrite Hr. apply Permutation_middle.
Qed.
Lemma asc_app a b : ascending a -> ascending b -> (forall x y, In x a -> In y b -> x <= y) -> ascending (a ++ b).
Proof.
  intros Ha Hb H i j Hij. rewrite app_length in Hij. destruct (Nat.lt_ge_cases j (List.length a)) as [Lj|Lj].
  - rewrite !app_nth1 by lia. apply Ha. lia.
  - rewrite (app_nth2 a b 0 Lj). destruct (Nat.lt_ge_cases i (List.length a)) as [Li|Li].
    + rewrite app_nth1 by lia. apply H; apply nth_In; lia.
    + rewrite app_nth2 by lia. apply Hb. lia.
Qed.
Lemma map_nth_seq (ls : list R) : map (fun j => nth j ls 0) (seq 0 (List.length ls)) = ls.
Proof.
  apply (nth_ext _ _ 0 0); [rewrite map_length, seq_length; reflexivity|]. intros i Hi. rewrite map_length, seq_length in Hi.
  apply (nth_map_seq (fun j => nth j ls 0)). exact Hi.
Qed.

(** what is nearest in h is smallest in g when g and h order alike *)
Lemma nearest_smallest ls n k (g h : R -> R) idx : List.length ls = n -> (forall x y, h x <= h y -> g x <= g y) -> nearest n k (fun j => h (nth j ls 0)) idx ->
  ascending (map (fun j => g (nth j ls 0)) idx) -> smallest k (map g ls) (map (fun j => g (nth j ls 0)) idx).
Proof.
  intros Hl Hgh (L & ND & Hin & Hnear) Ha.
  destruct (complete idx (seq 0 n) ND) as [r HP]; [intros j Hj; apply in_seq; specialize (Hin j Hj); lia|].
  set (G := fun j => g (nth j ls 0)) in *. destruct (sort_reals (map G r)) as (t & Pt & At).
  exists (map G idx ++ t). split; [|split].
  - rewrite Pt, <- map_app, HP. unfold G. rewrite <- (map_map (fun j => nth j ls 0) g), <- Hl, map_nth_seq. reflexivity.
  - apply asc_app; [exact Ha|exact At|]. intros x y Hx Hy. apply (Permutation_in _ Pt) in Hy. apply in_map_iff in Hx, Hy.
    destruct Hx as (i & <- & Hi), Hy as (j & <- & Hj). apply Hgh. apply Hnear; [exact Hi| |].
    + assert (In j (seq 0 n)) by (apply (Permutation_in _ HP), in_or_app; auto). apply in_seq in H. lia.
    + intros Hj'. assert (ND2 : NoDup (idx ++ r)) by (apply (Permutation_NoDup (Permutation_sym HP)), seq_NoDup).
      clear -Hj Hj' ND2. induction idx as [|a idx IH]; [destruct Hj'|]. cbn [app] in ND2. inversion ND2; subst. destruct Hj' as [->|Hj']; [apply H1, in_or_app; auto|apply IH; assumption].
  - rewrite firstn_app. rewrite map_length, L, Nat.sub_diag. cbn [firstn]. rewrite app_nil_r, firstn_all2; [reflexivity|]. rewrite map_length. lia.
Qed.
Lemma smallest_unique k a b f f' : Permutation a b -> smallest k a f -> smallest k b f' -> f = f'.
Proof.
  intros P (s & Ps & As & ->) (t & Pt & At & ->). rewrite (asc_unique s t); [reflexivity| |exact As|exact At]. rewrite Ps, P, Pt. reflexivity.
Qed.

Lemma freq_of_nonneg l : 0 <= freq_of l.
Proof. unfold freq_of, Rdiv. apply Rmult_le_pos; [apply sqrt_pos|]. left. apply Rinv_0_lt_compat. pose proof PI_RGT_0. lra. Qed.

(** the frequencies reported are the smallest of any eigensystem *)
Lemma reports_smallest n A ls V idx fs vs k sigma : reports n A ls V idx fs vs -> sigma <= 0 -> nearest n k (fun j => Rabs (freq_of (nth j ls 0) - sigma)) idx ->
  forall ms W, eigensystem n A ms W -> smallest k (map freq_of ms) fs.
Proof.
  intros (E & -> & Ha & _) Hs Hn ms W E'.
  assert (S : smallest k (map freq_of ls) (map (fun j => freq_of (nth j ls 0)) idx)).
  { apply (nearest_smallest ls n k freq_of (fun l => Rabs (freq_of l - sigma))); [apply E| |exact Hn|exact Ha].
    intros x y H. pose proof (freq_of_nonneg x). pose proof (freq_of_nonneg y). rewrite !Rabs_pos_eq in H by lra. lra. }
  destruct S as (s & Ps & S). exists s. split; [|exact S]. rewrite Ps. apply Permutation_map. apply (eigs_unique n A ms W ls V E' E).
Qed.
Lemma reports_smallest2 n A ls V idx fs vs k : reports n A ls V idx fs vs -> nearest n k (fun j => Rabs (nth j ls 0 - (2 * PI * 0) * (2 * PI * 0))) idx ->
  forall ms W, eigensystem n A ms W -> smallest k (map freq_of ms) fs.
Proof.
  intros (E & -> & Ha & _) Hn ms W E'.
  assert (S : smallest k (map freq_of ls) (map (fun j => freq_of (nth j ls 0)) idx)).
  { apply (nearest_smallest ls n k freq_of (fun l => Rabs (l - (2 * PI * 0) * (2 * PI * 0)))); [apply E| |exact Hn|exact Ha].
    intros x y H. replace (x - 2 * PI * 0 * (2 * PI * 0)) with x in H by ring. replace (y - 2 * PI * 0 * (2 * PI * 0)) with y in H by ring.
    unfold freq_of, Rdiv. apply Rmult_le_compat_r; [left; apply Rinv_0_lt_compat; pose proof PI_RGT_0; lra|]. apply sqrt_le_1_alt. exact H. }
  destruct S as (s & Ps & S). exists s. split; [|exact S]. rewrite Ps. apply Permutation_map. apply (eigs_unique n A ms W ls V E' E).
Qed.

Section G.
Variables (inv : nat -> cmat -> cmat) (root : (R -> R) -> R -> R -> R) (dl : R).
Lemma modes_excl o : exact_modes o = true -> interp_modes o = true -> False.
Proof. unfold exact_modes, interp_modes. intros H1 H2. apply String.eqb_eq in H1, H2. congruence. Qed.
Lemma matrix_unique d o ks eps einv k te tm mat eps' te' tm' mat' :
  matrix_at root dl d o ks eps einv k te tm mat -> matrix_at root dl d o ks eps' einv k te' tm' mat' -> mat = mat'.
Proof.
  intros (E1 & garr & T1 & M1) (E2 & garr' & T2 & M2). rewrite E1 in E2. injection E2 as <-.
  destruct T1 as [[X1 T1]|[X1 T1]], T2 as [[X2 T2]|[X2 T2]]; try (exfalso; apply (modes_excl o); assumption);
  rewrite T1 in T2; injection T2 as <- <- <-; rewrite M1 in M2; injection M2 as <-; reflexivity.
Qed.

Lemma run_einv argsort eigh eigsh d o ks an s s' einv : run argsort eigh eigsh inv root dl d o ks an s = (s', Ok tt) -> g_einv s' = Some einv ->
  einv = match g_einv s with Some e => e | None => build_einv inv d (o_only o) end.
Proof. intros H E. destruct (run_ok argsort eigh eigsh inv root dl d o ks an s s' H) as (refl & eps & einv' & _ & _ & H1 & H2 & _). rewrite H2 in E. injection E as <-. exact H1. Qed.

Lemma lists_equal (a b : list (list R)) (ks : list (R * R)) : List.length a = List.length ks -> List.length b = List.length ks ->
  (forall ik k, nth_error ks ik = Some k -> nth ik a [] = nth ik b []) -> a = b.
Proof.
  intros La Lb H. apply (nth_ext _ _ [] []); [congruence|]. intros i Hi. destruct (nth_error ks i) as [k|] eqn:E; [exact (H i k E)|].
  apply nth_error_None in E. lia.
Qed.

Lemma gme_lowest argsort eigh eigsh : sorts argsort -> diagonalises eigh ->
  forall d o ks an s s', o_solver o = "eigh"%string -> o_symm o = None -> o_sigma o <= 0 ->
  run argsort eigh eigsh inv root dl d o ks an s = (s', Ok tt) ->
  List.length (g_freqs s') = List.length ks /\
  forall ik k, nth_error ks ik = Some k -> exists eps einv te tm mat,
    matrix_at root dl d o ks eps einv k te tm mat /\ g_einv s' = Some einv /\ herm mat /\
    forall ls V, eigensystem (nr mat) (ent mat) ls V -> smallest (o_numeig o) (map freq_of ls) (nth ik (g_freqs s') []).
Proof.
  intros Hs He d o ks an s s' H1 H2 H3 H. destruct (C38_run argsort eigh eigsh inv root dl Hs d o ks an s s' He H1 H2 H) as (L1 & _ & Q). split; [exact L1|].
  destruct (run_matrix argsort eigh eigsh inv root dl d o ks an s s' H) as (_ & _ & QM).
  intros ik k Hk. destruct (Q ik k Hk) as (eps & einv & te & tm & mat & ls & V & idx & M & E & Rp & N).
  destruct (QM ik k Hk) as (refl & eps' & einv' & te' & tm' & mat' & sy & numg & M' & HM & _ & E' & _).
  rewrite E in E'. injection E' as <-. pose proof (matrix_unique _ _ _ _ _ _ _ _ _ _ _ _ _ M M') as <-.
  exists eps, einv, te, tm, mat. split; [exact M|]. split; [exact E|]. split; [exact HM|]. intros ms W HW. exact (reports_smallest _ _ _ _ _ _ _ _ _ Rp H3 N ms W HW).
Qed.
Lemma gme_lowest_sparse argsort eigh eigsh : sorts argsort -> diagonalises_near eigsh ->
  forall d o ks an s s', (0 < o_numeig o)%nat -> o_solver o = "eigsh"%string -> o_symm o = None -> o_sigma o = 0 ->
  run argsort eigh eigsh inv root dl d o ks an s = (s', Ok tt) ->
  List.length (g_freqs s') = List.length ks /\
  forall ik k, nth_error ks ik = Some k -> exists eps einv te tm mat,
    matrix_at root dl d o ks eps einv k te tm mat /\ g_einv s' = Some einv /\ herm mat /\
    (~ eigval (nr mat) (ent mat) (RtoC 0) ->
     forall ls V, eigensystem (nr mat) (ent mat) ls V -> smallest (o_numeig o) (map freq_of ls) (nth ik (g_freqs s') [])).
Proof.
  intros Hs He d o ks an s s' Hn H1 H2 H3 H. destruct (run_matrix argsort eigh eigsh inv root dl d o ks an s s' H) as (L1 & _ & QM). split; [exact L1|].
  pose proof (C38_eigsh_run argsort eigh eigsh inv root dl Hs d o ks an s s' He Hn H1 H2 H) as Q.
  intros ik k Hk. destruct (Q ik k Hk) as (eps & einv & te & tm & mat & M & E & Rp).
  destruct (QM ik k Hk) as (refl & eps' & einv' & te' & tm' & mat' & sy & numg & M' & HM & _ & E' & _).
  rewrite E in E'. injection E' as <-. pose proof (matrix_unique _ _ _ _ _ _ _ _ _ _ _ _ _ M M') as <-.
  exists eps, einv, te, tm, mat. split; [exact M|]. split; [exact E|]. split; [exact HM|]. intros NZ. rewrite H3 in Rp.
  destruct Rp as (ls & V & idx & Rp & N); [replace (2 * PI * 0 * (2 * PI * 0)) with 0 by ring; exact NZ|].
  intros ms W HW. exact (reports_smallest2 _ _ _ _ _ _ _ _ Rp N ms W HW).
Qed.

(** two dense solvers *)
Lemma gme_solver_free argsort eigh eigsh argsort' eigh' eigsh' : sorts argsort -> diagonalises eigh -> sorts argsort' -> diagonalises eigh' ->
  forall d o ks an s s1 s2, o_solver o = "eigh"%string -> o_symm o = None -> o_sigma o <= 0 ->
  run argsort eigh eigsh inv root dl d o ks an s = (s1, Ok tt) -> run argsort' eigh' eigsh' inv root dl d o ks an s = (s2, Ok tt) ->
  g_freqs s1 = g_freqs s2.
Proof.
  intros Ha He Ha' He' d o ks an s s1 s2 H1 H2 H3 R1 R2.
  destruct (gme_lowest argsort eigh eigsh Ha He d o ks an s s1 H1 H2 H3 R1) as (L1 & Q1). destruct (gme_lowest argsort' eigh' eigsh' Ha' He' d o ks an s s2 H1 H2 H3 R2) as (L2 & Q2).
  apply (lists_equal _ _ ks L1 L2). intros ik k Hk. destruct (Q1 ik k Hk) as (eps & einv & te & tm & mat & M & E & HM & S1). destruct (Q2 ik k Hk) as (eps' & einv' & te' & tm' & mat' & M' & E' & HM' & S2).
  pose proof (run_einv _ _ _ _ _ _ _ _ _ _ R1 E) as Ee. pose proof (run_einv _ _ _ _ _ _ _ _ _ _ R2 E') as Ee'. rewrite <- Ee' in Ee. subst einv'.
  pose proof (matrix_unique _ _ _ _ _ _ _ _ _ _ _ _ _ M M') as <-.
  pose proof (He (nr mat) (ent mat)) as Hd. destruct HM as [_ HM].
  specialize (Hd ltac:(intros; apply HM; assumption)). exact (smallest_unique _ _ _ _ _ (Permutation_refl _) (S1 _ _ Hd) (S2 _ _ Hd)).
Qed.

(** dense against sparse *)
Lemma gme_dense_sparse argsort eigh eigsh argsort' eigh' eigsh' : sorts argsort -> diagonalises eigh -> sorts argsort' -> diagonalises_near eigsh' ->
  forall d o ks an s s1 s2, (0 < o_numeig o)%nat -> o_symm o = None -> o_sigma o = 0 ->
  run argsort eigh eigsh inv root dl d (with_solver "eigh" o) ks an s = (s1, Ok tt) ->
  run argsort' eigh' eigsh' inv root dl d (with_solver "eigsh" o) ks an s = (s2, Ok tt) ->
  forall ik k, nth_error ks ik = Some k -> exists eps einv te tm mat, matrix_at root dl d o ks eps einv k te tm mat /\ g_einv s1 = Some einv /\ g_einv s2 = Some einv /\
  (~ eigval (nr mat) (ent mat) (RtoC 0) -> nth ik (g_freqs s1) [] = nth ik (g_freqs s2) []).
Proof.
  intros Ha He Ha' He' d o ks an s s1 s2 Hn H2 H3 R1 R2.
  destruct (gme_lowest argsort eigh eigsh Ha He d (with_solver "eigh" o) ks an s s1 eq_refl H2 ltac:(cbn; lra) R1) as (L1 & Q1).
  destruct (gme_lowest_sparse argsort' eigh' eigsh' Ha' He' d (with_solver "eigsh" o) ks an s s2 Hn eq_refl H2 H3 R2) as (L2 & Q2).
  intros ik k Hk. destruct (Q1 ik k Hk) as (eps & einv & te & tm & mat & M & E & HM & S1). destruct (Q2 ik k Hk) as (eps' & einv' & te' & tm' & mat' & M' & E' & HM' & S2).
  pose proof (run_einv _ _ _ _ _ _ _ _ _ _ R1 E) as Ee. pose proof (run_einv _ _ _ _ _ _ _ _ _ _ R2 E') as Ee'. cbn [with_solver o_only] in Ee, Ee'. rewrite <- Ee' in Ee. subst einv'.
  change (matrix_at root dl d o ks eps einv k te tm mat) in M. change (matrix_at root dl d o ks eps' einv k te' tm' mat') in M'.
  pose proof (matrix_unique _ _ _ _ _ _ _ _ _ _ _ _ _ M M') as <-.
  exists eps, einv, te, tm, mat. split; [exact M|]. split; [exact E|]. split; [exact E'|]. intros NZ.
  destruct HM as [_ HM]. pose proof (He (nr mat) (ent mat) HM) as Hd.
  exact (smallest_unique _ _ _ _ _ (Permutation_refl _) (S1 _ _ Hd) (S2 NZ _ _ Hd)).
Qed.
End G.

(** ** two bands at the same distance from eig_sigma *)
Definition tie_mat : arr2 := Arr 2 2 (fun i j => if Nat.eqb i j then if Nat.eqb i 0 then RtoC ((2 * PI) * (2 * PI)) else RtoC ((2 * PI * 3) * (2 * PI * 3)) else RtoC 0).
Definition tie_opts : opts := Opts "exact" [0%nat] 100 1 1 1 false "eigh" 2 "average" None 1 1 1 false false.
Definition tie_ls : list R := [(2 * PI) * (2 * PI) + 1; (2 * PI * 3) * (2 * PI * 3) + 1].
Lemma tie_freqs : to_freqs tie_ls = [1; 3].
Proof.
  pose proof PI_RGT_0 as P. unfold to_freqs, tie_ls. cbn [map]. repeat f_equal.
  - replace (2 * PI * (2 * PI) + 1 - 1) with ((2 * PI) * (2 * PI)) by ring. rewrite Rabs_pos_eq by nra. rewrite sqrt_square by lra. field. lra.
  - replace (2 * PI * 3 * (2 * PI * 3) + 1 - 1) with ((2 * PI * 3) * (2 * PI * 3)) by ring. rewrite Rabs_pos_eq by nra. rewrite sqrt_square by lra. field. lra.
Qed.
Lemma tie_herm : herm tie_mat.
Proof.
  split; [reflexivity|]. intros i j Hi Hj. cbn [tie_mat ent]. rewrite (Nat.eqb_sym j i). destruct (Nat.eqb_spec i j) as [->|]; [|symmetry; apply Cconj_R].
  destruct (Nat.eqb j 0); symmetry; apply Cconj_R.
Qed.
Lemma tie_sys : eigensystem 2 (plus_eye tie_mat) tie_ls mid.
Proof.
  split; [reflexivity|]. split.
  - intros [|[|j]] [|[|k]] Hj Hk; try lia; cbn; apply Ceq; cbn; ring.
  - intros [|[|i]] [|[|j]] Hi Hj; try lia; unfold mvec, plus_eye, tie_mat, mid, tie_ls; cbn [csum ent Nat.eqb nth]; rewrite ?RtoC_plus; ring.
Qed.
Definition tie_sort (b : bool) (argsort : list R -> list nat) (l : list R) : list nat :=
  if list_eq_dec Req_EM_T l [1; 1] then if b then [0%nat; 1%nat] else [1%nat; 0%nat] else argsort l.
Lemma tie_sorts b argsort : sorts argsort -> sorts (tie_sort b argsort).
Proof.
  intros H l. unfold tie_sort. destruct (list_eq_dec Req_EM_T l [1; 1]) as [->|]; [|apply H].
  destruct b; (split; [|intros [|[|i]] [|[|j]] Hij; cbn in *; try lia; lra]); [reflexivity|cbn; constructor].
Qed.
Lemma sorts_one argsort x : sorts argsort -> argsort [x] = [0%nat].
Proof. intros H. destruct (H [x]) as [P _]. cbn in P. apply Permutation_length_1_inv. symmetry. exact P. Qed.

Lemma tie_solver eigh0 : diagonalises eigh0 -> exists eigh, diagonalises eigh /\ eigh 2%nat (plus_eye tie_mat) = (tie_ls, mid).
Proof.
  intros H. exists (fun n A => if ClassicalEpsilon.excluded_middle_informative (n = 2%nat /\ A = plus_eye tie_mat) then (tie_ls, mid) else eigh0 n A). split.
  - intros n A HA. destruct (ClassicalEpsilon.excluded_middle_informative _) as [[-> ->]|]; [exact tie_sys|apply H; exact HA].
  - destruct (ClassicalEpsilon.excluded_middle_informative _) as [_|N]; [reflexivity|]. elim N. auto.
Qed.
Lemma tie_pick b argsort eigh : sorts argsort -> eigh 2%nat (plus_eye tie_mat) = (tie_ls, mid) ->
  exists vs, solve_plain (tie_sort b argsort) eigh tie_opts tie_mat = Ok ([if b then 1 else 3], vs).
Proof.
  intros Hs He. unfold solve_plain. cbn [tie_mat nr]. change (Arr 2 2 _) with tie_mat. rewrite He, tie_freqs. unfold pick, find_nearest. cbn [map].
  rewrite (Rabs_left (1 - o_sigma tie_opts)) by (cbn; lra). rewrite (Rabs_right (3 - o_sigma tie_opts)) by (cbn; lra).
  replace [- (1 - o_sigma tie_opts); 3 - o_sigma tie_opts] with [1; 1] by (cbn; repeat f_equal; lra).
  assert (T : tie_sort b argsort [1; 1] = if b then [0%nat; 1%nat] else [1%nat; 0%nat]).
  { unfold tie_sort. destruct (list_eq_dec Req_EM_T [1; 1] [1; 1]); [reflexivity|contradiction]. }
  rewrite T. pose proof (tie_sorts b argsort Hs) as Hs'. destruct b; cbn [firstn o_numeig tie_opts take_ix mapM SymModel.get nth_error bind].
  - unfold take_ix. cbn [mapM SymModel.get nth_error bind]. rewrite (sorts_one _ _ Hs'). cbn. eexists. reflexivity.
  - unfold take_ix. cbn [mapM SymModel.get nth_error bind]. rewrite (sorts_one _ _ Hs'). cbn. eexists. reflexivity.
Qed.
Lemma ties : herm tie_mat /\ exists eigh argsort argsort' vs vs', diagonalises eigh /\ sorts argsort /\ sorts argsort' /\
  solve_plain argsort eigh tie_opts tie_mat = Ok ([1], vs) /\ solve_plain argsort' eigh tie_opts tie_mat = Ok ([3], vs').
Proof.
  split; [exact tie_herm|]. destruct diagonalises_exists as [eigh0 H0]. destruct (tie_solver eigh0 H0) as (eigh & H1 & H2). destruct sorts_exists as [a Ha].
  destruct (tie_pick true a eigh Ha H2) as [vs Hv]. destruct (tie_pick false a eigh Ha H2) as [vs' Hv'].
  exists eigh, (tie_sort true a), (tie_sort false a), vs, vs'. split; [exact H1|]. split; [apply tie_sorts, Ha|]. split; [apply tie_sorts, Ha|]. split; assumption.
Qed.

(** the two solvers on one matrix *)
Lemma solvers_agree argsort eigh argsort' eigsh : sorts argsort -> diagonalises eigh -> sorts argsort' -> diagonalises_near eigsh ->
  forall o mat, herm mat -> (0 < o_numeig o <= nr mat)%nat -> o_sigma o = 0 -> ~ eigval (nr mat) (ent mat) (RtoC 0) ->
  exists fs vs vs', solve_plain argsort eigh o mat = Ok (fs, vs) /\ solve_eigsh argsort' eigsh o mat = Ok (fs, vs') /\
    forall ls V, eigensystem (nr mat) (ent mat) ls V -> smallest (o_numeig o) (map freq_of ls) fs.
Proof.
  intros Ha He Ha' He' o mat HM Hn H3 NZ.
  destruct (plain_ok argsort eigh Ha He o mat HM ltac:(lia)) as (ls & V & idx & fs & vs & P1 & P2 & P3).
  destruct (eigsh_ok argsort' eigsh Ha' He' o mat HM Hn) as (ls' & V' & idx' & fs' & vs' & Q1 & Q2 & Q3).
  { rewrite H3. replace (2 * PI * 0 * (2 * PI * 0)) with 0 by ring. exact NZ. }
  rewrite H3 in Q3. assert (S1 : forall ls V, eigensystem (nr mat) (ent mat) ls V -> smallest (o_numeig o) (map freq_of ls) fs).
  { intros ms W HW. apply (reports_smallest _ _ _ _ _ _ _ _ (o_sigma o) P2 ltac:(lra) P3 ms W HW). }
  assert (S2 : forall ls V, eigensystem (nr mat) (ent mat) ls V -> smallest (o_numeig o) (map freq_of ls) fs').
  { intros ms W HW. apply (reports_smallest2 _ _ _ _ _ _ _ _ Q2 Q3 ms W HW). }
  pose proof (He (nr mat) (ent mat) (proj2 HM)) as Hd. rewrite <- (smallest_unique _ _ _ _ _ (Permutation_refl _) (S1 _ _ Hd) (S2 _ _ Hd)) in Q1.
  exists fs, vs, vs'. auto.
Qed.
Lemma tie_regular : ~ eigval 2 (ent tie_mat) (RtoC 0).
Proof.
  pose proof PI_RGT_0 as P. intros (v & (i & Hi & Hv) & E). apply Hv. specialize (E i Hi). unfold mvec, tie_mat in E. cbn [csum ent] in E.
  assert (H : forall (a : R) (z : C), a <> 0 -> (RtoC a * z = RtoC 0)%C -> z = RtoC 0).
  { intros a [x y] Ha HE. injection HE as H1 H2. apply Ceq; cbn; nra. }
  destruct i as [|[|i]]; [| |lia]; cbn [Nat.eqb] in E.
  - apply (H (2 * PI * (2 * PI))); [nra|]. transitivity (RtoC 0 * v 0%nat)%C; [rewrite <- E; ring|ring].
  - apply (H (2 * PI * 3 * (2 * PI * 3))); [nra|]. transitivity (RtoC 0 * v 1%nat)%C; [rewrite <- E; ring|ring].
Qed.
