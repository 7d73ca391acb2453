(** A concrete run: a slab of permittivity 4 in air, one plane wave. *)
From Coq Require Import Permutation List.
From Verif Require Import Py CBase LatticeModel LatticeProofs PhcModel SymModel SymSpec RecipModel SlabModel SlabProofs5 SlabProofs8 MatElModel MatElSpec MatElProofs MatElProofs2 MatElProofs3
  RadModel RadProofs RunModel RunSpec RunProofs RunProofs2 RunProofs5 RunProofs7 RunProofs8.
Open Scope R_scope.
Open Scope list_scope.

Definition slab_lat : lattice := mkLattice LSquare (1, 0) (0, 1) (2 * PI, 0) (0, 2 * PI) 1 (4 * PI * PI).
Definition slab_phc : phc := fst (add_layer (phc_init slab_lat 1 1) (3 / 2) 4 "shapes").
Definition slab_dev : dev := Dev slab_phc true (recip_tbt slab_lat (3 / 10)) None.
Definition slab_opts (im : bool) : opts :=
  Opts "exact" [0%nat] 100 1 (1 / 10) 1 im "eigh" 0 "average" None (1 / 10 ^ 8) 0 0 false false.
Definition slab_k : list (R * R) := [(1, 0)].

Lemma np_int_small x : 0 <= x < 1 -> np_int x = 0%Z.
Proof.
  intros [H1 H2]. unfold np_int. rewrite (proj2 (Rleb_true 0 x) H1). unfold Int_part.
  rewrite <- (tech_up x 1); [reflexivity|simpl; lra|simpl; lra].
Qed.
Lemma norm_b a : 0 < a -> norm2 (a, 0) = a /\ norm2 (0, a) = a.
Proof.
  intros H. unfold norm2. cbn [fst snd]. split.
  - replace (a ^ 2 + 0 ^ 2) with (a * a) by ring. apply sqrt_square. lra.
  - replace (0 ^ 2 + a ^ 2) with (a * a) by ring. apply sqrt_square. lra.
Qed.
Lemma slab_g : dv_gvec slab_dev = [(0, 0)].
Proof.
  unfold dv_gvec, slab_dev, dv_rc, recip_tbt, rc_g. pose proof PI_RGT_0 as HP. destruct (norm_b (2 * PI)) as [N1 N2]; [lra|].
  assert (E : forall b, norm2 b = 2 * PI -> nmax_for 2 (3 / 10) b = 0%Z).
  { intros b Hb. unfold nmax_for. apply np_int_small. rewrite Hb. replace (2 * PI * (3 / 10) / (2 * PI)) with (3 / 10) by (field; lra). lra. }
  cbn [slab_lat lt_b1 lt_b2]. rewrite (E _ N1), (E _ N2). unfold gvec_of, inds1_of, inds2_of, arange_sym. change (Z.to_nat (2 * 0 + 1)) with 1%nat. cbn. apply f_equal2; [apply f_equal2; ring|reflexivity].
Qed.
Lemma slab_eps im : eps_list slab_dev (slab_opts im) = Ok ex_eps.
Proof. reflexivity. Qed.
Lemma slab_d : d_list slab_dev = ex_ds.
Proof. unfold d_list. change (map ly_d (pc_layers (dv_phc slab_dev))) with [0 + 3 / 2 - 0]. unfold ex_ds. apply f_equal2; [lra|reflexivity]. Qed.

Lemma slab_guided root im : exists om co, compute_guided root (slab_opts im) ex_eps ex_ds [1] = Ok ([1], [([om], [co])], []).
Proof.
  unfold compute_guided. cbn [shift_but_last slab_opts o_dgabs o_inds filter Nat.even Nat.odd negb]. replace (1 - 0 + 0) with 1 by ring.
  unfold guided_table at 2. unfold guided_table. cbn [fold_right]. change (1 + 0 / 2)%nat with 1%nat. cbn [o_step o_tol].
  unfold guided_modes. cbn [guided_loop]. unfold guided_step. cbv zeta.
  assert (M : Rmax 1 (/ 10 ^ 4) = 1) by (apply Rmax_left; lra). rewrite M.
  assert (I : rmaxl (map sqrt (inner ex_eps)) = Ok 2).
  { unfold ex_eps. cbn. f_equal. replace 4 with (2 * 2) by ring. apply sqrt_square. lra. }
  rewrite I. cbn [bind].
  assert (U : 1 / sqrt (Rmax (hd 0 ex_eps) (last ex_eps 0)) = 1).
  { cbn. rewrite Rmax_left by lra. rewrite sqrt_1. field. }
  rewrite U.
  destruct (given_g_ok root true 1 ex_eps ex_ds 1 ex_len ltac:(discriminate) (1 / 2) 1 1 (1 / 10)) as [cs [E L]].
  rewrite ex_bounds in E, L. unfold roots in E, L. rewrite ex_filter in E, L. cbn [firstn map List.length] in E, L. cbn iota in E. cbn [slab_opts o_step o_tol]. rewrite E.
  destruct cs as [|c [|]]; try discriminate. cbn. do 2 eexists. reflexivity.
Qed.

Section Slab.
Variable argsort : list R -> list nat.
Variable eigh : nat -> cmat -> list R * cmat.
Variable eigsh : nat -> cmat -> nat -> R -> result (list R * cmat).
Variable inv : nat -> cmat -> cmat.
Variable root : (R -> R) -> R -> R -> R.
Variable dl : R.
Hypothesis Hs : sorts argsort.
Hypothesis He : diagonalises eigh.
Notation run' := (run argsort eigh eigsh inv root dl).

Lemma slab_construct im einv s : g_tabs s = [] -> exists s1 mat, construct root dl slab_dev (slab_opts im) ex_eps ex_ds einv 0 (1, 0) s = (s1, Ok mat) /\ (1 <= nr mat)%nat.
Proof.
  intros Ht. destruct (slab_guided root im) as (om & co & G).
  set (gd := gk_data [(0, 0)] (1, 0) 0).
  assert (GK : gk_len gd 0%nat = 1).
  { cbn. replace ((0 + 1 + 0) * (0 + 1 + 0) + (0 + 0) * (0 + 0)) with 1 by ring. apply sqrt_1. }
  set (te := [([om], [co])]) in *.
  assert (HT : forall m oms cs, entry te [] m = Some (oms, cs) -> (0 < List.length oms <= List.length [1])%nat).
  { intros m oms cs. unfold entry, te. destruct (Nat.even m).
    - destruct (m / 2)%nat as [|z]; [|destruct z; discriminate]. intros X. injection X as <- <-. cbn. lia.
    - destruct (m / 2)%nat; discriminate. }
  destruct (matrix_ok dl [(0, 0)] (1, 0) 0 [0%nat] [1] te [] ex_eps ex_ds einv HT) as (ms & M & C1 & C2 & C3 & C4 & _).
  { exists 0%nat. split; [left; auto|discriminate]. }
  unfold construct. rewrite slab_g. unfold andthen at 1. change (exact_modes (slab_opts im)) with true. cbv iota.
  unfold andthen at 1. unfold lift at 1. cbn [List.length seq map slab_opts o_dgx]. fold gd. rewrite GK. cbn [r_sort fold_right r_insert].
  fold (slab_opts im). rewrite G. cbn [modify]. unfold andthen at 1.
  unfold lift at 1. unfold tab_at. change (interp_modes (slab_opts im)) with false. cbv iota. unfold add_tab at 1. cbn [g_tabs]. rewrite Ht. cbn [app SymModel.get nth_error].
  unfold andthen at 1. unfold lift at 1. cbn [o_inds slab_opts]. rewrite C1.
  unfold andthen at 1. unfold lift at 1. change (gmode_include [0%nat] te []) with [0%nat]. cbn [mapM].
  change (present te [] [0%nat]) with [0%nat] in C2.
  destruct ms as [|[m g] [|]]; try discriminate C2. injection C2 as ->.
  inversion C3 as [|x l [C5 [_ C6]] _]; subst. cbn [fst snd] in C5, C6. fold gd in C5. cbn [List.length] in C5 |- *. fold gd. rewrite C5. cbn [bind].
  unfold andthen at 1. cbn [modify ret]. do 2 eexists. split; [reflexivity|].
  rewrite C4. cbn [map snd list_sum fold_right]. assert (I : In 0%nat (md_ind g)).
  { apply C6. split; [cbn; lia|]. exists [om], [co], 1. split; [reflexivity|]. split; [reflexivity|]. cbn.
    replace ((0 + 1 + 0) * (0 + 1 + 0) + (0 + 0) * (0 + 0)) with 1 by ring. rewrite sqrt_1. lra. }
  destruct (md_ind g); [destruct I|cbn; lia].
Qed.
Lemma slab_run s : exists s', run' slab_dev (slab_opts false) slab_k [] s = (s', Ok tt).
Proof.
  unfold run. unfold andthen at 1. cbn [modify]. unfold andthen at 1. change (check slab_dev (slab_opts false) []) with (Ok (@nil (R * mat2))). cbn [lift].
  unfold andthen at 1. rewrite slab_eps. cbn [lift]. unfold andthen at 1. cbn [modify].
  unfold andthen at 1. change (interp_modes (slab_opts false)) with false. cbv iota. cbn [ret].
  set (s1 := clear_tabs (start slab_k s)). unfold andthen at 1.
  assert (C : exists s2 einv, compute_eps_inv inv slab_dev (o_only (slab_opts false)) s1 = (s2, Ok einv) /\ g_tabs s2 = []).
  { unfold compute_eps_inv. destruct (g_einv s1); do 2 eexists; split; reflexivity. }
  destruct C as (s2 & einv & -> & T2). rewrite slab_d. unfold andthen at 1. cbn [modify]. unfold andthen at 1.
  change (enum slab_k) with [(0%nat, (1, 0))]. cbn [foreach].
  destruct (slab_construct false einv (clear_vecs s2) T2) as (s3 & mat & C1 & C2).
  destruct (C38_succeeds argsort eigh eigsh root dl Hs slab_dev (slab_opts false) ex_eps ex_ds einv [] [] 0 (1, 0) (clear_vecs s2) s3 mat He eq_refl eq_refl C1 C2)
    as (s4 & fs & O). unfold andthen at 1. rewrite O. cbn. eexists. reflexivity.
Qed.
End Slab.

(** the second of two identical calls with compute_im=False shows the imaginary
    parts of an earlier call *)
Lemma im_stale : exists d o1 o2 ks, o_im o1 = true /\ o_im o2 = false /\
  forall argsort eigh eigsh inv root dl, sorts argsort -> diagonalises eigh ->
  exists s1 s2 s3, run argsort eigh eigsh inv root dl d o1 ks [] fresh = (s1, Ok tt) /\
    run argsort eigh eigsh inv root dl d o2 ks [] s1 = (s2, Ok tt) /\
    run argsort eigh eigsh inv root dl d o2 ks [] fresh = (s3, Ok tt) /\
    g_freqs s2 = g_freqs s3 /\ List.length (g_im s2) = 1%nat /\ g_im s3 = [].
Proof.
  exists slab_dev, (slab_opts true), (slab_opts false), slab_k. split; [reflexivity|]. split; [reflexivity|].
  intros argsort eigh eigsh inv root dl Hs He.
  destruct (slab_run argsort eigh eigsh inv root dl Hs He fresh) as [s3 R3].
  destruct (im_total argsort eigh eigsh inv root dl Hs He slab_dev (slab_opts false) slab_k [] fresh s3) as (s1 & R1 & F1 & _ & I1 & _); auto;
    try discriminate; try (cbn; lia).
  destruct (slab_run argsort eigh eigsh inv root dl Hs He s1) as [s2 R2].
  exists s1, s2, s3. split; [exact R1|]. split; [exact R2|]. split; [exact R3|].
  pose proof (im_kept argsort eigh eigsh inv root dl slab_dev (slab_opts false) slab_k [] s1 eq_refl) as [K1 _]. rewrite R2 in K1. cbn [fst] in K1.
  pose proof (im_kept argsort eigh eigsh inv root dl slab_dev (slab_opts false) slab_k [] fresh eq_refl) as [K3 _]. rewrite R3 in K3. cbn [fst] in K3.
  split; [|split; [rewrite K1; exact I1|exact K3]].
  destruct (C45_lem argsort eigh eigsh inv root dl slab_dev [(slab_opts true, slab_k, [])] (slab_opts false) slab_k []) as [A B]; [left; reflexivity|left; reflexivity|].
  cbn [runs] in A, B. change (with_im (slab_opts false) true) with (slab_opts true) in R1. rewrite R1 in A, B. cbn [fst] in A, B. rewrite R2, R3 in B. cbn [fst snd] in B.
  apply B. reflexivity.
Qed.
