(** A wave vector shorter than 1/10^4 (C146): a thick slab at k = 0 with the default
    shift delta_gx = 1/10^15. *)
From Coq Require Import Lra Lia Permutation List String.
From Verif Require Import Py CBase LatticeModel LatticeProofs PhcModel PhcSpec SymModel SymSpec RecipModel SlabModel SlabSpec SlabProofs5 SlabProofs8 MatElModel MatElSpec MatElProofs MatElProofs2 MatElProofs3
  RadModel RadProofs RunModel RunSpec RunSpec2 RunProofs RunProofs2 RunProofs5 RunProofs7 RunProofs8 RunProofs9 RunProofs11 GinvSpec OracProofs2 UnifSpec UnifProofs5.
Open Scope R_scope.
Open Scope list_scope.

Definition big_phc : phc := fst (add_layer (phc_init slab_lat 1 1) 15000 4 "shapes").
Definition big_dev : dev := Dev big_phc true (recip_tbt slab_lat (3 / 10)) None.
Definition big_opts : opts := Opts "exact" [0%nat] 100 (/ 10 ^ 4) (1 / 10) 1 false "eigh" 0 "average" None (1 / 10 ^ 8) (/ 10 ^ 15) 0 false false.
Lemma big_g : dv_gvec big_dev = [(0, 0)].
Proof. exact slab_g. Qed.
Lemma big_eps : eps_list big_dev big_opts = Ok ex_eps.
Proof. reflexivity. Qed.
Lemma big_d : d_list big_dev = [15000].
Proof. unfold d_list. change (map ly_d (pc_layers (dv_phc big_dev))) with [0 + 15000 - 0]. f_equal. lra. Qed.

Definition tiny : R := / 10 ^ 15.
Lemma tiny_small : tiny < / 10 ^ 4.
Proof. unfold tiny. apply Rinv_lt_contravar; lra. Qed.
Lemma tiny_pos : 0 < tiny.
Proof. apply Rinv_0_lt_compat, pow_lt. lra. Qed.
Lemma tiny_len : sqrt ((0 + 0 + tiny) * (0 + 0 + tiny) + (0 + 0) * (0 + 0)) = tiny.
Proof. replace ((0 + 0 + tiny) * (0 + 0 + tiny) + (0 + 0) * (0 + 0)) with (tiny * tiny) by ring. apply sqrt_square, Rlt_le, tiny_pos. Qed.
Lemma sqrt_small x : 0 <= x -> sqrt (x * (/ 10 ^ 4 * / 10 ^ 4)) = sqrt x * / 10 ^ 4.
Proof. intros H. rewrite sqrt_mult_alt by exact H. rewrite sqrt_square; [reflexivity|]. apply Rlt_le, Rinv_0_lt_compat, pow_lt. lra. Qed.
Lemma big_D22 w : 1 <= 4 * (w * w) -> w * w <= 1 -> D22real "TE" (/ 10 ^ 4) ex_eps [15000] (w * / 10 ^ 4) = exD w * (/ 10 ^ 4 * / 10 ^ 4).
Proof.
  intros H1 H2. unfold D22real, ex_eps, exD. cbn [D22]. unfold D22_3layer, chis_3layer. replace (is_te "TE") with true by reflexivity.
  replace (/ 10 ^ 4 * / 10 ^ 4 - 1 * (w * / 10 ^ 4 * (w * / 10 ^ 4))) with ((1 * 1 - 1 * (w * w)) * (/ 10 ^ 4 * / 10 ^ 4)) by ring.
  replace (- (/ 10 ^ 4 * / 10 ^ 4) + 4 * (w * / 10 ^ 4 * (w * / 10 ^ 4))) with ((- (1 * 1) + 4 * (w * w)) * (/ 10 ^ 4 * / 10 ^ 4)) by ring.
  rewrite !sqrt_small by lra. set (k := sqrt (1 * 1 - 1 * (w * w))). set (x := sqrt (- (1 * 1) + 4 * (w * w))).
  rewrite <- !RtoC_mult, ccos_R, csin_R. replace (x * / 10 ^ 4 * 15000) with (x * (3 / 2)) by (simpl; field). cbn [fst snd Cmult Cplus Copp Ci RtoC]. ring.
Qed.
Lemma big_bounds : omega_bounds (1 / 2 * / 10 ^ 4) (/ 10 ^ 4) (/ 10 ^ 4) (1 / 10) = [11 / 20 * / 10 ^ 4; 9 / 10 * / 10 ^ 4].
Proof.
  assert (P : 0 < / 10 ^ 4) by (apply Rinv_0_lt_compat, pow_lt; lra). unfold omega_bounds. set (t := / 10 ^ 4) in *.
  destruct (arange_n (1 / 2 * t * (1 + 1 / 10)) (t * (1 - 1 / 10)) t) as [n [E [B1 B2]]]; [lra|lra|].
  rewrite E. destruct n as [|n]; [|rewrite S_INR in B1; pose proof (pos_INR n); nra].
  simpl. f_equal; [lra|]. f_equal. lra.
Qed.
Lemma big_filter : filter (sc (D22real "TE" (/ 10 ^ 4) ex_eps [15000])) (pairs [11 / 20 * / 10 ^ 4; 9 / 10 * / 10 ^ 4]) = [(11 / 20 * / 10 ^ 4, 9 / 10 * / 10 ^ 4)].
Proof.
  cbn [pairs filter]. unfold sc. cbn [fst snd]. rewrite !big_D22 by lra. pose proof exD_low. pose proof exD_high.
  assert (P : 0 < / 10 ^ 4) by (apply Rinv_0_lt_compat, pow_lt; lra). set (t := / 10 ^ 4) in *.
  replace (Rltb _ _) with true; auto. symmetry. apply Rltb_true. assert (0 < t * t) by nra. set (q := t * t) in *. assert (exD (11 / 20) * exD (9 / 10) < 0) by nra.
  replace (exD (11 / 20) * q * (exD (9 / 10) * q)) with (exD (11 / 20) * exD (9 / 10) * (q * q)) by ring. assert (0 < q * q) by nra. nra.
Qed.
Lemma big_guided root : exists om co, compute_guided root big_opts ex_eps [15000] [tiny] = Ok ([tiny], [([om], [co])], []).
Proof.
  unfold compute_guided. cbn [shift_but_last big_opts o_dgabs o_inds filter Nat.even Nat.odd negb]. replace (tiny - 0 + 0) with tiny by ring.
  unfold guided_table at 2. unfold guided_table. cbn [fold_right]. change (1 + 0 / 2)%nat with 1%nat. cbn [o_step o_tol].
  unfold guided_modes. cbn [guided_loop]. unfold guided_step. cbv zeta. assert (P : 0 < / 10 ^ 4) by (apply Rinv_0_lt_compat, pow_lt; lra).
  assert (M : Rmax tiny (/ 10 ^ 4) = / 10 ^ 4) by (apply Rmax_right; apply Rlt_le, tiny_small). rewrite M.
  assert (I : rmaxl (map sqrt (inner ex_eps)) = Ok 2).
  { unfold ex_eps. cbn. f_equal. replace 4 with (2 * 2) by ring. apply sqrt_square. lra. }
  rewrite I. cbn [bind].
  assert (U : / 10 ^ 4 / sqrt (Rmax (hd 0 ex_eps) (last ex_eps 0)) = / 10 ^ 4).
  { unfold ex_eps. cbn [hd last]. rewrite Rmax_left by lra. rewrite sqrt_1. field. }
  rewrite U. replace (/ 10 ^ 4 / 2) with (1 / 2 * / 10 ^ 4) by field.
  destruct (given_g_ok root true (/ 10 ^ 4) ex_eps [15000] 1 eq_refl ltac:(discriminate) (1 / 2 * / 10 ^ 4) (/ 10 ^ 4) (/ 10 ^ 4) (1 / 10)) as [cs [E L]].
  rewrite big_bounds in E, L. unfold roots in E, L. rewrite big_filter in E, L. cbn [firstn map List.length] in E, L. cbn iota in E. cbn [big_opts o_step o_tol]. rewrite E.
  destruct cs as [|c [|]]; try discriminate. cbn. do 2 eexists. reflexivity.
Qed.

Section Big.
Variable argsort : list R -> list nat.
Variable eigh : nat -> cmat -> list R * cmat.
Variable eigsh : nat -> cmat -> nat -> R -> result (list R * cmat).
Variable inv : nat -> cmat -> cmat.
Variable root : (R -> R) -> R -> R -> R.
Variable dl : R.
Hypothesis Hs : sorts argsort.
Hypothesis He : diagonalises eigh.

Lemma big_construct einv s : g_tabs s = [] -> exists s1 mat, construct root dl big_dev big_opts ex_eps [15000] einv 0 (0, 0) s = (s1, Ok mat) /\ (1 <= nr mat)%nat.
Proof.
  intros Ht. destruct (big_guided root) as (om & co & G).
  set (gd := gk_data [(0, 0)] (0, 0) tiny).
  assert (GK : gk_len gd 0%nat = tiny).
  { exact tiny_len. }
  set (te := [([om], [co])]) in *.
  assert (HT : forall m oms cs, entry te [] m = Some (oms, cs) -> (0 < List.length oms <= List.length [tiny])%nat).
  { intros m oms cs. unfold entry, te. destruct (Nat.even m).
    - destruct (m / 2)%nat as [|z]; [|destruct z; discriminate]. intros X. injection X as <- <-. cbn. lia.
    - destruct (m / 2)%nat; discriminate. }
  destruct (matrix_ok dl [(0, 0)] (0, 0) tiny [0%nat] [tiny] te [] ex_eps [15000] einv HT) as (ms & M & C1 & C2 & C3 & C4 & _).
  { exists 0%nat. split; [left; auto|discriminate]. }
  unfold construct. rewrite big_g. unfold andthen at 1. change (exact_modes big_opts) with true. cbv iota.
  unfold andthen at 1. unfold lift at 1. cbn [List.length seq map big_opts o_dgx]. fold tiny. fold gd. rewrite GK. cbn [r_sort fold_right r_insert].
  change (Opts _ _ _ _ _ _ _ _ _ _ _ _ tiny _ _ _) with big_opts. rewrite G. cbn [modify]. unfold andthen at 1.
  unfold lift at 1. unfold tab_at. change (interp_modes big_opts) with false. cbv iota. unfold add_tab at 1. cbn [g_tabs]. rewrite Ht. cbn [app SymModel.get nth_error].
  unfold andthen at 1. unfold lift at 1. cbn [o_inds big_opts]. fold tiny. rewrite C1.
  unfold andthen at 1. unfold lift at 1. change (gmode_include [0%nat] te []) with [0%nat]. cbn [mapM].
  change (present te [] [0%nat]) with [0%nat] in C2.
  destruct ms as [|[m g] [|]]; try discriminate C2. injection C2 as ->.
  inversion C3 as [|x l [C5 [_ C6]] _]; subst. cbn [fst snd] in C5, C6. fold gd in C5. cbn [List.length] in C5 |- *. fold gd. rewrite C5. cbn [bind].
  unfold andthen at 1. cbn [modify ret]. do 2 eexists. split; [reflexivity|].
  rewrite C4. cbn [map snd list_sum fold_right]. assert (I : In 0%nat (md_ind g)).
  { apply C6. split; [cbn; lia|]. exists [om], [co], tiny. split; [reflexivity|]. split; [reflexivity|]. change (tiny - / 10 ^ 10 < gk_len gd 0%nat). rewrite GK.
    assert (0 < / 10 ^ 10) by (apply Rinv_0_lt_compat, pow_lt; lra). lra. }
  destruct (md_ind g); [destruct I|cbn; lia].
Qed.
Lemma big_run s : exists s', run argsort eigh eigsh inv root dl big_dev big_opts [(0, 0)] [] s = (s', Ok tt).
Proof.
  unfold run. unfold andthen at 1. cbn [modify]. unfold andthen at 1. change (check big_dev big_opts []) with (Ok (@nil (R * mat2))). cbn [lift].
  unfold andthen at 1. rewrite big_eps. cbn [lift]. unfold andthen at 1. cbn [modify].
  unfold andthen at 1. change (interp_modes big_opts) with false. cbv iota. cbn [ret].
  set (s1 := clear_tabs (start [(0, 0)] s)). unfold andthen at 1.
  assert (C : exists s2 einv, compute_eps_inv inv big_dev (o_only big_opts) s1 = (s2, Ok einv) /\ g_tabs s2 = []).
  { unfold compute_eps_inv. destruct (g_einv s1); do 2 eexists; split; reflexivity. }
  destruct C as (s2 & einv & -> & T2). rewrite big_d. unfold andthen at 1. cbn [modify]. unfold andthen at 1.
  change (enum [(0%R, 0%R)]) with [(0%nat, (0%R, 0%R))]. cbn [foreach].
  destruct (big_construct einv (clear_vecs s2) T2) as (s3 & mat & C1 & C2).
  destruct (C38_succeeds argsort eigh eigsh root dl Hs big_dev big_opts ex_eps [15000] einv [] [] 0 (0, 0) (clear_vecs s2) s3 mat He eq_refl eq_refl C1 C2)
    as (s4 & fs & O). unfold andthen at 1. rewrite O. cbn. eexists. reflexivity.
Qed.
End Big.

Lemma tiny_no_mode te w eps ds c A B : 1 <= nth 0 eps 0 -> 0 < w -> slab_solution te tiny w eps ds c A B -> w < tiny.
Proof.
  intros He Hw S. destruct S as [L P W [[E1 E2] _] _ _]. specialize (W 0%nat ltac:(lia)).
  apply (f_equal fst) in W. unfold Cmult in W. cbn [fst snd RtoC] in W. pose proof tiny_pos. nra.
Qed.

Lemma gamma_mode : exists d o, each_layer (fun ly => ly_shapes ly = [] /\ 0 < ly_epsavg ly) d /\ o_compute o = "exact"%string /\ o_dgabs o = 0 /\ o_dgx o = / 10 ^ 15 /\
  (forall argsort eigh eigsh inv root dl s, sorts argsort -> diagonalises eigh -> exists s', run argsort eigh eigsh inv root dl d o [(0, 0)] [] s = (s', Ok tt)) /\
  forall root, (forall pol g eps ds, finds_roots root (D22real pol g eps ds)) -> forall eps garr te tm, eps_for d o eps -> RunProofs11.tables_for root d o [(0, 0)] (0, 0) eps garr te tm ->
    present te tm (o_inds o) = [0%nat] /\
    forall x, get_guided (List.length (dv_gvec d)) (gk_len (gk_data (dv_gvec d) (0, 0) (o_dgx o))) garr te tm eps 0 = Ok x ->
      md_ind x = [0%nat] /\ / 10 ^ 5 < md_om x 0 /\
      forall b w c A B, 0 < w -> slab_solution b (gk_len (gk_data (dv_gvec d) (0, 0) (o_dgx o)) 0) w eps (d_list d) c A B -> w < / 10 ^ 15.
Proof.
  exists big_dev, big_opts. split.
  { split; [|split]; [|apply Forall_cons; [|apply Forall_nil]|]; (split; [reflexivity|]); [change (0 < 1)|change (0 < 4)|change (0 < 1)]; lra. }
  split; [reflexivity|]. split; [reflexivity|]. split; [reflexivity|]. split.
  { intros argsort eigh eigsh inv root dl s Hs He. exact (big_run argsort eigh eigsh inv root dl Hs He s). }
  intros root HR eps garr te tm He T.
  assert (eps = ex_eps) as -> by (destruct He as [(_ & ->)|[(X & _)|(X & _)]]; [reflexivity|discriminate X|discriminate X]).
  change (o_dgx big_opts) with tiny. change (o_inds big_opts) with [0%nat].
  assert (garr = [tiny]) as ->.
  { destruct T as ([(_ & l & P & _ & L1 & L2)|(X & _)] & _ & _); [|discriminate X]. rewrite big_g in P. cbn [map] in P. change (o_dgx big_opts) with tiny in P.
    replace (wave_len (0, 0) (0, 0) tiny) with tiny in P by (symmetry; exact tiny_len).
    apply Permutation_sym, Permutation_length_1_inv in P. subst l. destruct garr as [|g [|? ?]]; try discriminate L1. specialize (L2 0%nat ltac:(cbn; lia)). cbn [nth List.length Nat.add Nat.eqb] in L2. rewrite L2. reflexivity. }
  destruct T as (_ & T1 & T2). rewrite big_d in *. 
  assert (P4 : 0 < / 10 ^ 4) by (apply Rinv_0_lt_compat, pow_lt; lra).
  destruct (HR "TE"%string (/ 10 ^ 4) ex_eps [15000] (11 / 20 * / 10 ^ 4) (9 / 10 * / 10 ^ 4)) as [[W1 _] _].
  { lra. } { rewrite !big_D22 by lra. pose proof exD_low. pose proof exD_high. set (t := / 10 ^ 4) in *. assert (0 < t * t) by nra. set (q := t * t) in *. assert (exD (11 / 20) * exD (9 / 10) < 0) by nra.
    replace (exD (11 / 20) * q * (exD (9 / 10) * q)) with (exD (11 / 20) * exD (9 / 10) * (q * q)) by ring. assert (0 < q * q) by nra. nra. }
  set (om := root _ _ _) in W1.
  destruct T1 as [[X _]|(n & rs & (m & Hm & _ & En) & Mx & Gm & Lr & Tb)]; [specialize (X 0%nat (or_introl eq_refl)); discriminate X|].
  assert (n = 1%nat) as -> by (destruct Hm as [<-|[]]; exact En).
  assert (exists co, rs = [([om], [co])]) as [co ->].
  { unfold guided_modes in Gm. cbn [guided_loop] in Gm. change (o_step big_opts) with (/ 10 ^ 4) in Gm. change (o_tol big_opts) with (1 / 10) in Gm. unfold guided_step in Gm. cbv zeta in Gm.
    assert (M : Rmax tiny (/ 10 ^ 4) = / 10 ^ 4) by (apply Rmax_right; apply Rlt_le, tiny_small). rewrite M in Gm.
    assert (I : rmaxl (map sqrt (inner ex_eps)) = Ok 2).
    { unfold ex_eps. cbn. f_equal. replace 4 with (2 * 2) by ring. apply sqrt_square. lra. }
    rewrite I in Gm. cbn [bind] in Gm.
    assert (U : / 10 ^ 4 / sqrt (Rmax (hd 0 ex_eps) (last ex_eps 0)) = / 10 ^ 4).
    { unfold ex_eps. cbn [hd last]. rewrite Rmax_left by lra. rewrite sqrt_1. field. }
    rewrite U in Gm. replace (/ 10 ^ 4 / 2) with (1 / 2 * / 10 ^ 4) in Gm by field.
    destruct (given_g_ok root true (/ 10 ^ 4) ex_eps [15000] 1 eq_refl ltac:(discriminate) (1 / 2 * / 10 ^ 4) (/ 10 ^ 4) (/ 10 ^ 4) (1 / 10)) as [cs [E L]].
    rewrite big_bounds in E, L. unfold roots in E, L. rewrite big_filter in E, L. cbn [firstn map List.length fst snd] in E, L. cbn iota in E. rewrite E in Gm. cbn [bind] in Gm.
    destruct cs as [|co [|]]; try discriminate L. exists co. injection Gm as <-. reflexivity. }
  assert (T0 := Tb 0%nat). cbn [map fst snd mth skipn firstn List.concat app] in T0.
  destruct (nth_error te 0) as [[om0 cs0]|] eqn:N0; [|specialize (T0 _ (or_introl eq_refl)); cbn in T0; lia].
  destruct T0 as (_ & -> & L0 & _). cbn [List.length] in L0. destruct cs0 as [|c0 [|? ?]]; try discriminate L0.
  split. { unfold present, entry. cbn [filter Nat.even]. change (0 / 2)%nat with 0%nat. rewrite N0. reflexivity. }
  rewrite big_g. set (gk := gk_len (gk_data [(0, 0)] (0, 0) tiny)). assert (Gk : gk 0%nat = tiny) by exact tiny_len.
  intros x Hx. unfold get_guided in Hx. cbn [Nat.even] in Hx. change (0 / 2)%nat with 0%nat in Hx. rewrite N0 in Hx. cbn [List.length last_n skipn Nat.sub] in Hx.
  assert (I : argwhere_gt 1 gk (tiny - / 10 ^ 10) = [0%nat]).
  { unfold argwhere_gt. cbn [seq filter]. rewrite Gk. assert (0 < / 10 ^ 10) by (apply Rinv_0_lt_compat, pow_lt; lra). rewrite (proj2 (Rltb_true _ _)) by lra. reflexivity. }
  rewrite I in Hx. match type of Hx with Ok ?y = _ => assert (Y : x = y) by congruence; rewrite Y; clear Hx Y end. cbn [md_ind md_om nth map]. split; [reflexivity|]. split.
  - rewrite Gk. unfold interp. cbn [combine]. assert (J : forall a b : R, / 10 ^ 5 < a -> / 10 ^ 5 < fst (if Rltb tiny tiny then RtoC b else RtoC a)).
    { intros a b Ha. destruct (Rltb tiny tiny) eqn:Q; [apply Rltb_true in Q; lra|exact Ha]. }
    assert (K5 : / 10 ^ 5 < om). { apply Rle_lt_trans with (11 / 20 * / 10 ^ 4); [|exact W1]. replace (/ 10 ^ 5) with (1 / 10 * / 10 ^ 4) by (simpl; field). lra. }
    cbn. destruct (Rltb tiny tiny); exact K5.
  - intros b w c A B Hw S. rewrite Gk in S. apply (tiny_no_mode b w ex_eps [15000] c A B); [cbn; lra|exact Hw|exact S].
Qed.
