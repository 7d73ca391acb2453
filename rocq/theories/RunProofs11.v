(** The mode tables of a band computation. *)
From Coq Require Import Permutation List.
From Verif Require Import Py CBase PhcModel SlabModel MatElModel RadModel MatElSpec MatElProofs4 RunModel RunSpec RunSpec2 RunProofs RunProofs2 RunProofs5.
Open Scope R_scope.
Open Scope list_scope.

Lemma nth_error_ext_nth {A} (l l' : list A) i j d : nth_error l i = nth_error l' j -> nth i l d = nth j l' d.
Proof. intros H. rewrite <- !nth_default_eq. unfold nth_default. rewrite H. reflexivity. Qed.

(** ** grids *)
Lemma r_insert_perm x l : Permutation (r_insert x l) (x :: l).
Proof.
  induction l as [|y t IH]; [reflexivity|]. cbn [r_insert]. destruct (Rleb x y); [reflexivity|].
  rewrite IH. apply perm_swap.
Qed.
Lemma r_sort_perm l : Permutation (r_sort l) l.
Proof. induction l as [|x t IH]; [reflexivity|]. cbn [r_sort fold_right]. rewrite r_insert_perm. constructor. exact IH. Qed.
Fixpoint asc (l : list R) : Prop := match l with [] => True | x :: t => (forall y, In y t -> x <= y) /\ asc t end.
Lemma r_insert_asc x l : asc l -> asc (r_insert x l).
Proof.
  induction l as [|y t IH]; intros H; [cbn; split; [intros ? []|auto]|]. cbn [r_insert]. destruct (Rleb x y) eqn:E.
  - apply Rleb_true in E. split; [|exact H]. intros z [<-|Hz]; [exact E|]. destruct H as [H _]. specialize (H z Hz). lra.
  - apply Rleb_false in E. destruct H as [H1 H2]. split; [|apply IH; exact H2].
    intros z Hz. apply (Permutation_in _ (r_insert_perm x t)) in Hz. destruct Hz as [<-|Hz]; [lra|apply H1; exact Hz].
Qed.
Lemma r_sort_asc l : asc (r_sort l).
Proof. induction l as [|x t IH]; [exact Logic.I|]. cbn [r_sort fold_right]. apply r_insert_asc. exact IH. Qed.
Lemma asc_ascending l : asc l -> ascending l.
Proof.
  induction l as [|x t IH]; intros H i j Hij; cbn [List.length] in Hij; [lia|]. destruct H as [H1 H2].
  destruct j as [|j]; [lia|]. destruct i as [|i]; cbn [nth]; [apply H1, nth_In; lia|apply (IH H2 i j); lia].
Qed.
Lemma shift_lowered dl l : lowered dl l (shift_but_last dl l).
Proof.
  induction l as [|x t IH]; [split; [reflexivity|intros i Hi; cbn in Hi; lia]|]. destruct t as [|y t].
  - split; [reflexivity|]. intros [|i] Hi; cbn [List.length] in Hi; [cbn; ring|lia].
  - destruct IH as [H1 H2]. change (shift_but_last dl (x :: y :: t)) with ((x - dl) :: shift_but_last dl (y :: t)).
    split; [cbn [List.length] in *; lia|]. intros [|i] Hi.
    + cbn [nth List.length]. destruct (Nat.eqb_spec (0 + 1) (S (S (List.length t)))); [lia|reflexivity].
    + cbn [nth]. rewrite H2 by (cbn [List.length] in *; lia). reflexivity.
Qed.
Lemma linspace_nth b n i : (i < n)%nat -> nth i (linspace0 b n) 0 = match n with 1%nat => 0 | _ => INR i * (b / INR (n - 1)) end.
Proof.
  intros H. unfold linspace0. set (f := fun i : nat => match n with 1%nat => 0 | _ => INR i * (b / INR (n - 1)) end).
  rewrite (nth_indep _ 0 (f 0%nat)) by (rewrite map_length, seq_length; exact H). rewrite map_nth, seq_nth by exact H. reflexivity.
Qed.
Lemma linspace_spaced b n : (0 < n)%nat -> spaced b n (linspace0 b n).
Proof.
  intros Hn. unfold spaced. split; [unfold linspace0; rewrite map_length, seq_length; reflexivity|].
  split; [rewrite linspace_nth by lia; destruct n as [|[|n]]; [lia|reflexivity|cbn [INR]; ring]|]. split.
  - intros H. rewrite linspace_nth by lia. destruct n as [|[|n]]; [lia|lia|]. field. apply not_0_INR. lia.
  - intros i Hi. rewrite !linspace_nth by lia. destruct n as [|[|n]]; [lia|lia|]. rewrite !plus_INR. cbn [INR]. ring.
Qed.
Lemma rmax0_largest l : l <> [] -> is_largest (rmax0 (map (fun k => sqrt (fst k * fst k + snd k * snd k)) l)) l.
Proof.
  assert (W : forall p, wave_len (0, 0) p 0 = sqrt (fst p * fst p + snd p * snd p)) by (intros p; unfold wave_len; cbn [fst snd]; f_equal; ring).
  induction l as [|p t IH]; [congruence|]. intros _. cbn [map rmax0 fold_right]. fold (rmax0 (map (fun k => sqrt (fst k * fst k + snd k * snd k)) t)).
  set (m := rmax0 _) in *. destruct t as [|q t].
  - unfold m. cbn [map rmax0 fold_right]. rewrite Rmax_left by apply sqrt_pos. split.
    + exists p. split; [left; reflexivity|rewrite W; reflexivity].
    + intros r [<-|[]]. rewrite W. lra.
  - destruct IH as [(r & Hr & E) H2]; [discriminate|]. split.
    + unfold Rmax. destruct (Rle_dec _ m) as [|N]; [exists r; split; [right; exact Hr|exact E]|exists p; split; [left; reflexivity|rewrite W; reflexivity]].
    + intros r' [<-|Hr']; [rewrite W; apply Rmax_l|]. eapply Rle_trans; [apply H2; exact Hr'|apply Rmax_r].
Qed.

(** ** tables *)
Lemma max_lengths {A} (l : list (list A)) m : (m < fold_right Nat.max 0%nat (map (@List.length A) l))%nat <-> exists x, In x l /\ (m < List.length x)%nat.
Proof.
  induction l as [|x t IH]; cbn [map fold_right]; [split; [lia|intros (x & [] & _)]|]. rewrite Nat.max_lt_iff, IH. split.
  - intros [H|(y & Hy & H)]; [exists x; split; [left; reflexivity|exact H]|exists y; split; [right; exact Hy|exact H]].
  - intros (y & [<-|Hy] & H); [left; exact H|right; exists y; auto].
Qed.
Lemma mth_err {A} m (x : list A) : mth m x = match nth_error x m with Some y => [y] | None => [] end.
Proof. unfold mth. revert x. induction m as [|m IH]; intros [|a x]; cbn [skipn nth_error]; try reflexivity. apply IH. Qed.
Lemma reshape_nth {A} (l : list (list A)) m : nth_error (reshape_list l) m =
  if (m <? fold_right Nat.max 0 (map (@List.length A) l))%nat then Some (List.concat (map (mth m) l)) else None.
Proof.
  unfold reshape_list. rewrite nth_error_map. destruct (Nat.ltb_spec m (fold_right Nat.max 0%nat (map (@List.length A) l))) as [H|H].
  - rewrite (nth_error_nth' _ 0%nat) by (rewrite seq_length; exact H). rewrite seq_nth by exact H. cbn [option_map]. f_equal.
    rewrite flat_map_concat_map. f_equal. apply map_ext. intros x. symmetry. apply mth_err.
  - rewrite (proj2 (nth_error_None _ _)) by (rewrite seq_length; exact H). reflexivity.
Qed.
Lemma nth_error_combine {A B} (l : list A) (l' : list B) m : nth_error (combine l l') m =
  match nth_error l m, nth_error l' m with Some a, Some b => Some (a, b) | _, _ => None end.
Proof.
  revert l l'. induction m as [|m IH]; intros [|a l] [|b l']; cbn [combine nth_error]; try reflexivity.
  - destruct (nth_error l m); reflexivity.
  - apply IH.
Qed.

Definition paired {A B} (rs : list (list A * list B)) : Prop := forall r, In r rs -> List.length (snd r) = List.length (fst r).
Lemma concat_mth_len {A B} (rs : list (list A * list B)) m : paired rs ->
  List.length (List.concat (map (fun r => mth m (snd r)) rs)) = List.length (List.concat (map (fun r => mth m (fst r)) rs)).
Proof.
  induction rs as [|r t IH]; intros H; [reflexivity|]. cbn [map List.concat]. rewrite !app_length, IH by (intros r' Hr'; apply H; right; exact Hr').
  f_equal. unfold mth. rewrite !firstn_length, !skipn_length. rewrite (H r) by (left; reflexivity). reflexivity.
Qed.
Lemma table_tabulates (rs : list (list R * list (list (C * C)))) : paired rs ->
  tabulates rs (combine (reshape_list (map fst rs)) (map (map (fun ab il => nth il ab (RtoC 0, RtoC 0))) (reshape_list (map snd rs)))).
Proof.
  intros HP m. rewrite nth_error_combine, nth_error_map, !reshape_nth, !map_map.
  assert (E : map (fun x : list R * list (list (C * C)) => List.length (snd x)) rs = map (fun x => List.length (fst x)) rs).
  { apply map_ext_in. intros r Hr. apply HP. exact Hr. }
  rewrite E. assert (HM := max_lengths (map fst rs) m). rewrite map_map in HM.
  destruct (Nat.ltb_spec m (fold_right Nat.max 0%nat (map (fun x => List.length (fst x)) rs))) as [H|H]; cbn [option_map].
  - apply HM in H. destruct H as (x & Hx & Hm). apply in_map_iff in Hx. destruct Hx as (r & <- & Hr).
    split; [exists r; split; assumption|]. split; [reflexivity|]. split; [rewrite map_length; apply concat_mth_len; exact HP|].
    intros j il Hj. rewrite map_length in Hj.
    set (f := fun (ab : list (C * C)) (il : nat) => nth il ab (RtoC 0, RtoC 0)).
    rewrite (nth_indep _ _ (f [])) by (rewrite map_length; exact Hj).
    rewrite (map_nth f). reflexivity.
  - intros r Hr. apply Nat.le_ngt. intros K. apply Nat.le_ngt in H. apply H, HM. exists (fst r). split; [apply in_map; exact Hr|exact K].
Qed.

Lemma given_g_paired root pol g eps ds n lb ub step tol r : guided_mode_given_g root pol g eps ds n lb ub step tol = Ok r ->
  List.length (snd r) = List.length (fst r).
Proof.
  unfold guided_mode_given_g. intros H.
  repeat match type of H with bind ?x _ = Ok _ => destruct x; [cbn [bind] in H|discriminate H] | (if ?c then _ else _) = Ok _ => destruct c; try discriminate H end.
  injection H as <-. cbn [fst snd]. rewrite !map_length. reflexivity.
Qed.
Lemma guided_paired root pol eps ds n step tol gs : forall st rs, (match st with None => True | Some (_, r) => List.length (snd r) = List.length (fst r) end) ->
  guided_loop root pol eps ds n step tol st gs = Ok rs -> List.length rs = List.length gs /\ paired rs.
Proof.
  induction gs as [|g t IH]; intros st rs Hst H; cbn [guided_loop] in H.
  - injection H as <-. split; [reflexivity|]. intros r [].
  - destruct (guided_step root pol eps ds n step tol st g) as [r|] eqn:E; [cbn [bind] in H|discriminate H].
    destruct (guided_loop _ _ _ _ _ _ _ (Some (g, r)) t) as [rs'|] eqn:E'; [cbn [bind] in H|discriminate H].
    apply (f_equal (fun x => match x with Ok a => a | _ => [] end)) in H. subst rs.
    assert (P : List.length (snd r) = List.length (fst r)).
    { unfold guided_step in E. destruct (rmaxl _) as [m|]; [cbn [bind] in E|discriminate E]. destruct st as [[gp [om co]]|].
      - destruct (if Nat.eqb (List.length om) n then _ else _) as [ub|]; [cbn [bind] in E|discriminate E].
        destruct (Rltb _ _); [eapply given_g_paired; exact E|]. apply (f_equal (fun x => match x with Ok a => a | _ => ([], []) end)) in E. subst r. exact Hst.
      - eapply given_g_paired; exact E. }
    destruct (IH (Some (g, r)) rs' P E') as [L Q]. split; [cbn [List.length]; rewrite L; reflexivity|].
    intros x [<-|Hx]; [exact P|apply Q; exact Hx].
Qed.

Lemma max_half m t : exists x, In x (m :: t) /\ fold_right Nat.max m t = x /\ forall y, In y (m :: t) -> (y <= x)%nat.
Proof.
  induction t as [|y t IH]; cbn [fold_right].
  - exists m. split; [left; reflexivity|]. split; [reflexivity|]. intros y [<-|[]]. lia.
  - destruct IH as (x & Hx & E & H). rewrite E. destruct (Nat.max_spec y x) as [[L ->]|[L ->]].
    + exists x. split; [destruct Hx as [<-|Hx]; [left; reflexivity|right; right; exact Hx]|]. split; [reflexivity|].
      intros z [<-|[<-|Hz]]; [apply H; left; reflexivity|lia|apply H; right; exact Hz].
    + exists y. split; [right; left; reflexivity|]. split; [reflexivity|].
      intros z [<-|[<-|Hz]]; [pose proof (H m (or_introl eq_refl)); lia|lia|pose proof (H z (or_intror Hz)); lia].
Qed.
Lemma guided_table_for root o par pol eps ds garr tab : guided_table root o pol eps ds garr (filter par (o_inds o)) = Ok tab ->
  table_for root o par pol eps ds garr tab.
Proof.
  unfold guided_table. destruct (filter par (o_inds o)) as [|m t] eqn:E.
  - intros H. injection H as <-. left. split; [|reflexivity]. intros m Hm. destruct (par m) eqn:P; [|reflexivity].
    exfalso. assert (K : In m (filter par (o_inds o))) by (apply filter_In; auto). rewrite E in K. exact K.
  - intros H. right. destruct (guided_modes _ _ _ _ _ _ _ _) as [rs|] eqn:Er; [cbn [bind] in H|discriminate H].
    apply (f_equal (fun x => match x with Ok a => a | _ => [] end)) in H. subst tab.
    destruct (max_half m t) as (x & Hx & Ex & Mx). rewrite Ex in Er. exists (1 + x / 2)%nat, rs.
    rewrite <- E in Hx, Mx. split; [exists x; apply filter_In in Hx; destruct Hx; repeat split; auto; lia|].
    split. { intros y Hy Py. assert (In y (filter par (o_inds o))) by (apply filter_In; auto). assert (y / 2 <= x / 2)%nat by (apply Nat.div_le_mono; [lia|apply Mx; auto]). lia. }
    split; [exact Er|]. destruct (guided_paired root pol eps ds (1 + x / 2) (o_step o) (o_tol o) garr None rs Logic.I Er) as [L P].
    split; [exact L|]. apply table_tabulates. exact P.
Qed.

Lemma compute_guided_for root o eps ds l garr te tm : compute_guided root o eps ds l = Ok (garr, te, tm) ->
  l <> [] /\ lowered (o_dgabs o) l garr /\ table_for root o Nat.even "TE" eps ds garr te /\ table_for root o Nat.odd "TM" eps ds garr tm.
Proof.
  unfold compute_guided. destruct l as [|x l]; [discriminate|]. intros H.
  set (ga := shift_but_last (o_dgabs o) (x :: l)) in H.
  destruct (guided_table root o "TE" eps ds ga _) as [te'|] eqn:E1; [cbn [bind] in H|discriminate H].
  destruct (guided_table root o "TM" eps ds ga _) as [tm'|] eqn:E2; [cbn [bind] in H|discriminate H].
  apply (f_equal (fun x => match x with Ok a => a | _ => ([], [], []) end)) in H. injection H as Hg Ht Hm. subst garr te' tm'.
  split; [discriminate|]. split; [apply shift_lowered|]. split; apply guided_table_for; assumption.
Qed.

Lemma eps_list_for d o eps : eps_list d o = Ok eps -> eps_for d o eps.
Proof.
  unfold eps_list, eps_for. cbv zeta. destruct (String.eqb_spec (o_epseff o) "average") as [E|_].
  { intros H. apply (f_equal (fun x => match x with Ok a => a | _ => [] end)) in H. left. split; [exact E|]. rewrite <- H. unfold all_layers. cbn [map]. rewrite map_app. reflexivity. }
  destruct (String.eqb_spec (o_epseff o) "background") as [E|_].
  { intros H. apply (f_equal (fun x => match x with Ok a => a | _ => [] end)) in H. right. left. split; [exact E|]. rewrite <- H. unfold all_layers. cbn [map]. rewrite map_app. reflexivity. }
  destruct (String.eqb_spec (o_epseff o) "custom") as [E|_]; [|discriminate].
  destruct (dv_custom d) as [l|]; [|discriminate]. intros H. injection H as <-. right. right. auto.
Qed.

Lemma gkl_wave d o k : map (gkl d o k) (seq 0 (List.length (dv_gvec d))) = map (fun G => wave_len G k (o_dgx o)) (dv_gvec d).
Proof.
  unfold gkl, gk_data, wave_len. cbn [gk_len]. generalize (dv_gvec d). intros gv.
  apply (nth_ext _ _ 0 0); [rewrite !map_length, seq_length; reflexivity|]. intros i Hi. rewrite map_length, seq_length in Hi.
  set (f := fun i : nat => _). set (h := fun G : R * R => _). rewrite (nth_indep _ 0 (f 0%nat)) by (rewrite map_length, seq_length; exact Hi).
  rewrite (map_nth f), seq_nth by exact Hi. rewrite (nth_indep _ 0 (h (0, 0))) by (rewrite map_length; exact Hi).
  rewrite (map_nth h). reflexivity.
Qed.

Definition tables_for root (d : dev) (o : opts) (ks : list (R * R)) (k : R * R) (eps garr : list R) (te tm : gtable) : Prop :=
  grid_for o (dv_gvec d) ks k garr /\ table_for root o Nat.even "TE" eps (d_list d) garr te /\ table_for root o Nat.odd "TM" eps (d_list d) garr tm.
Lemma guided_tables root d o ks k eps garr te tm : ks <> [] -> dv_gvec d <> [] ->
  (exact_modes o = true /\ compute_guided root o eps (d_list d) (exact_grid d o k) = Ok (garr, te, tm) \/
   interp_modes o = true /\ compute_guided root o eps (d_list d) (interp_grid d o ks) = Ok (garr, te, tm)) ->
  tables_for root d o ks k eps garr te tm.
Proof.
  intros Hk Hg [[Hm H]|[Hm H]]; apply String.eqb_eq in Hm; apply compute_guided_for in H; destruct H as (N & L & T1 & T2); (split; [|split; assumption]).
  - left. split; [exact Hm|]. exists (exact_grid d o k). split; [|split; [apply asc_ascending, r_sort_asc|exact L]].
    unfold exact_grid. rewrite gkl_wave. apply r_sort_perm.
  - right. split; [exact Hm|]. do 3 eexists. split; [apply rmax0_largest; exact Hg|]. split; [apply rmax0_largest; exact Hk|].
    split; [|exact L]. apply linspace_spaced. destruct (o_npts o) eqn:E; [|lia]. exfalso. apply N. unfold interp_grid. rewrite E. reflexivity.
Qed.

Lemma sqrt_triangle a b c e : sqrt ((a + c) * (a + c) + (b + e) * (b + e)) <= sqrt (a * a + b * b) + sqrt (c * c + e * e).
Proof.
  assert (P1 := sqrt_pos (a * a + b * b)). assert (P2 := sqrt_pos (c * c + e * e)).
  assert (Q1 : sqrt (a * a + b * b) * sqrt (a * a + b * b) = a * a + b * b) by (apply sqrt_sqrt; nra).
  assert (Q2 : sqrt (c * c + e * e) * sqrt (c * c + e * e) = c * c + e * e) by (apply sqrt_sqrt; nra).
  apply Rsqr_incr_0_var; [|lra]. unfold Rsqr. rewrite sqrt_sqrt by (pose proof (Rle_0_sqr (a + c)); pose proof (Rle_0_sqr (b + e)); unfold Rsqr in *; lra).
  set (p := sqrt (a * a + b * b)) in *. set (q := sqrt (c * c + e * e)) in *.
  assert (K : a * c + b * e <= p * q).
  { apply Rsqr_incr_0_var; [|nra]. unfold Rsqr. replace (p * q * (p * q)) with ((a * a + b * b) * (c * c + e * e)) by (rewrite <- Q1, <- Q2; ring).
    pose proof (Rle_0_sqr (a * e - b * c)) as Z0. unfold Rsqr in Z0. nra. }
  nra.
Qed.
Lemma wave_len_le G k dgx : wave_len G k dgx <= wave_len (0, 0) G 0 + wave_len (0, 0) k 0 + Rabs dgx.
Proof.
  unfold wave_len. cbn [fst snd].
  replace (fst G + fst k + dgx) with ((fst G + fst k) + dgx) by ring. replace (snd G + snd k) with ((snd G + snd k) + 0) by ring.
  eapply Rle_trans; [apply sqrt_triangle|]. replace (dgx * dgx + 0 * 0) with (dgx * dgx) by ring.
  fold (Rsqr dgx). rewrite sqrt_Rsqr_abs. apply Rplus_le_compat_r. eapply Rle_trans; [apply sqrt_triangle|].
  apply Req_le. apply f_equal2; f_equal; ring.
Qed.

(** the nodes reach as far as the plane waves do *)
Lemma grid_reaches o gvec ks k garr G : grid_for o gvec ks k garr -> In G gvec -> In k ks ->
  let n := List.length garr in
  (lower (o_compute o) = "exact"%string -> n = List.length gvec /\ wave_len G k (o_dgx o) <= nth (n - 1) garr 0 /\
     ((2 <= n)%nat -> nth 0 garr 0 + o_dgabs o <= wave_len G k (o_dgx o))) /\
  (lower (o_compute o) = "interp"%string -> n = o_npts o /\ ((2 <= n)%nat ->
     wave_len G k (o_dgx o) <= nth (n - 1) garr 0 + Rabs (o_dgx o) /\ nth 0 garr 0 + o_dgabs o <= wave_len G k (o_dgx o))).
Proof.
  intros [(E & l & P & A & L1 & L2)|(E & l & bG & bk & HG & HK & (S1 & S2 & S3 & _) & L1 & L2)] HGi Hki; cbv zeta; (split; intros E'; [|]); try (rewrite E in E'; discriminate E').
  - assert (Ln : List.length l = List.length gvec) by (rewrite (Permutation_length P), map_length; reflexivity).
    split; [lia|]. assert (Hin : In (wave_len G k (o_dgx o)) l).
    { apply (Permutation_in _ (Permutation_sym P)). apply (in_map (fun G => wave_len G k (o_dgx o))). exact HGi. }
    destruct (In_nth _ _ 0 Hin) as (i & Hi & Ei). rewrite <- Ei. split.
    + rewrite L1, L2 by lia. destruct (Nat.eqb_spec (List.length l - 1 + 1) (List.length l)); [|lia].
      destruct (Nat.eq_dec i (List.length l - 1)) as [->|]; [lra|]. apply A. lia.
    + intros H2. rewrite L2 by lia. destruct (Nat.eqb_spec (0 + 1) (List.length l)); [lia|].
      destruct i as [|i]; [lra|]. assert (nth 0 l 0 <= nth (S i) l 0) by (apply A; lia). lra.
  - split; [lia|]. intros H2. destruct HG as [_ HG]. destruct HK as [_ HK]. specialize (HG G HGi). specialize (HK k Hki).
    rewrite L1, S1 in *. split.
    + rewrite L2 by lia. destruct (Nat.eqb_spec (o_npts o - 1 + 1) (o_npts o)); [|lia]. rewrite S3 by lia.
      pose proof (wave_len_le G k (o_dgx o)). lra.
    + rewrite L2 by lia. destruct (Nat.eqb_spec (0 + 1) (o_npts o)); [lia|]. rewrite S2. assert (0 <= wave_len G k (o_dgx o)) by apply sqrt_pos. lra.
Qed.

(** when no mode is lost from one node to the next, row m belongs to the last nodes *)
Lemma concat_aligned {A} (ls : list (list A)) m : (exists r, In r ls /\ (m < List.length r)%nat) ->
  (forall i j, (i <= j < List.length ls)%nat -> (List.length (nth i ls []) <= List.length (nth j ls []))%nat) ->
  let row := List.concat (map (mth m) ls) in let skip := (List.length ls - List.length row)%nat in
  (0 < List.length row <= List.length ls)%nat /\
  forall i, (i < List.length ls)%nat -> ((skip <= i)%nat <-> (m < List.length (nth i ls []))%nat) /\
    ((skip <= i)%nat -> nth_error row (i - skip) = nth_error (nth i ls []) m).
Proof.
  intros (r & Hr & Hm) HM. revert r Hr Hm HM.
  induction ls as [|x rs IH]; intros r Hr Hm HM; [destruct Hr|]. cbv zeta.
  assert (HM' : forall i j, (i <= j < List.length rs)%nat -> (List.length (nth i rs []) <= List.length (nth j rs []))%nat)
    by (intros i j Hij; apply (HM (S i) (S j)); cbn [List.length]; lia).
  assert (ALL : (m < List.length x)%nat -> forall i, (i < List.length (x :: rs))%nat -> (m < List.length (nth i (x :: rs) []))%nat).
  { intros Hx i Hi. pose proof (HM 0%nat i ltac:(lia)) as K. change (nth 0 (x :: rs) []) with x in K. lia. }
  assert (LEN : forall l : list (list A), (forall i, (i < List.length l)%nat -> (m < List.length (nth i l []))%nat) ->
     List.length (List.concat (map (mth m) l)) = List.length l /\
     forall i, (i < List.length l)%nat -> nth_error (List.concat (map (mth m) l)) i = nth_error (nth i l []) m).
  { induction l as [|y l IHl]; intros H; [split; [reflexivity|intros i Hi; cbn in Hi; lia]|].
    destruct IHl as [K1 K2]; [intros i Hi; apply (H (S i)); cbn [List.length]; lia|].
    assert (Hy := H 0%nat ltac:(cbn [List.length]; lia)). cbn [nth] in Hy.
    cbn [map List.concat]. rewrite mth_err. destruct (nth_error y m) as [a|] eqn:Ea; [|apply nth_error_None in Ea; lia].
    cbn [app List.length]. rewrite K1. split; [reflexivity|]. intros [|i] Hi; cbn [nth_error nth]; [symmetry; exact Ea|apply K2; lia]. }
  destruct (Nat.lt_ge_cases m (List.length x)) as [Hx|Hx].
  - destruct (LEN (x :: rs) (ALL Hx)) as [K1 K2]. rewrite K1, Nat.sub_diag. split; [cbn [List.length]; lia|].
    intros i Hi. split; [split; [intros _; apply (ALL Hx); exact Hi|lia]|]. intros _. rewrite Nat.sub_0_r. apply K2. exact Hi.
  - assert (Hr' : In r rs) by (destruct Hr as [<-|]; [lia|assumption]).
    cbn [map List.concat]. replace (mth m x) with (@nil A) by (rewrite mth_err, (proj2 (nth_error_None _ _) Hx); reflexivity). cbn [app].
    destruct (IH r Hr' Hm HM') as [B K]. cbn [List.length]. split; [lia|].
    set (n := List.length (List.concat (map (mth m) rs))) in *.
    intros [|i] Hi.
    + cbn [nth]. split; [split; intros; lia|intros; lia].
    + cbn [nth]. destruct (K i ltac:(lia)) as [Ka Kb]. replace (S (List.length rs) - n)%nat with (S (List.length rs - n)) by lia.
      split; [rewrite <- Ka; lia|]. intros H. rewrite <- Kb by lia. f_equal.
Qed.
Lemma row_aligned (rs : list (list R * list (list (C * C)))) tab m oms cs : tabulates rs tab -> more_and_more rs -> nth_error tab m = Some (oms, cs) ->
  let skip := (List.length rs - List.length oms)%nat in
  (0 < List.length oms <= List.length rs)%nat /\ List.length cs = List.length oms /\
  forall i, (i < List.length rs)%nat -> ((skip <= i)%nat <-> (m < List.length (nth i (map fst rs) []))%nat) /\
    ((skip <= i)%nat -> nth_error oms (i - skip) = nth_error (nth i (map fst rs) []) m).
Proof.
  intros HT HM E. specialize (HT m). rewrite E in HT. destruct HT as ((r & Hr & Hm) & -> & L & _).
  destruct (concat_aligned (map fst rs) m) as [K1 K2].
  - exists (fst r). split; [apply in_map; exact Hr|exact Hm].
  - intros i j. rewrite map_length. apply HM.
  - rewrite map_map, !map_length in *. split; [exact K1|]. split; [exact L|exact K2].
Qed.
Lemma row_coeffs (rs : list (list R * list (list (C * C)))) tab m oms cs : tabulates rs tab -> more_and_more rs -> paired rs -> nth_error tab m = Some (oms, cs) ->
  let skip := (List.length rs - List.length oms)%nat in
  forall i il, (i < List.length rs)%nat -> (skip <= i)%nat ->
    nth (i - skip) cs (fun _ => (RtoC 0, RtoC 0)) il = nth il (nth m (nth i (map snd rs) []) []) (RtoC 0, RtoC 0).
Proof.
  intros HT HM HP E. pose proof (row_aligned rs tab m oms cs HT HM E) as [A1 [A2 A3]]. specialize (HT m). rewrite E in HT. destruct HT as ((r & Hr & Hm) & EO & L & CO).
  cbv zeta. intros i il Hi Hs. rewrite CO by lia. f_equal.
  assert (PN : forall i, List.length (nth i (map snd rs) []) = List.length (nth i (map fst rs) [])).
  { intros j. replace (nth j (map snd rs) []) with (snd (nth j rs ([], []))) by (symmetry; exact (map_nth snd rs ([], []) j)). replace (nth j (map fst rs) []) with (fst (nth j rs ([], []))) by (symmetry; exact (map_nth fst rs ([], []) j)).
    destruct (Nat.lt_ge_cases j (List.length rs)) as [Hj|Hj]; [apply HP, nth_In; exact Hj|]. rewrite (nth_overflow _ _ Hj). reflexivity. }
  destruct (concat_aligned (map snd rs) m) as [K1 K2].
  - exists (snd r). split; [apply in_map; exact Hr|rewrite (HP r Hr); exact Hm].
  - intros a b. rewrite map_length, !PN. apply HM.
  - rewrite map_map, map_length in *. rewrite (concat_mth_len rs m HP), <- EO in *.
    destruct (K2 i Hi) as [_ K3]. specialize (K3 Hs). apply nth_error_ext_nth. exact K3.
Qed.

(** ** interpolation on the nodes of a run *)
Lemma loop_reuse root pol eps ds n step tol gs : forall st rs, guided_loop root pol eps ds n step tol st gs = Ok rs ->
  (match st, gs, rs with Some (gp, r0), g :: _, r :: _ => Rabs (g - gp) <= / 10 ^ 8 -> r = r0 | _, _, _ => True end) /\
  forall i, (S i < List.length gs)%nat -> Rabs (nth (S i) gs 0 - nth i gs 0) <= / 10 ^ 8 -> nth (S i) rs ([], []) = nth i rs ([], []).
Proof.
  induction gs as [|g t IH]; intros st rs H; cbn [guided_loop] in H.
  - injection H as <-. split; [destruct st as [[? ?]|]; exact Logic.I|cbn [List.length]; intros; lia].
  - destruct (guided_step root pol eps ds n step tol st g) as [r|] eqn:E; [cbn [bind] in H|discriminate H].
    destruct (guided_loop _ _ _ _ _ _ _ (Some (g, r)) t) as [rs'|] eqn:E'; [cbn [bind] in H|discriminate H].
    apply (f_equal (fun x => match x with Ok a => a | _ => [] end)) in H. subst rs. destruct (IH _ _ E') as [I1 I2]. split.
    + destruct st as [[gp r0]|]; [|exact Logic.I]. intros Hc. unfold guided_step in E. destruct (rmaxl _) as [m|]; [cbn [bind] in E|discriminate E].
      destruct r0 as [om co]. destruct (if Nat.eqb (List.length om) n then _ else _) as [ub|]; [cbn [bind] in E|discriminate E].
      destruct (Rltb _ _) eqn:Q; [apply Rltb_true in Q; lra|]. apply (f_equal (fun x => match x with Ok a => a | _ => ([], []) end)) in E. symmetry. exact E.
    + intros [|i] Hi Hc; cbn [List.length] in Hi.
      * destruct t as [|g' t]; [cbn [List.length] in Hi; lia|]. destruct rs' as [|r' rs']; [cbn [guided_loop] in E'; destruct (guided_step _ _ _ _ _ _ _ _ g'); [cbn [bind] in E'; destruct (guided_loop _ _ _ _ _ _ _ _ t); discriminate E'|discriminate E']|].
        cbn [nth] in *. apply I1. exact Hc.
      * change (nth (S i) rs' ([], []) = nth i rs' ([], [])). apply I2; [lia|exact Hc].
Qed.
Lemma equal_nodes root pol garr eps ds n step tol rs : guided_modes root pol garr eps ds n step tol = Ok rs -> MatElSpec.ascending garr ->
  forall i j, (i <= j < List.length garr)%nat -> nth i garr 0 = nth j garr 0 -> nth i rs ([], []) = nth j rs ([], []).
Proof.
  intros H HA i j [Hij Hj]. induction Hij as [|j Hij IH]; intros E; [reflexivity|].
  assert (A1 := HA i j ltac:(lia)). assert (A2 := HA j (S j) ltac:(lia)).
  rewrite IH by (try lia; lra). symmetry. apply (proj2 (loop_reuse root pol eps ds n step tol garr None rs H)); [exact Hj|].
  replace (nth (S j) garr 0 - nth j garr 0) with 0 by lra. rewrite Rabs_R0. apply Rlt_le, Rinv_0_lt_compat. lra.
Qed.
Lemma nth_skipn {A} (d : A) l : forall n i, nth i (skipn n l) d = nth (n + i) l d.
Proof. induction l as [|x l IH]; intros [|n] i; cbn [skipn Nat.add nth]; try reflexivity; [destruct i; reflexivity|apply IH]. Qed.

Lemma nodes_agree root pol garr eps ds n step tol rs tab m oms cs : guided_modes root pol garr eps ds n step tol = Ok rs -> MatElSpec.ascending garr ->
  tabulates rs tab -> more_and_more rs -> nth_error tab m = Some (oms, cs) ->
  let gs := skipn (List.length garr - List.length oms) garr in
  (0 < List.length oms <= List.length garr)%nat /\ List.length cs = List.length oms /\ MatElSpec.ascending gs /\
  MatElSpec.agree gs (map RtoC oms) /\
  forall il, MatElSpec.agree gs (map (fun c => fst (c il)) cs) /\ MatElSpec.agree gs (map (fun c => snd (c il)) cs).
Proof.
  intros H HA HT HM E. destruct (guided_paired root pol eps ds n step tol garr None rs Logic.I H) as [L P].
  destruct (row_aligned rs tab m oms cs HT HM E) as (R1 & R2 & R3). pose proof (row_coeffs rs tab m oms cs HT HM P E) as R4. cbv zeta in *.
  rewrite L in *. set (sk := (List.length garr - List.length oms)%nat) in *.
  split; [exact R1|]. split; [exact R2|].
  assert (Lg : List.length (skipn sk garr) = List.length oms) by (rewrite skipn_length; lia).
  split. { intros i j Hij. rewrite Lg in Hij. rewrite !nth_skipn. apply HA. lia. }
  assert (EQ : forall i j, (i < List.length oms)%nat -> (j < List.length oms)%nat -> nth i (skipn sk garr) 0 = nth j (skipn sk garr) 0 ->
     nth (sk + i) rs ([], []) = nth (sk + j) rs ([], [])).
  { intros i j Hi Hj K. rewrite !nth_skipn in K. destruct (Nat.le_ge_cases i j).
    - apply (equal_nodes root pol garr eps ds n step tol rs H HA); [lia|exact K].
    - symmetry. apply (equal_nodes root pol garr eps ds n step tol rs H HA); [lia|symmetry; exact K]. }
  assert (NF : forall i, nth i (map fst rs) [] = fst (nth i rs ([], []))) by (intros i; exact (map_nth fst rs ([], []) i)).
  assert (NS : forall i, nth i (map snd rs) [] = snd (nth i rs ([], []))) by (intros i; exact (map_nth snd rs ([], []) i)).
  assert (CQ : forall i j, (i < List.length oms)%nat -> (j < List.length oms)%nat -> nth i (skipn sk garr) 0 = nth j (skipn sk garr) 0 ->
     forall il, nth i cs (fun _ => (RtoC 0, RtoC 0)) il = nth j cs (fun _ => (RtoC 0, RtoC 0)) il).
  { intros i j Hi Hj K il. specialize (EQ i j Hi Hj K).
    pose proof (R4 (sk + i)%nat il ltac:(lia) ltac:(lia)) as Q1. pose proof (R4 (sk + j)%nat il ltac:(lia) ltac:(lia)) as Q2.
    rewrite NS in Q1, Q2. rewrite EQ in Q1. replace (sk + i - sk)%nat with i in Q1 by lia. replace (sk + j - sk)%nat with j in Q2 by lia. congruence. }
  split.
  - intros i j. rewrite Lg. intros Hi Hj K. specialize (EQ i j Hi Hj K).
    destruct (R3 (sk + i)%nat ltac:(lia)) as [_ Q1]. destruct (R3 (sk + j)%nat ltac:(lia)) as [_ Q2]. specialize (Q1 ltac:(lia)). specialize (Q2 ltac:(lia)).
    rewrite NF in Q1, Q2. rewrite EQ in Q1. replace (sk + i - sk)%nat with i in Q1 by lia. replace (sk + j - sk)%nat with j in Q2 by lia.
    change (RtoC 0) with (RtoC 0). rewrite !(map_nth RtoC). f_equal. apply nth_error_ext_nth. congruence.
  - intros il. split; intros i j; rewrite Lg; intros Hi Hj K.
    + set (f := fun c : nat -> C * C => fst (c il)). change (nth i (map f cs) (f (fun _ => (RtoC 0, RtoC 0))) = nth j (map f cs) (f (fun _ => (RtoC 0, RtoC 0)))). rewrite !(map_nth f). unfold f.
      rewrite (CQ i j Hi Hj K il). reflexivity.
    + set (f := fun c : nat -> C * C => snd (c il)). change (nth i (map f cs) (f (fun _ => (RtoC 0, RtoC 0))) = nth j (map f cs) (f (fun _ => (RtoC 0, RtoC 0)))). rewrite !(map_nth f). unfold f.
      rewrite (CQ i j Hi Hj K il). reflexivity.
Qed.

Lemma lowered_ascending dl l garr : 0 <= dl -> ascending l -> lowered dl l garr -> MatElSpec.ascending garr.
Proof.
  intros Hd HA [L1 L2] i j Hij. rewrite L1 in Hij. rewrite !L2 by lia.
  assert (nth i l 0 <= nth j l 0) by (destruct (Nat.eq_dec i j) as [->|]; [lra|apply HA; lia]).
  destruct (Nat.eqb_spec (i + 1) (List.length l)), (Nat.eqb_spec (j + 1) (List.length l)); try lia; lra.
Qed.
Lemma spaced_ascending b n l : 0 <= b -> spaced b n l -> ascending l.
Proof.
  intros Hb (S1 & S2 & S3 & S4). destruct n as [|[|n]]; [intros i j Hij; lia|intros i j Hij; lia|].
  assert (E : forall i, (S i < S (S n))%nat -> nth (i + 1) l 0 - nth i l 0 = nth 1 l 0 - nth 0 l 0).
  { induction i as [|i IH]; intros Hi; [reflexivity|]. replace (S i + 1)%nat with (i + 2)%nat by lia. replace (S i) with (i + 1)%nat by lia. rewrite S4 by lia. apply IH. lia. }
  assert (V : forall i, (i < S (S n))%nat -> nth i l 0 = INR i * (nth 1 l 0 - nth 0 l 0)).
  { induction i as [|i IH]; intros Hi; [cbn [INR]; lra|]. specialize (E i Hi). replace (i + 1)%nat with (S i) in E by lia. rewrite S_INR. rewrite IH in E by lia. lra. }
  assert (P : 0 <= nth 1 l 0 - nth 0 l 0).
  { specialize (S3 ltac:(lia)). rewrite (V (S (S n) - 1)%nat) in S3 by lia. destruct (Rle_dec 0 (nth 1 l 0 - nth 0 l 0)) as [|N]; [assumption|].
    assert (0 < INR (S (S n) - 1)) by (apply lt_0_INR; lia). nra. }
  intros i j Hij. rewrite (V i), (V j) by lia. apply Rmult_le_compat_r; [exact P|]. apply le_INR. lia.
Qed.
Lemma grid_ascending o gvec ks k garr : grid_for o gvec ks k garr -> 0 <= o_dgabs o -> MatElSpec.ascending garr.
Proof.
  intros [(_ & l & _ & A & L)|(_ & l & bG & bk & [(p & _ & HG) _] & [(q & _ & HK) _] & S & L)] Hd.
  - eapply lowered_ascending; eassumption.
  - eapply lowered_ascending; [exact Hd| |exact L]. eapply spaced_ascending; [|exact S]. rewrite HG, HK.
    pose proof (sqrt_pos ((fst (0, 0) + fst p + 0) * (fst (0, 0) + fst p + 0) + (snd (0, 0) + snd p) * (snd (0, 0) + snd p))).
    pose proof (sqrt_pos ((fst (0, 0) + fst q + 0) * (fst (0, 0) + fst q + 0) + (snd (0, 0) + snd q) * (snd (0, 0) + snd q))). unfold wave_len. lra.
Qed.

Lemma matrix_tables root dl d o ks eps einv k te tm mat : ks <> [] -> dv_gvec d <> [] -> matrix_at root dl d o ks eps einv k te tm mat ->
  eps_for d o eps /\ exists garr, tables_for root d o ks k eps garr te tm /\
    construct_mat dl (dv_gvec d) k (o_dgx o) (o_inds o) garr te tm eps (d_list d) einv = Ok mat.
Proof.
  intros Hk Hg (H1 & garr & H2 & H3). split; [apply eps_list_for; exact H1|]. exists garr. split; [|exact H3]. eapply guided_tables; eassumption.
Qed.

Lemma run_tables argsort eigh eigsh inv root dl d o ks an s s' : run argsort eigh eigsh inv root dl d o ks an s = (s', Ok tt) -> dv_gvec d <> [] ->
  exists eps, eps_for d o eps /\ forall ik k, nth_error ks ik = Some k -> exists garr te tm,
    nth_error (g_tabs s') (if String.eqb (lower (o_compute o)) "interp" then 0 else ik)%nat = Some (garr, te, tm) /\
    grid_for o (dv_gvec d) ks k garr /\
    table_for root o Nat.even "TE" eps (map ly_d (pc_layers (dv_phc d))) garr te /\
    table_for root o Nat.odd "TM" eps (map ly_d (pc_layers (dv_phc d))) garr tm.
Proof.
  intros H Hg. destruct (run_ok argsort eigh eigsh inv root dl d o ks an s s' H)
    as (refl & eps & einv & H1 & H2 & H3 & H4 & H5 & H6 & H7 & HI & HN & HD & sy & H8 & H9 & H9' & Q).
  exists eps. split; [apply eps_list_for; exact H2|]. intros ik k Hk. destruct (Q ik k Hk) as (garr & te & tm & T1 & T2 & _).
  exists garr, te, tm. split; [exact T2|]. apply (guided_tables root d o ks k eps garr te tm); [|exact Hg|exact T1].
  intros ->. destruct ik; discriminate Hk.
Qed.
Lemma tables_interpolated root pol garr eps ds n step tol rs ng gk (te tm : gtable) eps' m oms cs m' :
  guided_modes root pol garr eps ds n step tol = Ok rs -> MatElSpec.ascending garr ->
  tabulates rs (if Nat.even m then te else tm) -> more_and_more rs ->
  entry te tm m = Some (oms, cs) -> get_guided ng gk garr te tm eps' m = Ok m' ->
  let skip := (List.length garr - List.length oms)%nat in
  (forall j, (j < List.length oms)%nat -> nth_error oms j = nth_error (fst (nth (skip + j) rs ([], []))) (m / 2) /\
     forall il, nth j cs (fun _ => (RtoC 0, RtoC 0)) il = nth il (nth (m / 2) (snd (nth (skip + j) rs ([], []))) []) (RtoC 0, RtoC 0)) /\
  forall i, let x := gk (md_g m' i) in
    lerp (skipn skip garr) (map RtoC oms) x (RtoC (md_om m' i)) /\
    forall il, md_chi m' il i = chi (md_om m' i) x (nth il eps' 0) /\
      lerp (skipn skip garr) (map (fun c => fst (c il)) cs) x (md_A m' il i) /\
      lerp (skipn skip garr) (map (fun c => snd (c il)) cs) x (md_B m' il i).
Proof.
  intros H HA HT HM E G. cbv zeta.
  destruct (nodes_agree root pol garr eps ds n step tol rs _ (m / 2)%nat oms cs H HA HT HM E) as (L1 & L2 & A1 & A2 & A3).
  destruct (guided_paired root pol eps ds n step tol garr None rs Logic.I H) as [L P].
  destruct (row_aligned rs _ (m / 2)%nat oms cs HT HM E) as (R1 & R2 & R3). pose proof (row_coeffs rs _ (m / 2)%nat oms cs HT HM P E) as R4. cbv zeta in *. rewrite L in *.
  split.
  - intros j Hj. destruct (R3 (List.length garr - List.length oms + j)%nat ltac:(lia)) as [_ K]. specialize (K ltac:(lia)).
    replace (List.length garr - List.length oms + j - (List.length garr - List.length oms))%nat with j in K by lia. split.
    + rewrite K. f_equal. exact (map_nth fst rs ([], []) _).
    + intros il. specialize (R4 (List.length garr - List.length oms + j)%nat il ltac:(lia) ltac:(lia)).
      replace (List.length garr - List.length oms + j - (List.length garr - List.length oms))%nat with j in R4 by lia. rewrite R4.
      do 2 f_equal. exact (map_nth snd rs ([], []) _).
  - intros i. destruct (guided_interpolated ng gk garr te tm eps' m oms cs m' E L1 L2 A1 A2 G i) as [I1 I2].
    split; [exact I1|]. intros il. destruct (I2 il) as (J1 & J2 & J3). destruct (A3 il) as [A4 A5].
    split; [exact J1|]. split; [apply J2; exact A4|apply J3; exact A5].
Qed.
