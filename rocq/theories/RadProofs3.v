(** Proofs about radiative losses: the results of compute_rad and run_im. *)
From Verif Require Import Py CBase SlabModel MatElModel MatElProofs3 RadSpec RadModel RadProofs RadProofs2.
Open Scope R_scope.
Open Scope list_scope.

Lemma freq_rate f T y : loss_rate (2 * PI * f) T y -> 2 * PI * to_freq y = y.
Proof. intros _. unfold to_freq. pose proof PI_RGT_0. field. lra. Qed.
Lemma to_freq_inv y : 2 * PI * to_freq y = y.
Proof. unfold to_freq. pose proof PI_RGT_0. field. lra. Qed.

Lemma nth_error_map_lt {A B} (h : A -> B) l i x : nth_error l i = Some x -> nth_error (map h l) i = Some (h x).
Proof. apply map_nth_error. Qed.
Lemma nth_of_error {A} (l : list A) i x d : nth_error l i = Some x -> nth i l d = x.
Proof. intros H. exact (nth_error_nth l i d H). Qed.

Lemma compute_rad_in dl e n fs vs minds im rs : compute_rad dl e n fs vs minds = Ok (im, rs) ->
  List.length im = List.length minds /\ forall i m, nth_error minds i = Some m ->
  exists f v r, nth_error fs m = Some f /\ nth_error vs m = Some v /\ nth_error rs i = Some r /\ rad_one dl e f v = Ok r /\
    nth_error im i = Some (to_freq (rr_tot r)).
Proof.
  unfold compute_rad. intros H. destruct (rad_components dl e n fs vs minds) as [rs'|] eqn:E; [|discriminate H].
  cbn [bind] in H. injection H as <- <-. destruct (rad_components_in _ _ _ _ _ _ _ E) as [L K].
  split; [rewrite map_length; exact L|]. intros i m Hi. destruct (K i m Hi) as [f [v [r [A [B [D F]]]]]].
  exists f, v, r. repeat split; auto. apply (nth_error_map_lt (fun r => to_freq (rr_tot r))). exact D.
Qed.

Lemma nth_error_seq0 n i : (i < n)%nat -> nth_error (seq 0 n) i = Some i.
Proof.
  intros H. rewrite (nth_error_nth' _ 0%nat) by (rewrite seq_length; exact H). rewrite seq_nth by exact H. reflexivity.
Qed.

Lemma run_im_in dl n ks im ub rss : run_im dl n ks = Ok (im, ub, rss) ->
  List.length im = List.length ks /\ List.length ub = List.length ks /\ List.length rss = List.length ks /\
  forall k e fs vs i, nth_error ks k = Some (e, fs, vs) -> (i < n)%nat ->
  exists f v r, nth_error fs i = Some f /\ nth_error vs i = Some v /\ rad_one dl e f v = Ok r /\
    nth_error (nth k im []) i = Some (to_freq (rr_tot r)) /\
    nth_error (nth k ub []) i = Some (unbalance (to_freq (rr_tot r)) (to_freq (rr_te r)) (to_freq (rr_tm r))) /\
    nth_error (nth k rss []) i = Some r.
Proof.
  unfold run_im. intros H. destruct ks as [|k0 ks0]; [discriminate H|]. set (ks := k0 :: ks0) in *.
  destruct (mapM _ ks) as [rows|] eqn:E; [|discriminate H]. cbn [bind] in H. injection H as <- <- <-.
  pose proof (mapM_ok_length _ _ _ E) as L. rewrite !map_length. repeat split; try exact L.
  intros k e fs vs i Hk Hi. destruct (mapM_ok_nth _ _ _ E k (e, fs, vs) Hk) as [row [Hrow Hr]]. cbv beta iota in Hrow.
  unfold compute_rad_sp in Hrow. destruct (rad_components dl e n fs vs (seq 0 n)) as [rs|] eqn:Er; [|discriminate Hrow].
  cbn [bind] in Hrow. injection Hrow as <-.
  destruct (rad_components_in _ _ _ _ _ _ _ Er) as [Lr K].
  destruct (K i i (nth_error_seq0 n i Hi)) as [f [v [r [A [B [D F]]]]]].
  exists f, v, r. split; [exact A|]. split; [exact B|]. split; [exact F|].
  rewrite (nth_of_error _ k _ [] (nth_error_map_lt (fun r => fst (fst (fst r))) _ _ _ Hr)).
  rewrite (nth_of_error _ k _ [] (nth_error_map_lt snd _ _ _ Hr)).
  rewrite (nth_of_error _ k _ [] (nth_error_map_lt (fun r => map (fun i => unbalance (nth i (fst (fst (fst r))) 0) (nth i (snd (fst (fst r))) 0) (nth i (snd (fst r)) 0))
                        (seq 0 (List.length (fst (fst (fst r)))))) _ _ _ Hr)).
  cbn [fst snd]. split; [|split; [|exact D]].
  - apply (nth_error_map_lt (fun r => to_freq (rr_tot r))). exact D.
  - rewrite map_length, Lr, seq_length.
    rewrite (nth_error_map_lt _ _ _ _ (nth_error_seq0 n i Hi)).
    rewrite !(nth_of_error _ i _ 0 (nth_error_map_lt _ _ _ _ D)). reflexivity.
Qed.

(** ** the theorems *)
Lemma C46_lem dl e n fs vs minds im rs : compute_rad dl e n fs vs minds = Ok (im, rs) ->
  forall i m f y, nth_error minds i = Some m -> nth_error fs m = Some f -> nth_error im i = Some y ->
  exists r, nth_error rs i = Some r /\
    let T := total (rr_lte r ++ rr_ute r ++ rr_ltm r ++ rr_utm r) in
    loss_rate (2 * PI * f) T (2 * PI * y) /\ (forall y', loss_rate (2 * PI * f) T y' -> y' = 2 * PI * y) /\
    0 <= y /\ (y = 0 <-> T = 0) /\
    (forall T' y', 0 <= T' -> loss_rate (2 * PI * f) T' (2 * PI * y') -> (y' < y <-> T' < T)).
Proof.
  intros H i m f y Hm Hf Hy. destruct (compute_rad_in _ _ _ _ _ _ _ _ H) as [_ K].
  destruct (K i m Hm) as [f' [v [r [A [B [D [F G]]]]]]]. rewrite Hf in A. injection A as <-. rewrite Hy in G. injection G as ->.
  exists r. split; [exact D|]. intros T. destruct (rad_one_rates dl e f v r F) as [R _].
  assert (P : 0 <= T) by apply total_pos. rewrite to_freq_inv. fold T in R.
  split; [exact R|]. split; [intros y' Q; apply (rate_unique (2 * PI * f) T); assumption|].
  split; [apply pos_to_freq, R|]. pose proof PI_RGT_0 as HP. split.
  - rewrite <- (rate_zero (2 * PI * f) T _ P R). split; intros Z.
    + rewrite <- (to_freq_inv (rr_tot r)), Z. ring.
    + rewrite Z. apply to_freq_0.
  - intros T' y' P' R'. split; intros L.
    + destruct (Rlt_le_dec T' T) as [Q|Q]; [exact Q|]. exfalso.
      assert (rr_tot r <= 2 * PI * y').
      { destruct (Rle_lt_or_eq_dec _ _ Q) as [Q'|Q'].
        - apply Rlt_le. apply (rate_strict (2 * PI * f) T T'); assumption.
        - rewrite <- Q' in R'. apply Req_le, (rate_unique (2 * PI * f) T); assumption. }
      rewrite <- (to_freq_inv (rr_tot r)) in H0. nra.
    + pose proof (rate_strict _ _ _ _ _ P' L R' R) as Q. rewrite <- (to_freq_inv (rr_tot r)) in Q. nra.
Qed.

Lemma C46_parts_lem dl n ks im ub rss : run_im dl n ks = Ok (im, ub, rss) ->
  forall k e fs vs i, nth_error ks k = Some (e, fs, vs) -> (i < n)%nat ->
  exists f r y te tm, nth_error fs i = Some f /\ nth_error (nth k rss []) i = Some r /\ nth_error (nth k im []) i = Some y /\
    loss_rate (2 * PI * f) (total (rr_lte r ++ rr_ute r ++ rr_ltm r ++ rr_utm r)) (2 * PI * y) /\
    loss_rate (2 * PI * f) (total (rr_lte r ++ rr_ute r)) (2 * PI * te) /\
    loss_rate (2 * PI * f) (total (rr_ltm r ++ rr_utm r)) (2 * PI * tm) /\
    te <= y /\ tm <= y /\ y <= te + tm /\
    exists u, nth_error (nth k ub []) i = Some u /\ 0 <= u < 1 /\ (y = 0 -> u = 1 / 2) /\
      (1 / 10 ^ 15 <= y -> (u < 1 / 2 <-> te < tm + 1 / 10 ^ 15) /\ (1 / 2 < u <-> tm + 1 / 10 ^ 15 < te)).
Proof.
  intros H k e fs vs i Hk Hi. destruct (run_im_in _ _ _ _ _ _ H) as [_ [_ [_ K]]].
  destruct (K k e fs vs i Hk Hi) as [f [v [r [A [B [F [G [U Rr]]]]]]]].
  exists f, r, (to_freq (rr_tot r)), (to_freq (rr_te r)), (to_freq (rr_tm r)). rewrite !to_freq_inv.
  destruct (rad_one_rates dl e f v r F) as [R1 [R2 R3]]. destruct (rad_one_order dl e f v r F) as [O1 [O2 [O3 [O4 O5]]]].
  pose proof PI_RGT_0 as HP.
  assert (M : forall a b, a <= b -> to_freq a <= to_freq b).
  { intros a b L. unfold to_freq, Rdiv. repeat apply Rmult_le_compat_r; [apply Rlt_le, Rinv_0_lt_compat; lra|lra|exact L]. }
  split; [exact A|]. split; [exact Rr|]. split; [exact G|]. split; [exact R1|]. split; [exact R2|]. split; [exact R3|].
  split; [apply M, O3|]. split; [apply M, O4|]. split.
  { replace (to_freq (rr_te r) + to_freq (rr_tm r)) with (to_freq (rr_te r + rr_tm r)) by (unfold to_freq; field; lra). apply M, O5. }
  eexists. split; [exact U|]. split; [apply unbalance_range; apply pos_to_freq; assumption|]. split.
  - intros Z. rewrite Z. apply unbalance_zero.
  - intros L. apply unbalance_half; [apply pos_to_freq; exact O1|apply pos_to_freq; exact O2|].
    rewrite Rabs_pos_eq by lra. exact L.
Qed.

Lemma C47_lem dl n ks im ub rss : run_im dl n ks = Ok (im, ub, rss) ->
  forall k e fs vs i f, nth_error ks k = Some (e, fs, vs) -> (i < n)%nat -> nth_error fs i = Some f ->
  Forall (below_light_line (re_clad_l e) (2 * PI * f) (re_dgx e) (re_k e)) (re_gvec e) ->
  Forall (below_light_line (re_clad_u e) (2 * PI * f) (re_dgx e) (re_k e)) (re_gvec e) ->
  nth_error (nth k im []) i = Some 0 /\ nth_error (nth k ub []) i = Some (1 / 2) /\
  exists r, nth_error (nth k rss []) i = Some r /\ rr_gl r = [] /\ rr_gu r = [] /\
    rr_lte r = [] /\ rr_ltm r = [] /\ rr_ute r = [] /\ rr_utm r = [].
Proof.
  intros H k e fs vs i f Hk Hi Hf Hl Hu. destruct (run_im_in _ _ _ _ _ _ H) as [_ [_ [_ K]]].
  destruct (K k e fs vs i Hk Hi) as [f' [v [r [A [B [F [G [U Rr]]]]]]]]. rewrite Hf in A. injection A as <-.
  rewrite (below_zero dl e f v r F Hl Hu) in *. cbn [rr_tot rr_te rr_tm] in *. rewrite to_freq_0 in *.
  rewrite unbalance_zero in U. split; [exact G|]. split; [exact U|].
  eexists. split; [exact Rr|]. repeat split.
Qed.

(** ** channels *)
Lemma channel_in gvec k dgx ec w G : In G (map (fun i => nth i gvec (0, 0)) (rad_inds (List.length gvec) (gk_len (gk_data gvec k dgx)) ec w)) <->
  In G gvec /\ ~ below_light_line ec w dgx k G.
Proof.
  rewrite in_map_iff. unfold rad_inds, below_light_line. split.
  - intros [i [<- Hi]]. apply filter_In in Hi as [Hi C]. apply in_seq in Hi. apply Rleb_true in C. rewrite gk_sq in C.
    split; [apply nth_In; lia|lra].
  - intros [HG N]. apply (In_nth _ _ (0, 0)) in HG as [i [Hi <-]]. exists i. split; [reflexivity|].
    apply filter_In. split; [apply in_seq; lia|]. apply Rleb_true. rewrite gk_sq. lra.
Qed.
Lemma rad_one_channels dl e f v r : rad_one dl e f v = Ok r ->
  rr_gl r = map (fun i => nth i (re_gvec e) (0, 0)) (rad_inds (List.length (re_gvec e)) (gk_len (gk_data (re_gvec e) (re_k e) (re_dgx e))) (re_clad_l e) (2 * PI * f)) /\
  rr_gu r = map (fun i => nth i (re_gvec e) (0, 0)) (rad_inds (List.length (re_gvec e)) (gk_len (gk_data (re_gvec e) (re_k e) (re_dgx e))) (re_clad_u e) (2 * PI * f)) /\
  List.length (rr_lte r) = List.length (rr_gl r) /\ List.length (rr_ltm r) = List.length (rr_gl r) /\
  List.length (rr_ute r) = List.length (rr_gu r) /\ List.length (rr_utm r) = List.length (rr_gu r).
Proof.
  unfold rad_one. cbv zeta. intros H.
  repeat match type of H with bind ?x _ = _ => destruct x; [cbn [bind] in H|discriminate H] end.
  injection H as <-. cbn [rr_gl rr_gu rr_lte rr_ltm rr_ute rr_utm]. unfold coupling. rewrite !map_length, !seq_length. repeat split.
Qed.
Lemma C81_lem dl e f v r : rad_one dl e f v = Ok r ->
  (forall G, In G (rr_gl r) <-> In G (re_gvec e) /\ ~ below_light_line (re_clad_l e) (2 * PI * f) (re_dgx e) (re_k e) G) /\
  (forall G, In G (rr_gu r) <-> In G (re_gvec e) /\ ~ below_light_line (re_clad_u e) (2 * PI * f) (re_dgx e) (re_k e) G) /\
  List.length (rr_lte r) = List.length (rr_gl r) /\ List.length (rr_ltm r) = List.length (rr_gl r) /\
  List.length (rr_ute r) = List.length (rr_gu r) /\ List.length (rr_utm r) = List.length (rr_gu r).
Proof.
  intros H. destruct (rad_one_channels dl e f v r H) as [A [B K]]. rewrite A, B in *.
  split; [intros G; apply channel_in|]. split; [intros G; apply channel_in|exact K].
Qed.

(** ** an example: one plane wave, the TE mode of the table ex_te *)
Definition ex_rad (k : R * R) : rad_env :=
  RadEnv [(2, 0)] k 0 [1; 12; 1] [1] (fun _ i j => RtoC (if Nat.eqb i j then 1 / 12 else 0)) 1 1
    (get_guided 1 (gk_len (gk_data [(2, 0)] k 0)) [1; 2] ex_te ex_tm [1; 12; 1]) [0%nat]
    [match get_guided 1 (gk_len (gk_data [(2, 0)] k 0)) [1; 2] ex_te ex_tm [1; 12; 1] 0 with Ok g => md_size g | Raise _ => 0%nat end].
Lemma ex_rad_consistent k : exists n, consistent (ex_rad k) n.
Proof.
  destruct (get_guided 1 (gk_len (gk_data [(2, 0)] k 0)) [1; 2] ex_te ex_tm [1; 12; 1] 0) as [g|x] eqn:E; [|discriminate E].
  exists (md_size g). exists [g]. unfold ex_rad. cbn [re_inc re_get re_numg]. rewrite E. split; [repeat constructor; exact E|].
  split; [reflexivity|]. cbn. lia.
Qed.
Lemma ex_rad_ok k f : exists n v r, fst v = n /\ rad_one 0 (ex_rad k) f v = Ok r.
Proof.
  destruct (ex_rad_consistent k) as [n H]. exists n, (n, fun _ => RtoC 1).
  destruct (rad_one_ok 0 (ex_rad k) f (n, fun _ => RtoC 1) H) as [r Hr]; [reflexivity|discriminate|].
  exists r. split; [reflexivity|exact Hr].
Qed.
Lemma ex_run_im f : exists n v im ub rss, fst v = n /\ run_im 0 1 [(ex_rad (0, 1), [f], [v])] = Ok (im, ub, rss).
Proof.
  destruct (ex_rad_ok (0, 1) f) as [n [v [r [Hn Hr]]]]. exists n, v.
  unfold run_im. cbn [mapM seq]. unfold compute_rad_sp, rad_components. cbn [existsb Nat.leb orb mapM nth_error].
  rewrite Hr. cbn [bind]. eexists; eexists; eexists. split; [exact Hn|reflexivity].
Qed.
Lemma ex_compute f : exists n v im rs, fst v = n /\ compute_rad 0 (ex_rad (0, 1)) 1 [f] [v] [0%nat] = Ok (im, rs).
Proof.
  destruct (ex_rad_ok (0, 1) f) as [n [v [r [Hn Hr]]]]. exists n, v.
  unfold compute_rad, rad_components. cbn [existsb Nat.leb orb mapM nth_error].
  rewrite Hr. cbn [bind]. eexists; eexists. split; [exact Hn|reflexivity].
Qed.
(** a channel exactly on the light line *)
Lemma C81_cx : exists dl e f v r G, rad_one dl e f v = Ok r /\ 0 < f /\ In G (rr_gl r) /\
  re_clad_l e * ((2 * PI * f) * (2 * PI * f)) - sq_len G (re_k e) (re_dgx e) = 0.
Proof.
  set (f := sqrt 5 / (2 * PI)). destruct (ex_rad_ok (0, 1) f) as [n [v [r [Hn Hr]]]].
  pose proof PI_RGT_0 as HP. pose proof (sqrt_sqrt 5 ltac:(lra)) as S5. pose proof (sqrt_lt_R0 5 ltac:(lra)) as P5.
  assert (E : 2 * PI * f = sqrt 5) by (unfold f; field; lra).
  exists 0, (ex_rad (0, 1)), f, v, r, (2, 0). split; [exact Hr|]. split; [unfold f; apply Rdiv_lt_0_compat; lra|].
  assert (Z : re_clad_l (ex_rad (0, 1)) * (2 * PI * f * (2 * PI * f)) - sq_len (2, 0) (re_k (ex_rad (0, 1))) (re_dgx (ex_rad (0, 1))) = 0).
  { rewrite E, S5. unfold sq_len. cbn [ex_rad re_clad_l re_k re_dgx fst snd]. ring. }
  split; [|exact Z]. destruct (C81_lem _ _ _ _ _ Hr) as [A _]. apply A. split; [left; reflexivity|].
  unfold below_light_line. lra.
Qed.
