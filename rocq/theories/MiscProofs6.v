(** grad_num and vjp_maker_num on functions that are not affine: convergence as the
    step goes to zero, and error bounds. *)
From Coq Require Import List.
From Coquelicot Require Import Coquelicot.
From Verif Require Import Py CBase LatticeModel PhcModel ShapesModel RecipModel RadModel MiscModel MiscSpec MiscProofs MiscProofs2.
Open Scope R_scope.
Open Scope list_scope.

Lemma bump_plus i x l : (i < List.length l)%nat -> bump false i x l = entry_plus l i x.
Proof.
  revert i. induction l as [|y l IH]; intros [|i] H; cbn [List.length] in H; try lia; [reflexivity|].
  cbn [bump]. rewrite IH by lia. reflexivity.
Qed.
Lemma set_replaced {A} (l : list A) i x : (i < List.length l)%nat -> set_nth l i x = replaced l i x.
Proof. revert i. induction l as [|y l IH]; intros [|i] H; cbn [List.length] in H; try lia; [reflexivity|]. cbn [set_nth]. rewrite IH by lia. reflexivity. Qed.
Lemma replaced_same {A} (l : list A) i x : nth_error l i = Some x -> replaced l i x = l.
Proof. revert i. induction l as [|y l IH]; intros [|i] H; cbn in H; try discriminate; [injection H as ->; reflexivity|]. unfold replaced in *. cbn [firstn skipn app]. f_equal. apply IH. exact H. Qed.
Lemma plus_zero l i : (i < List.length l)%nat -> entry_plus l i 0 = l.
Proof. intros H. unfold entry_plus. rewrite Rplus_0_r. apply replaced_same. apply nth_error_nth'. exact H. Qed.
Lemma along_zero fn a i : nd_int a = false -> (i < List.length (nd_data a))%nat -> along fn a i 0 = fn a.
Proof. intros Hi H. unfold along. rewrite plus_zero by auto. rewrite <- Hi at 1. rewrite <- nd_eta. reflexivity. Qed.

(** a bound on the error of the difference quotient *)
Lemma quotient_error f w M d0 : (forall t, Rabs t <= d0 -> exists f', derivable_pt_lim f t f' /\ Rabs (f' - w) <= M * Rabs t) ->
  forall h, h <> 0 -> Rabs h <= d0 -> Rabs ((f h - f 0) / h - w) <= M * Rabs h.
Proof.
  intros H h Hh Hd.
  assert (DD : forall t, Rabs t <= d0 -> ex_derive f t).
  { intros t Ht. destruct (H t Ht) as (f' & D & _). exists f'. apply is_derive_Reals. exact D. }
  destruct (MVT_gen f 0 h (Derive f)) as (c & Hc & E).
  { intros x Hx. apply Derive_correct. apply DD. unfold Rmin, Rmax in Hx. destruct (Rle_dec 0 h); unfold Rabs in *; destruct (Rcase_abs h), (Rcase_abs x); lra. }
  { intros x Hx. apply continuity_pt_filterlim. apply (ex_derive_continuous f x). apply DD. unfold Rmin, Rmax in Hx. destruct (Rle_dec 0 h); unfold Rabs in *; destruct (Rcase_abs h), (Rcase_abs x); lra. }
  assert (Hc' : Rabs c <= Rabs h) by (unfold Rmin, Rmax in Hc; destruct (Rle_dec 0 h); unfold Rabs in *; destruct (Rcase_abs h), (Rcase_abs c); lra).
  rewrite E. replace (Derive f c * (h - 0) / h) with (Derive f c) by (field; exact Hh).
  destruct (H c ltac:(lra)) as (f' & D & B). apply is_derive_Reals in D. rewrite (is_derive_unique _ _ _ D).
  assert (0 <= M). { destruct (Rle_or_lt 0 M); auto. exfalso. pose proof (Rabs_pos (f' - w)). pose proof (Rabs_pos c). pose proof (Rabs_pos_lt h Hh).
    destruct (H h ltac:(lra)) as (f2 & _ & B2). pose proof (Rabs_pos (f2 - w)). nra. }
  apply Rle_trans with (1 := B). apply Rmult_le_compat_l; auto.
Qed.

Lemma grad_entry fn arg s sz h i : let a := hread h arg in let n := List.length (nd_data a) in (arg < List.length h)%nat -> step_sizes n s sz -> nd_int a = false ->
  exists h' g, grad_num fn arg s h = (h', Ok g) /\ nd_shape g = nd_shape a /\ List.length (nd_data g) = n /\ (forall r, (r < List.length h)%nat -> hread h' r = hread h r) /\
    ((i < n)%nat -> nth i (nd_data g) 0 = (along fn a i (sz i) - along fn a i 0) / sz i).
Proof.
  intros a n Ha Hs Hint. destruct (grad_num_spec fn arg s sz h Ha Hs) as (h' & E & K). fold a n in E.
  exists h', (Nd (nd_shape a) false (map (fun i => (fn (moved a i (sz i)) - fn a) / sz i) (seq 0 n))).
  split; [exact E|]. split; [reflexivity|]. cbn [nd_data]. split; [rewrite map_length, seq_length; reflexivity|]. split; [exact K|].
  intros Hi. rewrite nth_map_seq by exact Hi. rewrite (along_zero fn a i Hint Hi). f_equal. f_equal.
  unfold along, moved. rewrite Hint, bump_plus by exact Hi. reflexivity.
Qed.
(** C69: partial derivatives w; the gradient tends to w with the steps *)
Lemma grad_converges fn arg h w : let a := hread h arg in let n := List.length (nd_data a) in (arg < List.length h)%nat -> nd_int a = false ->
  (forall i, (i < n)%nat -> derivable_pt_lim (along fn a i) 0 (w i)) ->
  forall e, 0 < e -> exists d, 0 < d /\ forall s sz, step_sizes n s sz -> (forall i, (i < n)%nat -> sz i <> 0 /\ Rabs (sz i) < d) ->
    exists h' g, grad_num fn arg s h = (h', Ok g) /\ nd_shape g = nd_shape a /\ List.length (nd_data g) = n /\
      forall i, (i < n)%nat -> Rabs (nth i (nd_data g) 0 - w i) < e.
Proof.
  intros a n Ha Hint D e He.
  assert (U : forall m, (m <= n)%nat -> exists d, 0 < d /\ forall i, (i < m)%nat -> forall t, t <> 0 -> Rabs t < d -> Rabs ((along fn a i t - along fn a i 0) / t - w i) < e).
  { induction m as [|m IH]; intros Hm; [exists 1; split; [lra|intros; lia]|]. destruct (IH ltac:(lia)) as (d & Hd & H).
    destruct (D m ltac:(lia) e He) as (d' & H'). exists (Rmin d d'). split; [apply Rmin_pos; [auto|apply cond_pos]|]. intros i Hi t Ht Hb.
    destruct (Nat.eq_dec i m) as [->|Ne].
    - specialize (H' t Ht (Rlt_le_trans _ _ _ Hb (Rmin_r _ _))). rewrite Rplus_0_l in H'. exact H'.
    - apply H; [lia|auto|]. apply Rlt_le_trans with (1 := Hb). apply Rmin_l. }
  destruct (U n (le_n n)) as (d & Hd & H). exists d. split; [exact Hd|]. intros s sz Hs Hz.
  destruct (grad_num_spec fn arg s sz h Ha Hs) as (h' & E & _). fold a n in E. eexists h', _. split; [exact E|]. split; [reflexivity|]. cbn [nd_data].
  split; [rewrite map_length, seq_length; reflexivity|]. intros i Hi. rewrite nth_map_seq by exact Hi. destruct (Hz i Hi) as [Z1 Z2]. specialize (H i Hi (sz i) Z1 Z2).
  rewrite (along_zero fn a i Hint Hi) in H. unfold along in H. unfold moved. rewrite Hint, bump_plus by exact Hi. exact H.
Qed.
(** ... with an error bounded by the step where the derivative is Lipschitz *)
Lemma grad_error fn arg s sz h w M d0 : let a := hread h arg in let n := List.length (nd_data a) in (arg < List.length h)%nat -> step_sizes n s sz -> nd_int a = false ->
  (forall i, (i < n)%nat -> sz i <> 0 /\ Rabs (sz i) <= d0) ->
  (forall i t, (i < n)%nat -> Rabs t <= d0 -> exists f', derivable_pt_lim (along fn a i) t f' /\ Rabs (f' - w i) <= M * Rabs t) ->
  exists h' g, grad_num fn arg s h = (h', Ok g) /\ nd_shape g = nd_shape a /\ List.length (nd_data g) = n /\
    forall i, (i < n)%nat -> Rabs (nth i (nd_data g) 0 - w i) <= M * Rabs (sz i).
Proof.
  intros a n Ha Hs Hint Hz HD.
  destruct (grad_num_spec fn arg s sz h Ha Hs) as (h' & E & _). fold a n in E. eexists h', _. split; [exact E|]. split; [reflexivity|]. cbn [nd_data].
  split; [rewrite map_length, seq_length; reflexivity|]. intros i Hi. rewrite nth_map_seq by exact Hi. destruct (Hz i Hi) as [Z1 Z2].
  pose proof (quotient_error (along fn a i) (w i) M d0 (fun t Ht => HD i t Hi Ht) (sz i) Z1 Z2) as Q.
  rewrite (along_zero fn a i Hint Hi) in Q. unfold along in Q. unfold moved. rewrite Hint, bump_plus by exact Hi. exact Q.
Qed.

(** C98 *)
Lemma vjp_entries fn args ai step v a m : nth_error args ai = Some a -> nd_int a = false -> List.length v = m -> outputs fn args ai a m -> (0 < List.length (nd_data a))%nat ->
  exists g, vjp_num fn (fn args) args ai step v = Ok g /\ nd_shape g = [List.length (nd_data a)] /\ List.length (nd_data g) = List.length (nd_data a) /\
    forall i, (i < List.length (nd_data a))%nat -> nth i (nd_data g) 0 = sum_to m (fun o => nth o v 0 * ((along_out fn args ai a i o step - along_out fn args ai a i o 0) / step)).
Proof.
  intros Ea Hint Hv Ho Hn. unfold vjp_num, nth_or. rewrite Ea. cbn [bind]. set (n := List.length (nd_data a)) in *.
  assert (Hai : (ai < List.length args)%nat) by (apply nth_error_Some; congruence).
  assert (Z : forall i, (i < n)%nat -> replaced args ai (Nd (nd_shape a) false (entry_plus (nd_data a) i 0)) = args).
  { intros i Hi. rewrite plus_zero by exact Hi. rewrite <- Hint, <- nd_eta. apply replaced_same. exact Ea. }
  assert (Hm : List.length (fn args) = m) by (rewrite <- (Z 0%nat Hn); apply Ho).
  rewrite (mapM_map _ (fun i => sum_to m (fun o => nth o v 0 * ((along_out fn args ai a i o step - along_out fn args ai a i o 0) / step)))).
  - cbn [bind]. eexists. split; [reflexivity|]. split; [reflexivity|]. cbn [nd_data]. split; [rewrite map_length, seq_length; reflexivity|].
    intros i Hi. rewrite nth_map_seq by exact Hi. reflexivity.
  - intros i Hi. apply in_seq in Hi. assert (Hi' : (i < n)%nat) by lia.
    assert (Em : set_nth args ai (moved a i step) = replaced args ai (Nd (nd_shape a) false (entry_plus (nd_data a) i step))).
    { rewrite set_replaced by exact Hai. unfold moved. rewrite Hint, bump_plus by exact Hi'. reflexivity. }
    rewrite Em. pose proof (Ho i step) as L. rewrite L, Hm, Nat.eqb_refl. unfold vdot.
    rewrite map_length, combine_length, L, Hm, Nat.min_id, Hv, Nat.eqb_refl. f_equal. rewrite rsuml_combine by (rewrite map_length, combine_length, L, Hm, Nat.min_id; exact Hv).
    rewrite Hv. apply sum_to_ext. intros o Hoo. f_equal.
    rewrite (nth_map_of _ _ _ (0, 0)) by (rewrite combine_length, L, Hm, Nat.min_id; exact Hoo).
    rewrite combine_nth by (rewrite L, Hm; reflexivity). cbn [fst snd]. unfold along_out. rewrite (Z i Hi'). reflexivity.
Qed.
Lemma sum_lim n (f : nat -> R -> R) (l : nat -> R) : (forall o, (o < n)%nat -> forall e, 0 < e -> exists d, 0 < d /\ forall t, t <> 0 -> Rabs t < d -> Rabs (f o t - l o) < e) ->
  forall e, 0 < e -> exists d, 0 < d /\ forall t, t <> 0 -> Rabs t < d -> Rabs (sum_to n (fun o => f o t) - sum_to n l) < e.
Proof.
  induction n as [|n IH]; intros H e He.
  - exists 1. split; [lra|]. intros. rewrite !sum_to_0, Rminus_diag_eq, Rabs_R0 by auto. exact He.
  - destruct (IH ltac:(intros o Ho; apply H; lia) (e / 2) ltac:(lra)) as (d1 & H1 & K1). destruct (H n ltac:(lia) (e / 2) ltac:(lra)) as (d2 & H2 & K2).
    exists (Rmin d1 d2). split; [apply Rmin_pos; auto|]. intros t Ht Hd. rewrite !sum_to_S.
    specialize (K1 t Ht (Rlt_le_trans _ _ _ Hd (Rmin_l _ _))). specialize (K2 t Ht (Rlt_le_trans _ _ _ Hd (Rmin_r _ _))).
    replace (sum_to n (fun o => f o t) + f n t - (sum_to n l + l n)) with ((sum_to n (fun o => f o t) - sum_to n l) + (f n t - l n)) by ring.
    eapply Rle_lt_trans; [apply Rabs_triang|]. lra.
Qed.
Lemma vjp_converges fn args ai v a m J : nth_error args ai = Some a -> nd_int a = false -> List.length v = m -> outputs fn args ai a m -> (0 < List.length (nd_data a))%nat ->
  (forall i o, (i < List.length (nd_data a))%nat -> (o < m)%nat -> derivable_pt_lim (along_out fn args ai a i o) 0 (J o i)) ->
  forall e, 0 < e -> exists d, 0 < d /\ forall step, step <> 0 -> Rabs step < d ->
    exists g, vjp_num fn (fn args) args ai step v = Ok g /\ nd_shape g = [List.length (nd_data a)] /\ List.length (nd_data g) = List.length (nd_data a) /\
      forall i, (i < List.length (nd_data a))%nat -> Rabs (nth i (nd_data g) 0 - sum_to m (fun o => nth o v 0 * J o i)) < e.
Proof.
  intros Ea Hint Hv Ho Hn D e He.
  assert (One : forall i, (i < List.length (nd_data a))%nat -> exists d, 0 < d /\ forall t, t <> 0 -> Rabs t < d ->
     Rabs (sum_to m (fun o => nth o v 0 * ((along_out fn args ai a i o t - along_out fn args ai a i o 0) / t)) - sum_to m (fun o => nth o v 0 * J o i)) < e).
  { intros i Hi. apply (sum_lim m (fun o t => nth o v 0 * ((along_out fn args ai a i o t - along_out fn args ai a i o 0) / t)) (fun o => nth o v 0 * J o i)); auto.
    intros o Hoo e' He'. set (c := Rabs (nth o v 0) + 1). assert (Hc : 0 < c) by (unfold c; pose proof (Rabs_pos (nth o v 0)); lra).
    destruct (D i o Hi Hoo (e' / c) ltac:(apply Rdiv_lt_0_compat; auto)) as (d & H). exists d. split; [apply cond_pos|]. intros t Ht Hd. specialize (H t Ht Hd). rewrite Rplus_0_l in H.
    rewrite <- Rmult_minus_distr_l, Rabs_mult. apply Rle_lt_trans with (c * Rabs ((along_out fn args ai a i o t - along_out fn args ai a i o 0) / t - J o i)).
    - apply Rmult_le_compat_r; [apply Rabs_pos|unfold c; lra].
    - apply Rlt_le_trans with (c * (e' / c)); [apply Rmult_lt_compat_l; auto|]. right. field. lra. }
  assert (U : forall k, (k <= List.length (nd_data a))%nat -> exists d, 0 < d /\ forall i, (i < k)%nat -> forall t, t <> 0 -> Rabs t < d ->
     Rabs (sum_to m (fun o => nth o v 0 * ((along_out fn args ai a i o t - along_out fn args ai a i o 0) / t)) - sum_to m (fun o => nth o v 0 * J o i)) < e).
  { induction k as [|k IH]; intros Hk; [exists 1; split; [lra|intros; lia]|]. destruct (IH ltac:(lia)) as (d & Hd & H). destruct (One k ltac:(lia)) as (d' & Hd' & H').
    exists (Rmin d d'). split; [apply Rmin_pos; auto|]. intros i Hi t Ht Hb. destruct (Nat.eq_dec i k) as [->|Ne].
    - apply H'; auto. apply Rlt_le_trans with (1 := Hb). apply Rmin_r.
    - apply H; [lia|auto|]. apply Rlt_le_trans with (1 := Hb). apply Rmin_l. }
  destruct (U _ (le_n _)) as (d & Hd & H). exists d. split; [exact Hd|]. intros step Hs Hb.
  destruct (vjp_entries fn args ai step v a m Ea Hint Hv Ho Hn) as (g & E & S1 & L1 & G). exists g. split; [exact E|]. split; [exact S1|]. split; [exact L1|].
  intros i Hi. rewrite (G i Hi). apply H; auto.
Qed.
Lemma vjp_affine2 fn args ai step v a m J : nth_error args ai = Some a -> nd_int a = false -> step <> 0 -> List.length v = m -> outputs fn args ai a m -> (0 < List.length (nd_data a))%nat ->
  (forall i o t, (i < List.length (nd_data a))%nat -> (o < m)%nat -> along_out fn args ai a i o t = along_out fn args ai a i o 0 + J o i * t) ->
  exists g, vjp_num fn (fn args) args ai step v = Ok g /\ nd_shape g = [List.length (nd_data a)] /\ List.length (nd_data g) = List.length (nd_data a) /\
    forall i, (i < List.length (nd_data a))%nat -> nth i (nd_data g) 0 = sum_to m (fun o => nth o v 0 * J o i).
Proof.
  intros Ea Hint Hs Hv Ho Hn A. destruct (vjp_entries fn args ai step v a m Ea Hint Hv Ho Hn) as (g & E & S1 & L1 & G). exists g. split; [exact E|]. split; [exact S1|]. split; [exact L1|].
  intros i Hi. rewrite (G i Hi). apply sum_to_ext. intros o Hoo. rewrite (A i o step Hi Hoo). field. exact Hs.
Qed.

Lemma cube_case : let a := Nd [1%nat] false [1] in let fn := fun b => nth 0 (nd_data b) 0 * (nth 0 (nd_data b) 0 * nth 0 (nd_data b) 0) in
  forall i t, (i < 1)%nat -> Rabs t <= 1 -> exists f', derivable_pt_lim (along fn a i) t f' /\ Rabs (f' - 3) <= 9 * Rabs t.
Proof.
  cbv zeta. intros i t Hi Ht. assert (i = 0%nat) as -> by lia. exists (3 * ((1 + t) * (1 + t))). split.
  - unfold along, entry_plus, replaced. cbn [nd_data firstn skipn app nth nd_shape]. apply is_derive_Reals. auto_derive; [trivial|ring].
  - replace (3 * ((1 + t) * (1 + t)) - 3) with ((6 + 3 * t) * t) by ring. rewrite Rabs_mult. apply Rmult_le_compat_r; [apply Rabs_pos|].
    unfold Rabs in *. destruct (Rcase_abs t), (Rcase_abs (6 + 3 * t)); lra.
Qed.
Lemma product_case : let fn := fun l : list nd => let d := nd_data (nth 0 l (Nd [] false [])) in [nth 0 d 0 * nth 1 d 0] in let a := Nd [2%nat] false [3; 4] in
  outputs fn [a] 0 a 1 /\ forall i o, (i < 2)%nat -> (o < 1)%nat -> derivable_pt_lim (along_out fn [a] 0 a i o) 0 (if Nat.eqb i 0 then 4 else 3).
Proof.
  cbv zeta. split; [intros i t; reflexivity|]. intros i o Hi Ho. assert (o = 0%nat) as -> by lia. destruct i as [|[|i]]; [| |lia];
    unfold along_out, entry_plus, replaced; cbn [nd_data firstn skipn app nth nd_shape Nat.eqb]; apply is_derive_Reals; (auto_derive; [trivial|ring]).
Qed.
