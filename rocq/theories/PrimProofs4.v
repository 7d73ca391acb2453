(** The gradients of interp, eigh and eigsh. *)
From Verif Require Import Py CBase RecipModel PweProofs2 PrimSpec PrimModel PrimProofs PrimProofs3.
Open Scope R_scope.
Open Scope list_scope.

(** ** interp *)
Lemma incr_tail a l : increasing (a :: l) -> increasing l.
Proof. intros H i j Hij. apply (H (S i) (S j)). simpl. lia. Qed.
Lemma searchsorted_spec xp x : let k := searchsorted xp x in (k <= List.length xp)%nat /\
  (forall i, (i < k)%nat -> nth i xp 0 < x) /\ ((k < List.length xp)%nat -> x <= nth k xp 0).
Proof.
  induction xp as [|a xp IH]; cbn; [split; [lia|split; intros; lia]|].
  destruct (Rltb a x) eqn:E.
  - apply Rltb_true in E. destruct IH as (H1 & H2 & H3). split; [lia|]. split.
    + intros [|i] Hi; auto. apply H2. lia.
    + intros H. apply H3. lia.
  - apply Rltb_false in E. split; [lia|]. split; [intros; lia|]. auto.
Qed.
Lemma scan_at xp : forall yp x0 y0 x i, List.length xp = List.length yp -> increasing (x0 :: xp) -> (i <= List.length xp)%nat ->
  nth i (x0 :: xp) 0 <= x -> ((i < List.length xp)%nat -> x < nth i xp 0) ->
  interp_scan x0 y0 xp yp x = if Nat.ltb i (List.length xp)
    then Cplus (Cmult (Cdiv (Cminus (nth i yp (RtoC 0)) (nth i (y0 :: yp) (RtoC 0))) (RtoC (nth i xp 0 - nth i (x0 :: xp) 0))) (RtoC (x - nth i (x0 :: xp) 0))) (nth i (y0 :: yp) (RtoC 0))
    else nth i (y0 :: yp) (RtoC 0).
Proof.
  induction xp as [|a xp IH]; intros [|b yp] x0 y0 x i L H Hi H1 H2; simpl in L; try discriminate.
  - simpl in Hi. replace i with 0%nat by lia. reflexivity.
  - cbn [interp_scan]. destruct i as [|i].
    + pose proof (H2 ltac:(simpl; lia)) as H2'. cbn [nth] in *. destruct (Rleb a x) eqn:E; [apply Rleb_true in E; lra|]. reflexivity.
    + assert (a <= x).
      { destruct i as [|i]; cbn [nth] in H1; auto. eapply Rle_trans; [|exact H1]. left. apply (H 1%nat (S (S i))). simpl in *. lia. }
      rewrite (proj2 (Rleb_true a x)) by auto. rewrite (IH yp a b x i); auto; try (simpl in *; lia).
      * apply (incr_tail x0). auto.
      * intros Hlt. apply H2. simpl. lia.
Qed.
Lemma interp_at xp yp x i : List.length xp = List.length yp -> increasing xp -> (i < List.length xp)%nat ->
  nth i xp 0 <= x -> ((S i < List.length xp)%nat -> x < nth (S i) xp 0) ->
  interp1 xp yp x = if Nat.ltb (S i) (List.length xp)
    then Cplus (Cmult (Cdiv (Cminus (nth (S i) yp (RtoC 0)) (nth i yp (RtoC 0))) (RtoC (nth (S i) xp 0 - nth i xp 0))) (RtoC (x - nth i xp 0))) (nth i yp (RtoC 0))
    else nth i yp (RtoC 0).
Proof.
  destruct xp as [|a xp], yp as [|b yp]; intros L H Hi H1 H2; simpl in L, Hi; try lia. unfold interp1.
  destruct (Rltb x a) eqn:E.
  - apply Rltb_true in E. exfalso. destruct i as [|i]; cbn [nth] in H1; [lra|].
    pose proof (H 0%nat (S i) ltac:(simpl; lia)) as X. cbn [nth] in X. lra.
  - rewrite (scan_at xp yp a b x i); [reflexivity|lia|auto|lia|auto|]. intros. apply H2. simpl. lia.
Qed.
Lemma position_ok n i : (i < n)%nat -> position n (Z.of_nat i) = Ok i.
Proof.
  intros H. unfold position. destruct (Z.leb_spec 0 (Z.of_nat i)); [|lia]. destruct (Z.ltb_spec (Z.of_nat i) (Z.of_nat n)); [|lia].
  cbn [andb]. rewrite Nat2Z.id. auto.
Qed.
Lemma position_last n : (0 < n)%nat -> position n (-1) = Ok (n - 1)%nat.
Proof.
  intros H. unfold position. destruct (Z.leb_spec 0 (-1)); [lia|]. destruct (Z.leb_spec (- Z.of_nat n) (-1)); [|lia]. destruct (Z.ltb_spec (-1) 0); [|lia]. cbn [andb]. f_equal. lia.
Qed.
Lemma interp_row_from xp x i j a b : position (List.length xp) (Z.of_nat (searchsorted xp x) - 1) = Ok i ->
  position (List.length xp) (Z.of_nat (searchsorted xp x) - 1 + 1) = Ok j -> nth i xp 0 = a -> nth j xp 0 = b ->
  interp_row xp x = Ok (put (put (repeat 0 (List.length xp)) i (1 - (x - a) / (b - a))) j ((x - a) / (b - a))).
Proof.
  intros H1 H2 <- <-. unfold interp_row, getz, setz. rewrite H1, H2. cbn [bind]. rewrite repeat_length, H1. cbn [bind].
  rewrite put_length, repeat_length, H2. reflexivity.
Qed.
Lemma two_puts n i j u w (y : nat -> C) : (i < n)%nat -> (j < n)%nat -> i <> j ->
  csum n (fun k => Cmult (RtoC (nth k (put (put (repeat 0 n) i u) j w) 0)) (y k)) = Cplus (Cmult (RtoC u) (y i)) (Cmult (RtoC w) (y j)).
Proof.
  intros Hi Hj N.
  rewrite <- (csum_delta n i (Cmult (RtoC u) (y i))), <- (csum_delta n j (Cmult (RtoC w) (y j))) by auto. rewrite <- csum_plus.
  apply csum_ext. intros k Hk. rewrite !nth_put by (rewrite ?put_length, repeat_length; auto). rewrite nth_repeat'.
  destruct (Nat.eqb_spec k i), (Nat.eqb_spec k j); subst; try lia; ring.
Qed.
Lemma interp_row_ok xp x : increasing xp -> (2 <= List.length xp)%nat -> nth 0 xp 0 <= x <= nth (List.length xp - 1) xp 0 ->
  exists r, interp_row xp x = Ok r /\ List.length r = List.length xp /\ forall yp, List.length yp = List.length xp ->
    csum (List.length xp) (fun k => Cmult (RtoC (nth k r 0)) (nth k yp (RtoC 0))) = interp1 xp yp x.
Proof.
  intros H Hn (Hlo & Hhi). destruct (searchsorted_spec xp x) as (K1 & K2 & K3). set (k := searchsorted xp x) in *.
  set (n := List.length xp) in *.
  assert (Hk : (k < n)%nat).
  { destruct (Nat.eq_dec k n) as [E|]; [|lia]. pose proof (K2 (n - 1)%nat ltac:(lia)). lra. }
  specialize (K3 Hk). destruct k as [|j] eqn:Ek.
  - assert (x = nth 0 xp 0) by lra.
    assert (N : nth 0 xp 0 < nth (n - 1) xp 0) by (apply H; fold n; lia).
    eexists. split; [apply (interp_row_from xp x (n - 1) 0 (nth (n - 1) xp 0) (nth 0 xp 0)); auto|].
    { unfold k in Ek. rewrite Ek. apply position_last. fold n. lia. }
    { unfold k in Ek. rewrite Ek. apply (position_ok n 0). lia. }
    split; [rewrite !put_length, repeat_length; auto|]. intros yp L. fold n. rewrite two_puts by lia.
    rewrite (interp_at xp yp x 0); auto; fold n; try lia; try lra.
    2:{ intros. rewrite H0. apply H. fold n. lia. }
    destruct (Nat.ltb_spec 1 n); [|lia]. rewrite H0.
    replace (1 - (nth 0 xp 0 - nth (n - 1) xp 0) / (nth 0 xp 0 - nth (n - 1) xp 0)) with 0 by (field; lra).
    replace ((nth 0 xp 0 - nth (n - 1) xp 0) / (nth 0 xp 0 - nth (n - 1) xp 0)) with 1 by (field; lra).
    rewrite Rminus_eq_0. ring.
  - pose proof (K2 j ltac:(lia)) as Hj.
    assert (N : nth j xp 0 < nth (S j) xp 0) by (apply H; fold n; lia).
    eexists. split; [apply (interp_row_from xp x j (S j) (nth j xp 0) (nth (S j) xp 0)); auto|].
    { unfold k in Ek. rewrite Ek. replace (Z.of_nat (S j) - 1)%Z with (Z.of_nat j) by lia. apply position_ok. fold n. lia. }
    { unfold k in Ek. rewrite Ek. replace (Z.of_nat (S j) - 1 + 1)%Z with (Z.of_nat (S j)) by lia. apply position_ok. fold n. lia. }
    split; [rewrite !put_length, repeat_length; auto|]. intros yp L. fold n. rewrite two_puts by lia.
    assert (NZ : RtoC (nth (S j) xp 0 - nth j xp 0) <> RtoC 0) by (apply RtoC_neq0; lra).
    destruct (Rle_lt_or_eq_dec _ _ K3) as [Hlt|Heq].
    + rewrite (interp_at xp yp x j); auto; fold n; try lia; try lra.
      destruct (Nat.ltb_spec (S j) n); [|lia]. rewrite RtoC_minus, RtoC_div by lra. field. auto.
    + rewrite (interp_at xp yp x (S j)); auto; fold n; try lra.
      2:{ intros. rewrite Heq. apply H. fold n. lia. }
      replace ((x - nth j xp 0) / (nth (S j) xp 0 - nth j xp 0)) with 1 by (rewrite Heq; field; lra).
      destruct (Nat.ltb_spec (S (S j)) n).
      * rewrite Heq, !Rminus_eq_0. ring.
      * rewrite Rminus_eq_0. ring.
Qed.
Lemma interp_pair x xp g : increasing xp -> (2 <= List.length xp)%nat -> (forall q, In q x -> nth 0 xp 0 <= q <= nth (List.length xp - 1) xp 0) ->
  List.length g = List.length x ->
  exists w, vjp_interp x xp g = Ok w /\ List.length w = List.length xp /\
    forall yp, List.length yp = List.length xp -> exists z, interp x xp yp = Ok z /\
      pair1 (List.length xp) (entries w) (entries yp) = pair1 (List.length x) (entries g) (entries z).
Proof.
  intros H Hn Hx Lg.
  assert (R : exists rows, mapM (interp_row xp) x = Ok rows /\ List.length rows = List.length x /\
    forall i yp, (i < List.length x)%nat -> List.length yp = List.length xp ->
      csum (List.length xp) (fun k => Cmult (RtoC (nth k (nth i rows []) 0)) (nth k yp (RtoC 0))) = interp1 xp yp (nth i x 0)).
  { clear Lg. induction x as [|q x IH]; [exists []; split; [reflexivity|]; split; [auto|]; simpl; intros; lia|].
    destruct IH as (rows & E & L & F); [intros; apply Hx; right; auto|].
    destruct (interp_row_ok xp q H Hn) as (r & Er & _ & Fr); [apply Hx; left; auto|].
    exists (r :: rows). split; [cbn [mapM]; rewrite Er; cbn [bind]; rewrite E; reflexivity|]. split; [simpl; lia|].
    intros [|i] yp Hi Ly; cbn [nth]; [apply Fr; auto|]. apply F; auto. simpl in Hi. lia. }
  destruct R as (rows & E & L & F). unfold vjp_interp. rewrite E. cbn [bind]. rewrite Lg, Nat.eqb_refl. cbn [negb].
  eexists. split; [reflexivity|]. split; [rewrite map_length, seq_length; auto|].
  intros yp Ly. unfold interp. rewrite Ly, Nat.eqb_refl. destruct (Nat.eqb_spec (List.length xp) 0); [lia|]. cbn [orb negb].
  eexists. split; [reflexivity|]. unfold pair1. f_equal.
  transitivity (csum (List.length xp) (fun k => csum (List.length x) (fun i => Cmult (nth i g (RtoC 0)) (Cmult (RtoC (nth k (nth i rows []) 0)) (nth k yp (RtoC 0)))))).
  { apply csum_ext. intros k Hk. unfold entries at 1.
    set (h := fun k => csum (List.length x) (fun i => Cmult (nth i g (RtoC 0)) (RtoC (nth k (nth i rows []) 0)))).
    rewrite (nth_indep _ (RtoC 0) (h 0%nat)) by (rewrite map_length, seq_length; auto). rewrite (map_nth h), seq_nth by auto. unfold h. cbn [Nat.add].
    rewrite <- csum_scal_r. apply csum_ext. intros. unfold entries. ring. }
  rewrite csum_swap. apply csum_ext. intros i Hi. rewrite csum_scal_l, F by auto. unfold entries. f_equal.
  rewrite (nth_indep _ (RtoC 0) (interp1 xp yp 0)) by (rewrite map_length; auto). symmetry. apply (map_nth (interp1 xp yp)).
Qed.
Lemma interp_adjoint x xp g (yp : R -> list C) dyp : increasing xp -> (2 <= List.length xp)%nat ->
  (forall q, In q x -> nth 0 xp 0 <= q <= nth (List.length xp - 1) xp 0) -> List.length g = List.length x -> lcurve (List.length xp) yp dyp ->
  exists w Z, vjp_interp x xp g = Ok w /\ (forall s, interp x xp (yp s) = Ok (Z s)) /\
    derivable_pt_lim (fun s => pair1 (List.length x) (entries g) (entries (Z s))) 0 (pair1 (List.length xp) (entries w) (entries dyp)).
Proof.
  intros H Hn Hx Lg (L & Ld & C). destruct (interp_pair x xp g H Hn Hx Lg) as (w & Ew & Lw & F).
  exists w, (fun s => map (interp1 xp (yp s)) x). split; auto.
  assert (E : forall s, interp x xp (yp s) = Ok (map (interp1 xp (yp s)) x)).
  { intros s. unfold interp. rewrite L, Nat.eqb_refl. destruct (Nat.eqb_spec (List.length xp) 0); [lia|]. reflexivity. }
  split; auto. eapply dlim_ext; [|apply (pair1_curve _ (entries w) (fun s => entries (yp s)) (entries dyp) C)].
  intros s. destruct (F (yp s) (L s)) as (z & Ez & P). cbv beta. rewrite P. rewrite E in Ez. inversion Ez. reflexivity.
Qed.
(** a query above the last node makes the gradient fail *)
Lemma position_err n z e : position n z = Raise e -> e = IndexError.
Proof. unfold position. destruct (_ && _)%bool; [discriminate|]. destruct (_ && _)%bool; [discriminate|]. intros E; inversion E; auto. Qed.
Lemma interp_row_err xp q e : interp_row xp q = Raise e -> e = IndexError.
Proof.
  unfold interp_row, getz, setz. intros H.
  destruct (position (List.length xp) (Z.of_nat (searchsorted xp q) - 1)) as [i|x] eqn:E1; cbn [bind] in H; [|inversion H; subst; apply (position_err _ _ _ E1)].
  destruct (position (List.length xp) (Z.of_nat (searchsorted xp q) - 1 + 1)) as [j|x] eqn:E2; cbn [bind] in H; [|inversion H; subst; apply (position_err _ _ _ E2)].
  rewrite repeat_length, E1 in H. cbn [bind] in H. rewrite put_length, repeat_length, E2 in H. discriminate.
Qed.
Lemma interp_above x xp g q : In q x -> (forall a, In a xp -> a < q) -> vjp_interp x xp g = Raise IndexError.
Proof.
  intros I A. unfold vjp_interp.
  assert (S : searchsorted xp q = List.length xp).
  { clear - A. induction xp as [|a xp IH]; auto. cbn. rewrite (proj2 (Rltb_true a q)) by (apply A; left; auto). rewrite IH; auto. intros; apply A; right; auto. }
  assert (E : forall r, interp_row xp q <> Ok r).
  { intros r. unfold interp_row. rewrite S. unfold getz. destruct (position _ (Z.of_nat (List.length xp) - 1)) as [i|e]; [|discriminate]. cbn [bind].
    unfold position at 1. destruct (Z.ltb_spec (Z.of_nat (List.length xp) - 1 + 1) (Z.of_nat (List.length xp))); [lia|].
    destruct (Z.ltb_spec (Z.of_nat (List.length xp) - 1 + 1) 0); [lia|]. rewrite !andb_false_r. discriminate. }
  assert (M : mapM (interp_row xp) x = Raise IndexError).
  { clear S A. induction x as [|b x IH]; [destruct I|]. cbn [mapM]. destruct (interp_row xp b) as [r|e] eqn:Eb.
    - cbn [bind]. destruct I as [->|I]; [exfalso; apply (E r); auto|]. rewrite IH by auto. reflexivity.
    - cbn [bind]. f_equal. apply (interp_row_err _ _ _ Eb). }
  rewrite M. reflexivity.
Qed.
