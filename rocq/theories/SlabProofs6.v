(** Guided window, the loop over g, and normalised modes (C33, C35). *)
From Verif Require Import Py CBase ShapesSpec CInt SlabModel SlabSpec SlabProofs SlabProofs2 SlabProofs3 SlabProofs4 SlabProofs5.
Open Scope string_scope.
Open Scope list_scope.
Open Scope R_scope.

Lemma rmaxl_spec l m : rmaxl l = Ok m -> In m l /\ forall x, In x l -> x <= m.
Proof.
  destruct l as [|x t]; [discriminate|]. cbn [rmaxl]. intros E. injection E as <-.
  induction t as [|y t [IH1 IH2]]; cbn [fold_right].
  - split; [left; auto|]. intros z [<-|[]]. lra.
  - split.
    + destruct (Rle_dec y (fold_right Rmax x t)) as [H|H].
      * rewrite Rmax_right by auto. destruct IH1; [left; auto|right; right; auto].
      * rewrite Rmax_left by lra. right; left; auto.
    + intros z [<-|[<-|Hz]].
      * eapply Rle_trans; [apply (IH2 x); left; auto|apply Rmax_r].
      * apply Rmax_l.
      * eapply Rle_trans; [apply (IH2 z); right; auto|apply Rmax_r].
Qed.
Lemma rmaxl_ok l : l <> [] -> exists m, rmaxl l = Ok m.
Proof. destruct l; [congruence|]. intros _. eexists; reflexivity. Qed.

Lemma inner_ends' {A} (x y : A) l : inner (x :: l ++ [y]) = l.
Proof. unfold inner. cbn [tl]. apply removelast_last. Qed.
Lemma last_ends {A} (x y d : A) l : last (x :: l ++ [y]) d = y.
Proof. rewrite app_comm_cons. apply last_last. Qed.

Lemma window_lower g m tol w : 0 < g -> 0 < m -> 0 < tol -> g / sqrt m * (1 + tol) < w -> 0 < w /\ g * g < m * (w * w).
Proof.
  intros Hg Hm Ht Hw. assert (S : 0 < sqrt m) by (apply sqrt_lt_R0; auto).
  assert (L : 0 < g / sqrt m) by (apply Rdiv_lt_0_compat; auto).
  assert (W : g / sqrt m < w).
  { eapply Rle_lt_trans; [|exact Hw]. rewrite <- (Rmult_1_r (g / sqrt m)) at 1. apply Rmult_le_compat_l; lra. }
  split; [lra|]. assert (G : g < w * sqrt m).
  { apply (Rmult_lt_compat_r (sqrt m)) in W; auto. replace (g / sqrt m * sqrt m) with g in W by (field; lra). auto. }
  replace (m * (w * w)) with ((w * sqrt m) * (w * sqrt m)).
  - apply Rmult_le_0_lt_compat; lra.
  - rewrite <- (sqrt_sqrt m) at 3 by lra. ring.
Qed.
Lemma window_upper g m tol w : 0 < g -> 0 < m -> 0 < tol < 1 -> 0 < w -> w < g / sqrt m * (1 - tol) -> m * (w * w) < g * g.
Proof.
  intros Hg Hm Ht Hw0 Hw. assert (S : 0 < sqrt m) by (apply sqrt_lt_R0; auto).
  assert (L : 0 < g / sqrt m) by (apply Rdiv_lt_0_compat; auto).
  assert (W : w < g / sqrt m).
  { eapply Rlt_le_trans; [exact Hw|]. rewrite <- (Rmult_1_r (g / sqrt m)) at 2. apply Rmult_le_compat_l; lra. }
  assert (G : w * sqrt m < g).
  { apply (Rmult_lt_compat_r (sqrt m)) in W; auto. replace (g / sqrt m * sqrt m) with g in W by (field; lra). auto. }
  replace (m * (w * w)) with ((w * sqrt m) * (w * sqrt m)).
  - assert (0 < w * sqrt m) by (apply Rmult_lt_0_compat; auto). apply Rmult_le_0_lt_compat; lra.
  - rewrite <- (sqrt_sqrt m) at 3 by lra. ring.
Qed.
Lemma window_empty g m1 m2 tol : 0 < g -> 0 < m1 -> m1 <= m2 -> 0 < tol < 1 ->
  g / sqrt m2 * (1 - tol) <= g / sqrt m1 * (1 + tol).
Proof.
  intros Hg H1 H2 Ht.
  assert (S1 : 0 < sqrt m1) by (apply sqrt_lt_R0; auto). assert (S2 : sqrt m1 <= sqrt m2) by (apply sqrt_le_1_alt; auto).
  assert (Q : g / sqrt m2 <= g / sqrt m1).
  { unfold Rdiv. apply Rmult_le_compat_l; [lra|]. apply Rinv_le_contravar; auto. }
  assert (0 < g / sqrt m2) by (apply Rdiv_lt_0_compat; lra).
  apply Rle_trans with (g / sqrt m2 * 1).
  - apply Rmult_le_compat_l; lra.
  - apply Rle_trans with (g / sqrt m1 * 1); [lra|]. apply Rmult_le_compat_l; lra.
Qed.

(** window of a stack e0, ei, el *)
Definition top (e0 el : R) : R := Rmax e0 el.
Lemma top_pos e0 el : 0 < e0 -> 0 < top e0 el.
Proof. intros. unfold top. eapply Rlt_le_trans; [eassumption|apply Rmax_l]. Qed.
Lemma top_ge e0 el w g : 0 < w -> top e0 el * (w * w) < g -> e0 * (w * w) < g /\ el * (w * w) < g.
Proof.
  intros Hw H. assert (P : 0 < w * w) by (apply Rmult_lt_0_compat; auto). unfold top in H.
  split; (eapply Rle_lt_trans; [|exact H]); apply Rmult_le_compat_r; try lra; [apply Rmax_l|apply Rmax_r].
Qed.

Lemma len_eps (e0 el : R) (ei ds : list R) : List.length ds = List.length ei ->
  (List.length ds + 2 = List.length (e0 :: ei ++ [el]))%nat.
Proof. intros H. simpl. rewrite app_length. simpl. lia. Qed.
Lemma ds_ne (ei ds : list R) : List.length ds = List.length ei -> ei <> [] -> ds <> [].
Proof. intros H Hne E. subst. destruct ei; [congruence|discriminate]. Qed.

Section Given.
Variables (root : (R -> R) -> R -> R -> R) (te : bool) (g e0 el : R) (ei ds : list R) (n : nat) (step tol : R).
Let pol := (if te then "TE" else "TM").
Let eps := e0 :: ei ++ [el].
Let D := D22real pol g eps ds.
Hypothesis Hroot : finds_roots root D.
Hypothesis Hlen : List.length ds = List.length ei.
Hypothesis Hne : ei <> [].
Hypothesis Hpos : Forall (fun e => 0 < e) eps.
Hypothesis Hg : 0 < g.
Hypothesis Hs : 0 < step.
Hypothesis Ht : 0 < tol < 1.

Let len_eps := len_eps e0 el ei ds Hlen.
Let ds_ne := ds_ne ei ds Hlen Hne.
Lemma pos_e0 : 0 < e0. Proof. inversion Hpos; auto. Qed.
Lemma pos_el : 0 < el.
Proof. rewrite Forall_forall in Hpos. apply Hpos. unfold eps. right. apply in_or_app. right. left. auto. Qed.
Lemma pos_ei e : In e ei -> 0 < e.
Proof. intros H. rewrite Forall_forall in Hpos. apply Hpos. unfold eps. right. apply in_or_app. auto. Qed.

(** what every search below the top of the window gives *)
Definition in_window (w : R) : Prop :=
  0 < w /\ (exists e, In e ei /\ g * g < e * (w * w)) /\ e0 * (w * w) < g * g /\ el * (w * w) < g * g.

Lemma search_window m ub oms : In m ei -> (forall x, In x ei -> x <= m) -> ub <= g / sqrt (top e0 el) ->
  search_spec D (g / sqrt m * (1 + tol)) (ub * (1 - tol)) step n oms ->
  (forall w, In w oms -> in_window w) /\ ((forall e, In e ei -> e <= top e0 el) -> oms = []).
Proof.
  intros M1 M2 Hub [S1 [S2 [S3 [S4 S5]]]].
  assert (Pm : 0 < m) by (apply pos_ei; auto). pose proof (top_pos e0 el pos_e0) as Pt.
  assert (U : ub * (1 - tol) <= g / sqrt (top e0 el) * (1 - tol)) by (apply Rmult_le_compat_r; lra).
  split.
  - intros w Hw. destruct (S3 w Hw) as [[W1 W2] _].
    destruct (window_lower g m tol w Hg Pm ltac:(lra) W1) as [W0 W3].
    assert (W4 : top e0 el * (w * w) < g * g) by (apply (window_upper g _ tol w); auto; lra).
    destruct (top_ge e0 el w (g * g) W0 W4). split; auto. split; eauto.
  - intros He. apply S4. eapply Rle_trans; [exact U|].
    apply window_empty; auto.
Qed.

Lemma root_D22 w : D w = 0 -> exists z, D22 pol w g eps ds = Ok z /\ fst z = 0.
Proof.
  intros H. destruct (D22real_ok te g eps ds len_eps w) as [z [E1 E2]]. exists z. split; auto. rewrite E2. exact H.
Qed.

Lemma default_bounds : exists m, In m ei /\ (forall x, In x ei -> x <= m) /\
  guided_mode_given_g root pol g eps ds n None None step tol =
  guided_mode_given_g root pol g eps ds n (Some (g / sqrt m)) (Some (g / sqrt (top e0 el))) step tol.
Proof.
  destruct (rmaxl_ok ei Hne) as [m Em]. destruct (rmaxl_spec ei m Em) as [M1 M2].
  exists m. split; auto. split; auto. unfold guided_mode_given_g.
  unfold eps at 1. rewrite inner_ends', Em. cbn [bind].
  assert (E : Rmax (hd 0 eps) (last eps 0) = top e0 el).
  { unfold eps. rewrite last_ends. reflexivity. }
  rewrite E. reflexivity.
Qed.

Lemma given_g_window : exists m oms cs, In m ei /\ (forall x, In x ei -> x <= m) /\
  guided_mode_given_g root pol g eps ds n None None step tol = Ok (oms, cs) /\
  List.length cs = List.length oms /\
  search_spec D (g / sqrt m * (1 + tol)) (g / sqrt (Rmax e0 el) * (1 - tol)) step n oms /\
  (forall w, In w oms -> in_window w) /\ ((forall e, In e ei -> e <= Rmax e0 el) -> oms = []).
Proof.
  destruct default_bounds as [m [M1 [M2 E]]]. rewrite E.
  destruct (given_g_ok root te g eps ds n len_eps ds_ne (g / sqrt m) (g / sqrt (top e0 el)) step tol) as [cs [E1 L]].
  fold pol in E1. exists m. eexists; exists cs. split; auto. split; auto. split; [exact E1|].
  destruct (given_g_search root te g eps ds n len_eps ds_ne _ _ step tol _ _ Hroot Hs E1) as [Sp _].
  split; auto. split; [exact Sp|].
  apply (search_window m (g / sqrt (top e0 el))); auto. lra.
Qed.
End Given.

(** ** a root in the window makes the complex guided condition vanish *)
Lemma root_complex (te : bool) g e0 el ei ds w : List.length ds = List.length ei -> ei <> [] ->
  Forall (fun e => 0 < e) (e0 :: ei ++ [el]) -> 0 < w ->
  (List.length ei = 1%nat -> Forall (fun e => g * g < e * (w * w)) ei) ->
  e0 * (w * w) < g * g -> el * (w * w) < g * g -> Forall (fun e => chi w g e <> RtoC 0) ei ->
  D22real (if te then "TE" else "TM") g (e0 :: ei ++ [el]) ds w = 0 ->
  D22 (if te then "TE" else "TM") w g (e0 :: ei ++ [el]) ds = Ok (RtoC 0).
Proof.
  intros Hl Hne HP Hw H1 W0 Wl HC HD.
  set (pol := if te then "TE" else "TM") in *.
  assert (Hp : is_te pol || is_tm pol = true) by (unfold pol; destruct te; reflexivity).
  assert (Hlen : (List.length ds + 2 = List.length (e0 :: ei ++ [el]))%nat) by (simpl; rewrite app_length; simpl; lia).
  assert (P0 : 0 < e0) by (inversion HP; auto).
  assert (HI : Forall (fun e => 0 < e) (ei ++ [el])) by (inversion HP; auto).
  assert (HR : regular w g (ei ++ [el])).
  { apply Forall_forall. intros e He. rewrite Forall_forall in HI, HC. specialize (HI e He). split; [lra|].
    apply in_app_or in He. destruct He as [He|[<-|[]]]; [apply HC; auto|]. apply evan_neq0, chi_evan; auto. }
  destruct (D22_nlayer_real pol w g e0 (ei ++ [el]) ds Hp) as [z [E1 E2]]; auto.
  { rewrite app_length; simpl; lia. }
  { destruct ei; discriminate. }
  { lra. }
  { rewrite last_last. auto. }
  unfold D22real in HD.
  destruct ei as [|e1 [|e2 t]]; [congruence| |].
  - destruct ds as [|d [|]]; try discriminate. simpl app in *. 
    specialize (H1 eq_refl). inversion H1; subst.
    assert (P1 : 0 < e1) by (inversion HI; auto). assert (Pl : 0 < el) by (inversion HI as [|? ? ? X]; inversion X; auto).
    destruct (three_layer pol w g e0 e1 el d Hp P0 P1 Pl W0 Wl H2) as [a [b [k [Ea [Eb [Hk Eab]]]]]].
    change (D22 pol w g [e0; e1; el] [d]) with (D22_3layer pol w g e0 e1 el [d]) in *. rewrite Ea in HD |- *.
    rewrite Eb in E1. injection E1 as ->.
    (* the closed form is real as well *)
    assert (Ra : is_real a).
    { unfold D22_3layer in Ea. rewrite chis3 in Ea by auto.
      set (c2 := chi w g e1) in *.
      assert (R2 : (c2^* = c2)%C) by (unfold c2; rewrite chi_ge by lra; apply Cconj_R).
      assert (I0 : ((chi w g e0)^* = - chi w g e0)%C) by (apply kind_imag; apply chi_evan; auto).
      assert (I3 : ((chi w g el)^* = - chi w g el)%C) by (apply kind_imag; apply chi_evan; auto).
      assert (RC : is_real (ccos (c2 * RtoC d)%C)).
      { unfold is_real, ccos. autorewrite with cconj. rewrite !cexp_conj. autorewrite with cconj. rewrite R2.
        replace (- Ci * (c2 * RtoC d))%C with (- (Ci * (c2 * RtoC d)))%C by ring.
        replace (- - (Ci * (c2 * RtoC d)))%C with (Ci * (c2 * RtoC d))%C by ring. f_equal. ring. }
      assert (RS : is_real (csin (c2 * RtoC d)%C)).
      { unfold is_real, csin. autorewrite with cconj. rewrite !cexp_conj. autorewrite with cconj. rewrite R2.
        replace (- Ci * (c2 * RtoC d))%C with (- (Ci * (c2 * RtoC d)))%C by ring.
        replace (- - (Ci * (c2 * RtoC d)))%C with (Ci * (c2 * RtoC d))%C by ring.
        replace (RtoC 2 * - Ci)%C with (- (RtoC 2 * Ci))%C by ring. unfold Cdiv. rewrite Cinv_opp. ring. }
      unfold is_real in RC, RS. unfold pol in Ea.
      destruct te; [replace (is_te "TE") with true in Ea by reflexivity|replace (is_te "TM") with false in Ea by reflexivity; replace (is_tm "TM") with true in Ea by reflexivity];
        injection Ea as <-; unfold is_real; autorewrite with cconj; rewrite RC, RS, R2, I0, I3; unfold Cdiv; ring. }
    f_equal. apply Ceq; [exact HD|]. apply is_real_iff in Ra. exact Ra.
  - change (D22 pol w g (e0 :: (e1 :: e2 :: t) ++ [el]) ds) with
      (match t ++ [el] with [] => D22_3layer pol w g e0 e1 e2 ds | _ => D22_nlayer pol w g (e0 :: (e1 :: e2 :: t) ++ [el]) ds end) in *.
    assert (X : match t ++ [el] with [] => D22_3layer pol w g e0 e1 e2 ds | _ => D22_nlayer pol w g (e0 :: (e1 :: e2 :: t) ++ [el]) ds end
      = D22_nlayer pol w g (e0 :: (e1 :: e2 :: t) ++ [el]) ds) by (destruct t; reflexivity).
    rewrite X in *. rewrite E1 in HD |- *. f_equal. apply Ceq; [exact HD|]. apply is_real_iff in E2. exact E2.
Qed.
