(** Proofs about the small parts: switches, progress bar, scattering matrices,
    getters. *)
From Verif Require Import Py CBase LatticeModel PhcModel ShapesModel RecipModel PolModel MiscModel MiscSpec.
Open Scope R_scope.
Open Scope list_scope.

(** ** Switches *)
Lemma set_backend_switches ag : switches (named_backend ag) (set_backend ag).
Proof.
  intros cur n. unfold named_backend, set_backend. destruct (string_dec n "numpy") as [->|H1]; [reflexivity|].
  rewrite (proj2 (String.eqb_neq n "numpy") H1). destruct (string_dec n "autograd") as [->|H2].
  - destruct ag; reflexivity.
  - rewrite (proj2 (String.eqb_neq n "autograd") H2). reflexivity.
Qed.
Lemma set_print_switches rich : switches (named_print rich) (set_print_backend rich).
Proof.
  intros cur n. unfold named_print, set_print_backend. destruct (string_dec n "base") as [->|H1]; [reflexivity|].
  rewrite (proj2 (String.eqb_neq n "base") H1). destruct (string_dec n "rich") as [->|H2].
  - destruct rich; reflexivity.
  - rewrite (proj2 (String.eqb_neq n "rich") H2). reflexivity.
Qed.
Lemma switch_history {B} (named : string -> option B) f init l : switches named f -> last_choice named init l (calls f init l).
Proof.
  intros Hs. revert init. induction l as [|n l IH]; intros init; [right; split; [constructor|reflexivity]|].
  unfold calls. cbn [fold_left]. fold (calls f (fst (f init n)) l). pose proof (Hs init n) as Hn.
  destruct (named n) as [b|] eqn:E; rewrite Hn; cbn [fst].
  - destruct (IH b) as [(l1 & m & l2 & H1 & H2 & H3)|[H1 H2]].
    + left. exists (n :: l1), m, l2. rewrite H1 at 1. auto.
    + left. exists [], n, l. rewrite H2. auto.
  - destruct (IH init) as [(l1 & m & l2 & H1 & H2 & H3)|[H1 H2]].
    + left. exists (n :: l1), m, l2. rewrite H1 at 1. auto.
    + right. split; [constructor; auto|exact H2].
Qed.

(** ** Progress bar *)
Lemma np_int_nonneg x : 0 <= x -> IZR (np_int x) <= x < IZR (np_int x) + 1 /\ (0 <= np_int x)%Z.
Proof.
  intros H. unfold np_int. rewrite (proj2 (Rleb_true 0 x) H). destruct (base_Int_part x) as [H1 H2]. split; [lra|].
  assert (-1 < Int_part x)%Z by (apply lt_IZR; lra). lia.
Qed.
Lemma np_int_le x y : 0 <= x -> x <= y -> (np_int x <= np_int y)%Z.
Proof.
  intros H0 H. destruct (np_int_nonneg x H0) as [[A B] _]. destruct (np_int_nonneg y ltac:(lra)) as [[C D] _].
  assert (np_int x < np_int y + 1)%Z by (apply lt_IZR; rewrite plus_IZR; lra). lia.
Qed.
Lemma np_int_Z z : (0 <= z)%Z -> np_int (IZR z) = z.
Proof.
  intros H. destruct (np_int_nonneg (IZR z)) as [[A B] _]; [apply IZR_le in H; exact H|].
  rewrite <- plus_IZR in B. apply le_IZR in A. apply lt_IZR in B. lia.
Qed.
Lemma count_rep_same c n : count_occ Z.eq_dec (List.repeat c n) c = n.
Proof. induction n as [|n IH]; cbn [List.repeat]; [reflexivity|]. rewrite count_occ_cons_eq by reflexivity. rewrite IH. reflexivity. Qed.
Lemma count_rep_other c d n : c <> d -> count_occ Z.eq_dec (List.repeat c n) d = 0%nat.
Proof. intros H. induction n as [|n IH]; cbn [List.repeat]; [reflexivity|]. rewrite count_occ_cons_neq by exact H. exact IH. Qed.
Lemma bar_shape rnd perc precision : let f := np_int (rnd (rnd (perc / 100) * IZR precision)) in
  blocks (load_bar rnd perc precision) = Z.to_nat f /\ dashes (load_bar rnd perc precision) = Z.to_nat (precision - f) /\
  List.length (load_bar rnd perc precision) = (Z.to_nat f + Z.to_nat (precision - f) + 2)%nat.
Proof.
  intros f. unfold load_bar, blocks, dashes, rep, full_block, dash. fold f. split; [|split].
  - rewrite !count_occ_app, count_rep_same, count_rep_other by discriminate. cbn. lia.
  - rewrite !count_occ_app, count_rep_same, count_rep_other by discriminate. cbn. lia.
  - rewrite !app_length, !repeat_length. cbn. lia.
Qed.
Lemma bar_range rnd perc p : (0 <= p)%Z -> rounding rnd [0%Z; 1%Z; p] -> 0 <= perc <= 100 ->
  0 <= rnd (rnd (perc / 100) * IZR p) <= IZR p /\ (0 <= np_int (rnd (Rmult (rnd (Rdiv perc 100)) (IZR p))) <= p)%Z.
Proof.
  intros Hp [Hm He] Hc. apply IZR_le in Hp.
  assert (A : 0 <= rnd (perc / 100) <= 1).
  { rewrite <- (He 0%Z), <- (He 1%Z) by (cbn; tauto). split; apply Hm; lra. }
  assert (B : 0 <= rnd (rnd (perc / 100) * IZR p) <= IZR p).
  { rewrite <- (He 0%Z) at 1 by (cbn; tauto). rewrite <- (He p) at 3 by (cbn; tauto). split; apply Hm; [apply Rmult_le_pos; lra|].
    rewrite <- (Rmult_1_l (IZR p)) at 2. apply Rmult_le_compat_r; lra. }
  split; [exact B|]. destruct (np_int_nonneg _ (proj1 B)) as [[C _] D]. split; [exact D|]. apply le_IZR. lra.
Qed.
Lemma bar_width rnd perc p : (0 <= p)%Z -> rounding rnd [0%Z; 1%Z; p] -> 0 <= perc <= 100 ->
  List.length (load_bar rnd perc p) = (Z.to_nat p + 2)%nat /\ (blocks (load_bar rnd perc p) + dashes (load_bar rnd perc p) = Z.to_nat p)%nat.
Proof.
  intros Hp Hr Hc. destruct (bar_range rnd perc p Hp Hr Hc) as [_ H]. destruct (bar_shape rnd perc p) as (A & B & C).
  rewrite A, B, C. lia.
Qed.
Lemma bar_monotone rnd q perc p : (0 <= p)%Z -> rounding rnd [0%Z; 1%Z; p] -> 0 <= q -> q <= perc -> perc <= 100 ->
  (blocks (load_bar rnd q p) <= blocks (load_bar rnd perc p))%nat.
Proof.
  intros Hp Hr H0 Hq Hc. destruct (bar_range rnd q p Hp Hr ltac:(lra)) as [A _].
  rewrite (proj1 (bar_shape rnd q p)), (proj1 (bar_shape rnd perc p)). apply Z2Nat.inj_le.
  - exact (proj2 (np_int_nonneg _ (proj1 A))).
  - destruct (bar_range rnd perc p Hp Hr ltac:(lra)) as [_ B]. lia.
  - apply np_int_le; [lra|]. destruct Hr as [Hm _]. apply Hm. apply Rmult_le_compat_r; [apply IZR_le in Hp; exact Hp|]. apply Hm. lra.
Qed.
Lemma bar_ends rnd p : (0 <= p)%Z -> rounding rnd [0%Z; 1%Z; p] -> blocks (load_bar rnd 0 p) = 0%nat /\ blocks (load_bar rnd 100 p) = Z.to_nat p.
Proof.
  intros Hp [Hm He]. rewrite (proj1 (bar_shape rnd 0 p)), (proj1 (bar_shape rnd 100 p)).
  replace (0 / 100) with 0 by field. replace (100 / 100) with 1 by field.
  rewrite (He 0%Z), (He 1%Z) by (cbn; tauto). rewrite Rmult_0_l, Rmult_1_l, (He 0%Z), (He p) by (cbn; tauto).
  rewrite !np_int_Z by lia. split; reflexivity.
Qed.
Lemma prog_range rnd ik n : rounding rnd [0%Z; 1%Z; 30%Z; 100%Z] -> (ik < n)%nat -> 0 <= rnd (rnd (INR (ik + 1) / INR n) * 100) <= 100.
Proof.
  intros [Hm He] H. assert (N : 0 < INR n) by (apply lt_0_INR; lia).
  assert (A : 0 <= rnd (INR (ik + 1) / INR n) <= 1).
  { rewrite <- (He 0%Z), <- (He 1%Z) by (cbn; tauto). split; apply Hm.
    - apply Rmult_le_pos; [apply pos_INR|]. left. apply Rinv_0_lt_compat. exact N.
    - apply Rmult_le_reg_r with (INR n); [exact N|]. unfold Rdiv. rewrite Rmult_assoc, Rinv_l by lra. rewrite Rmult_1_r, Rmult_1_l. apply le_INR. lia. }
  rewrite <- (He 0%Z) at 1 by (cbn; tauto). rewrite <- (He 100%Z) at 3 by (cbn; tauto). split; apply Hm; lra.
Qed.
Lemma prog_bar_spec rnd n : rounding rnd [0%Z; 1%Z; 30%Z; 100%Z] ->
  (forall ik, (ik < n)%nat -> List.length (prog_bar rnd ik n) = 32%nat) /\
  (forall i j, (i <= j < n)%nat -> (blocks (prog_bar rnd i n) <= blocks (prog_bar rnd j n))%nat) /\
  ((0 < n)%nat -> blocks (prog_bar rnd (n - 1) n) = 30%nat).
Proof.
  intros Hr. assert (Hr' : rounding rnd [0%Z; 1%Z; 30%Z]) by (destruct Hr as [A B]; split; [exact A|intros z Hz; apply B; cbn in Hz |- *; tauto]).
  split; [|split].
  - intros ik H. exact (proj1 (bar_width rnd _ 30 ltac:(lia) Hr' (prog_range rnd ik n Hr H))).
  - intros i j H. apply bar_monotone; [lia|exact Hr'|apply prog_range; [exact Hr|lia]| |apply prog_range; [exact Hr|lia]].
    destruct Hr as [Hm _]. apply Hm. apply Rmult_le_compat_r; [lra|]. apply Hm. apply Rmult_le_compat_r.
    + left. apply Rinv_0_lt_compat. apply lt_0_INR. lia.
    + apply le_INR. lia.
  - intros H. unfold prog_bar. replace (n - 1 + 1)%nat with n by lia. assert (0 < INR n) by (apply lt_0_INR; exact H).
    replace (INR n / INR n) with 1 by (field; lra). destruct Hr as [Hm He]. rewrite (He 1%Z), Rmult_1_l, (He 100%Z) by (cbn; tauto).
    exact (proj2 (bar_ends rnd 30 ltac:(lia) Hr')).
Qed.

(** ** Unit conversion *)
Lemma conv_negative num a : a < 0 -> from_freq_to_e num a = Raise ValueError.
Proof.
  intros H. unfold from_freq_to_e. assert (E : Reqb a 0 = false) by (unfold Reqb; destruct (Req_EM_T a 0); [lra|reflexivity]).
  rewrite E, andb_false_r, (proj2 (Rleb_true a 0)) by lra. reflexivity.
Qed.
Lemma conv_numpy_zero : from_freq_to_e true 0 = Raise ValueError.
Proof. unfold from_freq_to_e. cbn [negb andb]. rewrite (proj2 (Rleb_true 0 0)) by lra. reflexivity. Qed.
Lemma conv_python_zero : from_freq_to_e false 0 = Raise ZeroDivisionError.
Proof. unfold from_freq_to_e. assert (E : Reqb 0 0 = true) by (unfold Reqb; destruct (Req_EM_T 0 0); [reflexivity|lra]). rewrite E. reflexivity. Qed.
Lemma conv_positive : exists c, 0 < c /\ forall num a, 0 < a -> exists w, from_freq_to_e num a = Ok (c / a, w) /\ (w = true <-> a < 5e-8 \/ 5e-6 < a).
Proof.
  exists (h_eV_Hz * c_light). split; [unfold h_eV_Hz, c_light; lra|]. intros num a H. unfold from_freq_to_e.
  assert (E : Reqb a 0 = false) by (unfold Reqb; destruct (Req_EM_T a 0); [lra|reflexivity]).
  rewrite E, andb_false_r, (proj2 (Rleb_false a 0)) by lra. eexists. split; [reflexivity|].
  rewrite orb_true_iff, !Rltb_true. reflexivity.
Qed.

(** ** Scattering matrices *)
Lemma star_series A B : det1 A B <> RtoC 0 -> forall il ir ol or', scatters (star A B) il ir ol or' <-> in_series A B il ir ol or'.
Proof.
  unfold det1. intros H il ir ol or'. assert (H' : (RtoC 1 - A 1%nat 1%nat * B 0%nat 0%nat)%C <> RtoC 0) by (intros E; apply H; rewrite <- E; cring).
  unfold scatters, in_series, star. split.
  - intros [E1 E2].
    exists ((B 0%nat 0%nat * A 1%nat 0%nat * il + B 0%nat 1%nat * ir) / (RtoC 1 - B 0%nat 0%nat * A 1%nat 1%nat))%C,
           ((A 1%nat 0%nat * il + A 1%nat 1%nat * B 0%nat 1%nat * ir) / (RtoC 1 - B 0%nat 0%nat * A 1%nat 1%nat))%C.
    subst. split; split; field; auto.
  - intros (p & q & (E1 & E2) & (E3 & E4)).
    assert (Q : (q * (RtoC 1 - B 0%nat 0%nat * A 1%nat 1%nat) = A 1%nat 0%nat * il + A 1%nat 1%nat * B 0%nat 1%nat * ir)%C).
    { rewrite E3 in E2. replace (q * (RtoC 1 - B 0%nat 0%nat * A 1%nat 1%nat))%C with (q - A 1%nat 1%nat * (B 0%nat 0%nat * q))%C by ring. rewrite E2 at 1. ring. }
    assert (Q' : q = ((A 1%nat 0%nat * il + A 1%nat 1%nat * B 0%nat 1%nat * ir) / (RtoC 1 - B 0%nat 0%nat * A 1%nat 1%nat))%C) by (rewrite <- Q; field; exact H).
    clear Q E2. subst or' ol p q. split; field; auto.
Qed.
Lemma scatters_same S T : (forall il ir ol or', scatters S il ir ol or' <-> scatters T il ir ol or') -> same2 S T.
Proof.
  intros H i j Hi Hj.
  assert (H1 : scatters T (RtoC 1) (RtoC 0) (S 0%nat 0%nat) (S 1%nat 0%nat)) by (apply H; unfold scatters; split; ring).
  assert (H2 : scatters T (RtoC 0) (RtoC 1) (S 0%nat 1%nat) (S 1%nat 1%nat)) by (apply H; unfold scatters; split; ring).
  unfold scatters in H1, H2. destruct H1 as [A B], H2 as [C D].
  destruct i as [|[|i]]; [| |lia]; (destruct j as [|[|j]]; [| |lia]); [rewrite A|rewrite C|rewrite B|rewrite D]; ring.
Qed.
(** Associativity, from the meaning of the product *)
Lemma series3 A B D M il ir ol or' : (forall a b c d, scatters M a b c d <-> in_series A B a b c d) ->
  (in_series M D il ir ol or' <-> exists p q r s, scatters A il p ol q /\ scatters B q r p s /\ scatters D s ir r or').
Proof.
  intros H. split.
  - intros (r & s & H1 & H2). apply H in H1. destruct H1 as (p & q & H3 & H4). exists p, q, r, s. auto.
  - intros (p & q & r & s & H1 & H2 & H3). exists r, s. split; [apply H; exists p, q; auto|exact H3].
Qed.
Lemma series3' A B D M il ir ol or' : (forall a b c d, scatters M a b c d <-> in_series B D a b c d) ->
  (in_series A M il ir ol or' <-> exists p q r s, scatters A il p ol q /\ scatters B q r p s /\ scatters D s ir r or').
Proof.
  intros H. split.
  - intros (p & q & H1 & H2). apply H in H2. destruct H2 as (r & s & H3 & H4). exists p, q, r, s. auto.
  - intros (p & q & r & s & H1 & H2 & H3). exists p, q. split; [exact H1|apply H; exists r, s; auto].
Qed.
Lemma star_assoc A B D : det1 A B <> RtoC 0 -> det1 B D <> RtoC 0 -> det1 (star A B) D <> RtoC 0 -> det1 A (star B D) <> RtoC 0 ->
  same2 (star (star A B) D) (star A (star B D)).
Proof.
  intros H1 H2 H3 H4. apply scatters_same. intros. rewrite (star_series (star A B) D H3), (star_series A (star B D) H4).
  rewrite (series3 A B D (star A B)) by (apply star_series; exact H1). rewrite (series3' A B D (star B D)) by (apply star_series; exact H2). reflexivity.
Qed.
(** the last two denominators vanish together *)
Lemma star_dets A B D : det1 A B <> RtoC 0 -> det1 B D <> RtoC 0 -> (det1 (star A B) D * det1 A B = det1 A (star B D) * det1 B D)%C.
Proof.
  unfold det1, star. intros H1 H2. assert (H1' : (RtoC 1 - A 1%nat 1%nat * B 0%nat 0%nat)%C <> RtoC 0) by (intros E; apply H1; rewrite <- E; cring).
  assert (H2' : (RtoC 1 - B 1%nat 1%nat * D 0%nat 0%nat)%C <> RtoC 0) by (intros E; apply H2; rewrite <- E; cring).
  field. auto.
Qed.
Lemma Cmult_neq0 (a b : C) : a <> RtoC 0 -> b <> RtoC 0 -> (a * b)%C <> RtoC 0.
Proof. intros Ha Hb E. apply Hb. replace b with (/ a * (a * b))%C by (field; exact Ha). rewrite E. ring. Qed.
Lemma star_assoc3 A B D : det1 A B <> RtoC 0 -> det1 B D <> RtoC 0 -> det1 (star A B) D <> RtoC 0 -> same2 (star (star A B) D) (star A (star B D)).
Proof.
  intros H1 H2 H3. apply star_assoc; auto. intros E. apply (Cmult_neq0 _ _ H3 H1). rewrite (star_dets A B D H1 H2), E. ring.
Qed.
Lemma star_identity A : det1 A empty_space <> RtoC 0 /\ det1 empty_space A <> RtoC 0 /\ same2 (star A empty_space) A /\ same2 (star empty_space A) A.
Proof.
  assert (N : RtoC 1 <> RtoC 0) by (intros E; inversion E; lra). unfold det1, empty_space. cbn [Nat.eqb].
  split; [intros E; apply N; rewrite <- E; ring|]. split; [intros E; apply N; rewrite <- E; ring|].
  split; intros i j Hi Hj; unfold star; destruct i as [|[|i]]; [| |lia| | |lia]; (destruct j as [|[|j]]; [| |lia]); cbn [Nat.eqb];
    replace (RtoC 1 - A 1%nat 1%nat * RtoC 0)%C with (RtoC 1) by ring; replace (RtoC 1 - RtoC 0 * A 1%nat 1%nat)%C with (RtoC 1) by ring;
    replace (RtoC 1 - A 0%nat 0%nat * RtoC 0)%C with (RtoC 1) by ring; replace (RtoC 1 - RtoC 0 * A 0%nat 0%nat)%C with (RtoC 1) by ring; field; exact N.
Qed.
Lemma redheffer_ok a b : match a, b with SArray A, SArray B => redheffer a b = Ok (star A B) | _, _ => redheffer a b = Raise AssertionError end.
Proof. destruct a, b; reflexivity. Qed.

(** ** Getters *)
Lemma not_none_reads s (o : string -> option pyval) n : (forall a, o a <> Some VNone) -> fst (getattr s o n) = o.
Proof.
  intros H. unfold getattr. destruct (find _ _) as [[x a]|]; [|reflexivity]. destruct (o a) as [v|] eqn:E; [|reflexivity].
  destruct v; try reflexivity. exfalso. exact (H a E).
Qed.
Lemma setattrs_not_none l : Forall (fun p => snd p <> VNone) l -> forall o, (forall a, o a <> Some VNone) -> forall a : string, setattrs o l a <> Some VNone.
Proof.
  induction 1 as [|p l Hp Hl IH]; intros o Ho; [exact Ho|]. unfold setattrs. cbn [fold_left]. apply IH. intros a. unfold setattr.
  destruct (String.eqb a (fst p)); [|apply Ho]. intros E. injection E as E. exact (Hp E).
Qed.
Lemma new_not_none s a : new_solver s a <> Some VNone.
Proof. apply setattrs_not_none; [|intros; discriminate]. destruct s; repeat constructor; discriminate. Qed.
Lemma run_not_none s im o : (forall a, o a <> Some VNone) -> forall a, setattrs o (run_attrs s im) a <> Some VNone.
Proof. apply setattrs_not_none. destruct s, im; repeat constructor; discriminate. Qed.
Lemma uses_not_none s l : forall a, uses s l a <> Some VNone.
Proof.
  unfold uses. assert (G : forall o, (forall a, o a <> Some VNone) -> forall a, fold_left (use_step s) l o a <> Some VNone); [|apply G; apply new_not_none].
  induction l as [|u l IH]; intros o Ho; [exact Ho|]. cbn [fold_left]. apply IH. destruct u as [n|im]; cbn [use_step].
  - rewrite not_none_reads by exact Ho. exact Ho.
  - apply run_not_none. exact Ho.
Qed.
Lemma reads_keep s l : only_reads l -> uses s l = new_solver s.
Proof.
  intros H. unfold uses. assert (G : forall o, (forall a, o a <> Some VNone) -> fold_left (use_step s) l o = o); [|apply G; apply new_not_none].
  induction H as [|u l Hu Hl IH]; intros o Ho; [reflexivity|]. cbn [fold_left]. destruct u as [n|im]; [|contradiction]. cbn [use_step].
  rewrite not_none_reads by exact Ho. apply IH. exact Ho.
Qed.
(** what a fresh solver answers, for every result attribute *)
Lemma before_run s l name : only_reads l -> result_attr s name ->
  match s with
  | Gme => if string_dec name "kz_symms" then snd (getattr s (uses s l) name) = Raise AttributeError
           else exists v, snd (getattr s (uses s l) name) = Ok v /\ is_empty v
  | _ => snd (getattr s (uses s l) name) = Raise AttributeError
  end.
Proof.
  intros Hl [Hg Hn]. rewrite (reads_keep s l Hl). destruct s; cbn in Hn; repeat (destruct Hn as [<-|Hn]; [try reflexivity; try (exfalso; apply Hg; reflexivity); try (eexists; split; [reflexivity|unfold is_empty; tauto])|]); contradiction.
Qed.
(** once a run has succeeded *)
Definition inv (s : solver) (o : string -> option pyval) : Prop :=
  (forall a, o a <> Some VNone) /\ (forall a, In a (map fst (init_attrs s)) -> exists v, o a = Some v) /\ (s <> Pol -> o "_gvec"%string = Some VComputed).
Lemma setattrs_some l : forall (o : string -> option pyval) a, (exists v, o a = Some v) -> exists v, setattrs o l a = Some v.
Proof.
  induction l as [|q l IH]; intros o a H; [exact H|]. unfold setattrs. cbn [fold_left]. apply IH. unfold setattr.
  destruct (String.eqb a (fst q)); [eexists; reflexivity|exact H].
Qed.
Lemma setattrs_computed l : Forall (fun p => snd p = VComputed) l -> forall (o : string -> option pyval) a,
  o a = Some VComputed \/ In a (map fst l) -> setattrs o l a = Some VComputed.
Proof.
  induction 1 as [|q l Hq Hl IH]; intros o a H; [destruct H as [H|[]]; exact H|]. unfold setattrs. cbn [fold_left]. apply IH. unfold setattr.
  destruct (String.eqb a (fst q)) eqn:E; [left; rewrite Hq; reflexivity|]. destruct H as [H|[H|H]]; [left; exact H| |right; exact H].
  exfalso. rewrite H, String.eqb_refl in E. discriminate.
Qed.
Lemma run_computed s im : Forall (fun p => snd p = VComputed) (run_attrs s im).
Proof. destruct s, im; repeat constructor. Qed.
Lemma inv_uses s l : inv s (uses s l).
Proof.
  unfold uses. assert (G : forall o, inv s o -> inv s (fold_left (use_step s) l o)).
  { induction l as [|u l IH]; intros o Ho; [exact Ho|]. cbn [fold_left]. apply IH. destruct Ho as (H1 & H2 & H3). destruct u as [n|im]; cbn [use_step].
    - rewrite not_none_reads by exact H1. repeat split; assumption.
    - split; [apply run_not_none; exact H1|]. split; [intros a Ha; apply setattrs_some; auto|]. intros Hs. apply setattrs_computed; [apply run_computed|left; auto]. }
  apply G. split; [apply new_not_none|]. split.
  - intros a Ha. destruct s; cbn in Ha; repeat (destruct Ha as [<-|Ha]; [eexists; reflexivity|]); contradiction.
  - intros Hs. destruct s; reflexivity || contradiction.
Qed.
Lemma getattr_some s o name a v : find (fun p => String.eqb (fst p) name) (getters s) = Some (name, a) -> o a = Some v -> v <> VNone -> snd (getattr s o name) = Ok v.
Proof. intros F E N. unfold getattr. rewrite F, E. destruct v; [contradiction| | |]; reflexivity. Qed.
Lemma after_run s l1 im l2 name : only_reads l2 -> In name (map fst (getters s)) ->
  exists v, snd (getattr s (uses s (l1 ++ Run im :: l2)) name) = Ok v /\
  (v = VComputed \/ s = Gme /\ In name ["freqs_im"; "unbalance_sp"; "rad_coup"; "rad_gvec"]%string /\ im = false).
Proof.
  intros H2 Hn. unfold uses. rewrite fold_left_app. cbn [fold_left use_step]. fold (uses s l1). pose proof (inv_uses s l1) as I.
  set (o0 := uses s l1) in *. clearbody o0.
  assert (E : fold_left (use_step s) l2 (setattrs o0 (run_attrs s im)) = setattrs o0 (run_attrs s im)).
  { assert (Ho : forall a, setattrs o0 (run_attrs s im) a <> Some VNone) by (apply run_not_none; apply I). set (o := setattrs o0 (run_attrs s im)) in *. clearbody o.
    induction H2 as [|u l Hu Hl IH]; [reflexivity|]. cbn [fold_left]. destruct u as [n|i]; [|contradiction]. cbn [use_step]. rewrite not_none_reads by exact Ho. exact IH. }
  rewrite E. clear E H2. destruct I as (I1 & I2 & I3).
  assert (K : forall a, In a (map fst (run_attrs s im)) \/ (s <> Pol /\ a = "_gvec"%string) -> setattrs o0 (run_attrs s im) a = Some VComputed).
  { intros a Ha. apply setattrs_computed; [apply run_computed|]. destruct Ha as [Ha|[Hs ->]]; [right; exact Ha|left; auto]. }
  assert (Q : forall a, In a (map fst (init_attrs s)) -> exists v, setattrs o0 (run_attrs s im) a = Some v /\ v <> VNone).
  { intros a Ha. destruct (setattrs_some (run_attrs s im) o0 a (I2 a Ha)) as [v Hv]. exists v. split; [exact Hv|]. intros ->. exact (run_not_none s im o0 I1 a Hv). }
  set (o := setattrs o0 (run_attrs s im)) in *. clearbody o. clear I1 I2 I3 o0 l1.
  assert (D : exists a, find (fun p => String.eqb (fst p) name) (getters s) = Some (name, a) /\
     (In a (map fst (run_attrs s im)) \/ s <> Pol /\ a = "_gvec"%string \/ (In a (map fst (init_attrs s)) /\ s = Gme /\ In name ["freqs_im"; "unbalance_sp"; "rad_coup"; "rad_gvec"]%string /\ im = false))).
  { destruct s; cbn in Hn; repeat (destruct Hn as [<-|Hn]; [eexists; split; [reflexivity|]|]); try contradiction;
      first [left; destruct im; cbn; tauto | right; left; split; [discriminate|reflexivity] | destruct im; [left; cbn; tauto|right; right; split; [cbn; tauto|split; [reflexivity|split; [cbn; tauto|reflexivity]]]]]. }
  destruct D as (a & F & [D|[D|(D1 & D2)]]).
  - exists VComputed. split; [|left; reflexivity]. apply (getattr_some s o name a); [exact F|apply K; auto|discriminate].
  - exists VComputed. split; [|left; reflexivity]. apply (getattr_some s o name a); [exact F|apply K; auto|discriminate].
  - destruct (Q a D1) as (v & E & N). exists v. split; [|right; exact D2]. apply (getattr_some s o name a); assumption.
Qed.
