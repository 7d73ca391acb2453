(** Phases of the modes; the examples. *)
From Coq Require Import Permutation List.
From Verif Require Import Py CBase LatticeModel PhcModel RecipModel MatElModel SymModel SymSpec FieldsModel RunModel RunSpec RunProofs RunProofs3 PweModel ExcModel PolSpec PolModel PolSpec2 PolProofs PolProofs2 PolProofs4 PolProofs5 PolProofs6.
Open Scope R_scope.
Open Scope list_scope.

Lemma similar n A B (ph : nat -> C) l v : (forall i, (i < n)%nat -> (Cconj (ph i) * ph i = RtoC 1)%C) ->
  (forall i j, (i < n)%nat -> (j < n)%nat -> B i j = (ph i * A i j * Cconj (ph j))%C) -> eigvec n A l v -> eigvec n B l (fun i => ph i * v i)%C.
Proof.
  intros HP HB [(i & Hi & Hv) He]. split.
  - exists i. split; auto. intros Z. apply Hv. transitivity (Cconj (ph i) * (ph i * v i))%C; [rewrite Cmult_assoc, HP by auto; ring|rewrite Z; ring].
  - intros k Hk. replace (l * (ph k * v k))%C with (ph k * (l * v k))%C by ring. rewrite <- He by auto. unfold mvec. rewrite <- csum_scal_l. apply csum_ext. intros j Hj.
    rewrite HB by auto. transitivity (ph k * (A k j * v j) * (Cconj (ph j) * ph j))%C; [ring|]. rewrite HP by auto. ring.
Qed.
Lemma similar_iff n A B (ph : nat -> C) l : (forall i, (i < n)%nat -> (Cconj (ph i) * ph i = RtoC 1)%C) ->
  (forall i j, (i < n)%nat -> (j < n)%nat -> B i j = (ph i * A i j * Cconj (ph j))%C) -> eigval n B l <-> eigval n A l.
Proof.
  intros HP HB. split; intros [v Hv].
  - exists (fun i => Cconj (ph i) * v i)%C. apply (similar n B A (fun i => Cconj (ph i)) l v); auto.
    + intros i Hi. rewrite Cconj_conj, Cmult_comm. apply HP. auto.
    + intros i j Hi Hj. rewrite HB, Cconj_conj by auto. transitivity ((Cconj (ph i) * ph i) * A i j * (Cconj (ph j) * ph j))%C; [|ring]. rewrite !HP by auto. ring.
  - exists (fun i => ph i * v i)%C. apply (similar n A B ph l v); auto.
Qed.
(** photon phases [th], equal up to a sign; exciton phases [fi] *)
Lemma hop_phase N K A c d e A' c' d' (th fi : nat -> C) l :
  (forall i, (i < N)%nat -> (Cconj (th i) * th i = RtoC 1)%C) -> (forall j, (j < K)%nat -> (Cconj (fi j) * fi j = RtoC 1)%C) ->
  (forall i j, (i < N)%nat -> (j < N)%nat -> A' i j = (th i * A i j * Cconj (th j))%C) ->
  (forall i j, (i < N)%nat -> (j < N)%nat -> d' i j = (th i * d i j * Cconj (th j))%C) ->
  (forall i j, (i < N)%nat -> (j < K)%nat -> c' i j = (th i * c i j * Cconj (fi j))%C) ->
  eigval (2 * (N + K)) (hopfield N K A' c' d' e) l <-> eigval (2 * (N + K)) (hopfield N K A c d e) l.
Proof.
  intros Ht Hf HA Hd Hc. apply (similar_iff _ _ _ (stack4 N K th fi th fi)).
  - intros i Hi. pattern i. revert i Hi. apply split4; intros i Hi; [rewrite !stack_0 by auto|rewrite !stack_1 by auto|rewrite !stack_2 by auto|rewrite !stack_3]; auto.
  - intros i j Hi Hj. unfold hopfield. cbv zeta. revert j Hj. pattern i. revert i Hi.
    apply split4; intros i Hi j Hj; pattern j; revert j Hj; apply split4; intros j Hj;
      repeat first [rewrite !stack_3 | rewrite !stack_2 by auto | rewrite !stack_1 by auto | rewrite !stack_0 by auto];
      rewrite ?HA, ?Hc, ?Hd by auto; rewrite ?Cconj_mult, ?Cconj_conj; try ring;
      destruct (Nat.eqb_spec i j) as [->|]; try ring; pose proof (Hf j Hj) as U;
      first [solve [transitivity (e j * (Cconj (fi j) * fi j))%C; [rewrite U; ring|ring]] | solve [transitivity (- e j * (Cconj (fi j) * fi j))%C; [rewrite U; ring|ring]]].
Qed.

Lemma mapM_rel {A B B'} (f : A -> result B) (f' : A -> result B') (Rl : A -> B -> B' -> Prop) l : forall ys, mapM f l = Ok ys -> (forall x y, In x l -> f x = Ok y -> exists y', f' x = Ok y' /\ Rl x y y') ->
  exists ys', mapM f' l = Ok ys' /\ forall i x y y', nth_error l i = Some x -> nth_error ys i = Some y -> nth_error ys' i = Some y' -> Rl x y y'.
Proof.
  induction l as [|x t IH]; intros ys E HR; cbn [mapM] in E; [injection E as <-; exists []; split; auto; intros [|i]; discriminate|].
  destruct (f x) as [y|] eqn:Ef; [|discriminate]. cbn [bind] in E. destruct (mapM f t) as [ys0|]; [|discriminate]. cbn [bind] in E. injection E as <-.
  destruct (HR x y (or_introl eq_refl) Ef) as (y' & Ey' & Hy'). destruct (IH ys0 eq_refl (fun x y I => HR x y (or_intror I))) as (ys' & E' & H').
  exists (y' :: ys'). cbn [mapM]. rewrite Ey'. cbn [bind]. rewrite E'. split; auto.
  intros [|i] a b b' H1 H2 H3; cbn [nth_error] in *; [congruence|eauto].
Qed.
Lemma nth_seq_error n i : (i < n)%nat -> nth_error (seq 0 n) i = Some i.
Proof. intros H. rewrite nth_error_nth' with (d := 0%nat) by (rewrite seq_length; lia). rewrite seq_nth by lia. reflexivity. Qed.
Lemma entry_phase a ng osc E W E' W' (th fi : C) : (forall g, fst (fst E') g = th * fst (fst E) g)%C -> (forall g, snd (fst E') g = th * snd (fst E) g)%C -> (forall g, snd E' g = th * snd E g)%C ->
  (forall g, W' g = fi * W g)%C -> C_entry a ng osc E' W' = (th * C_entry a ng osc E W * Cconj fi)%C.
Proof.
  destruct E as [[ex ey] ez]. destruct E' as [[ex' ey'] ez']. cbn [fst snd]. intros H1 H2 H3 H4. unfold C_entry.
  transitivity (pref a * (th * Cconj fi * csum ng (fun g => (RtoC (sqrt (nth 0 osc 0%R)) * ex g + RtoC (sqrt (nth 1 osc 0%R)) * ey g + RtoC (sqrt (nth 2 osc 0%R)) * ez g) * Cconj (W g))))%C; [|ring].
  f_equal. rewrite <- csum_scal_l. apply csum_ext. intros g Hg. rewrite H1, H2, H3, H4, Cconj_mult. ring.
Qed.
Lemma block_phase a p p' M s s' kind th fi rows : same_light kind th p p' -> same_well kind fi s s' -> C_block a p M s kind = Ok rows ->
  exists rows', C_block a p' M s' kind = Ok rows' /\ forall n nu, (n < ph_N p)%nat -> (nu < M)%nat -> mat_of rows' n nu = (th n * mat_of rows n nu * Cconj (fi nu))%C.
Proof.
  intros (L1 & L2 & L3 & L4) (W1 & W2 & W3 & W4 & W5) HB. unfold C_block in *. rewrite L1, W1, W2, W3.
  pose proof (mapM_ok_length _ _ _ HB) as Lr. rewrite seq_length in Lr.
  set (RL := fun (n : nat) (row row' : list C) => List.length row = M /\ List.length row' = M /\ forall nu, (nu < M)%nat -> nth nu row' (RtoC 0) = (th n * nth nu row (RtoC 0) * Cconj (fi nu))%C).
  destruct (mapM_rel _ (fun n => let* E := ph_E p' kind n (ex_z s) in
      mapM (fun nu => let* W := ft_wavef s' kind nu in let* osc := attr (ex_osc s) in Ok (C_entry a (List.length (rc_g (ex_rc s))) osc E W)) (seq 0 M)) RL _ _ HB) as (rows' & E' & HR).
  - intros n row _ E. destruct (ph_E p kind n (ex_z s)) as [Ef|] eqn:EE; [|discriminate]. cbn [bind] in E.
    destruct (L4 _ _ _ EE) as (Ef' & EE' & HE). rewrite EE'. cbn [bind]. pose proof (mapM_ok_length _ _ _ E) as Le. rewrite seq_length in Le.
    destruct (mapM_rel _ (fun nu => let* W := ft_wavef s' kind nu in let* osc := attr (ex_osc s) in Ok (C_entry a (List.length (rc_g (ex_rc s))) osc Ef' W))
      (fun nu x x' => x' = th n * x * Cconj (fi nu))%C _ _ E) as (row' & Er & HRr).
    + intros nu x _ Ex. destruct (ft_wavef s kind nu) as [W|] eqn:EW; [|discriminate]. cbn [bind] in Ex. destruct (W5 _ _ EW) as (W' & EW' & HW). rewrite EW'. cbn [bind].
      destruct (attr (ex_osc s)) as [osc|]; [|discriminate]. cbn [bind] in Ex |- *. injection Ex as <-. eexists. split; [reflexivity|].
      apply entry_phase; auto; intros g; apply HE.
    + exists row'. split; auto. pose proof (mapM_ok_length _ _ _ Er) as Le'. rewrite seq_length in Le'. split; auto. split; auto. intros nu Hnu.
      apply (HRr nu); [apply nth_seq_error; auto| |]; apply nth_error_nth'; lia.
  - exists rows'. split; auto. pose proof (mapM_ok_length _ _ _ E') as Lr'. rewrite seq_length in Lr'. intros n nu Hn Hnu. unfold mat_of.
    destruct (HR n n (nth n rows []) (nth n rows' [])) as (_ & _ & HX); [apply nth_seq_error; auto|apply nth_error_nth'; lia|apply nth_error_nth'; lia|]. auto.
Qed.
Lemma rel_combine {A B} (RR : A -> B -> Prop) l l' : Forall2 RR l l' -> forall i x, nth_error l i = Some x -> exists y, nth_error l' i = Some y /\ RR x y.
Proof. induction 1 as [|x y l l' H F IH]; intros [|i] z E; try discriminate; [injection E as <-; exists y; auto|]. apply IH. exact E. Qed.
Lemma last_nth {A} (d : A) l : last l d = nth (List.length l - 1) l d.
Proof. induction l as [|x [|y t] IH]; auto. change (last (x :: y :: t) d) with (last (y :: t) d). rewrite IH. cbn [List.length]. replace (S (S (List.length t)) - 1)%nat with (S (S (List.length t) - 1))%nat by lia. reflexivity. Qed.
Lemma construct_phase a p p' M ws ws' kind th fi H : (0 < M)%nat -> same_light kind th p p' ->
  List.length ws' = List.length ws -> (forall w s s', nth_error ws w = Some s -> nth_error ws' w = Some s' -> same_well kind (fi w) s s') ->
  (forall n1 n2, (n1 < ph_N p)%nat -> (n2 < ph_N p)%nat -> (Cconj (th n1) * th n2 = RtoC 1 \/ Cconj (th n1) * th n2 = RtoC (- 1))%C) -> (forall n, (n < ph_N p)%nat -> (Cconj (th n) * th n = RtoC 1)%C) ->
  (forall w nu, (Cconj (fi w nu) * fi w nu = RtoC 1)%C) ->
  construct a p M ws kind = Ok H -> exists H', construct a p' M ws' kind = Ok H' /\
  forall l, eigval (2 * (ph_N p + M * List.length ws)) H' l <-> eigval (2 * (ph_N p + M * List.length ws)) H l.
Proof.
  intros HM HLt Hlen HW Hpm Hth Hfi HC. pose proof HLt as (L1 & L2 & L3 & L4).
  destruct (construct_inv _ _ _ _ _ _ HC) as (f & fim & cds & ens & Ha & Gf & Gfi & Ec & Hne & Ee & EH). set (N := ph_N p) in *. set (Q := List.length ws) in *.
  (* energies *)
  assert (EE : forall w s s', nth_error ws w = Some s -> nth_error ws' w = Some s' -> eners_at s' kind = eners_at s kind).
  { intros w s s' E1 E2. destruct (HW w s s' E1 E2) as (_ & _ & _ & X & _). unfold eners_at. rewrite X. reflexivity. }
  assert (Ee' : mapM (fun s => eners_at s kind) ws' = Ok ens).
  { rewrite <- Ee. clear -Hlen EE. subst Q. revert ws' Hlen EE. induction ws as [|s t IH]; intros [|s' t'] Hl EE; try discriminate; auto. cbn [mapM]. rewrite (EE 0%nat s s' eq_refl eq_refl).
    rewrite (IH t'); auto; intros w x x' H1 H2; apply (EE (S w)); auto. }
  assert (EcD : exists cds', mapM (fun s => C_D a p' M s kind) ws' = Ok cds' /\ List.length cds' = List.length cds /\ forall w n, (w < Q)%nat -> (n < N)%nat ->
     (forall nu, (nu < M)%nat -> fst (nth w cds' (mzero, mzero)) n nu = (th n * fst (nth w cds (mzero, mzero)) n nu * Cconj (fi w nu))%C) /\
     (forall n2, (n2 < N)%nat -> snd (nth w cds' (mzero, mzero)) n n2 = (Cconj (th n) * th n2 * snd (nth w cds (mzero, mzero)) n n2)%C)).
  { clear -Ec Hlen HW HLt EE L1 Hfi HM. subst Q N. revert ws' fi cds Ec Hlen HW EE Hfi. induction ws as [|s t IH]; intros [|s' t'] fi cds Ec Hl HW EE Hfi; try discriminate.
    - cbn [mapM] in Ec. injection Ec as <-. exists []. split; auto. split; auto. intros w n Hw. simpl in Hw. lia.
    - cbn [mapM] in Ec. destruct (C_D a p M s kind) as [cd|] eqn:E0; [|discriminate]. cbn [bind] in Ec. destruct (mapM _ t) as [cds0|] eqn:E1; [|discriminate]. cbn [bind] in Ec. injection Ec as <-.
      destruct (IH t' (fun w => fi (S w)) cds0 eq_refl ltac:(simpl in Hl; lia) (fun w => HW (S w)) (fun w => EE (S w)) (fun w => Hfi (S w))) as (cds' & E' & Ll & HX).
      unfold C_D in E0. destruct (C_block a p M s kind) as [rows|] eqn:Er; [|discriminate]. cbn [bind] in E0. destruct (eners_at s kind) as [en|] eqn:En; [|discriminate]. cbn [bind] in E0. injection E0 as <-.
      destruct (block_phase a p p' M s s' kind th (fi 0%nat) rows HLt (HW 0%nat s s' eq_refl eq_refl) Er) as (rows' & Er' & HRr).
      exists ((mat_of rows', D_block M (mat_of rows') en) :: cds'). cbn [mapM]. unfold C_D at 1. rewrite Er'. cbn [bind]. rewrite (EE 0%nat s s' eq_refl eq_refl), En. cbn [bind]. rewrite E'. cbn [bind].
      split; auto. split; [simpl; lia|]. intros [|w] n Hw Hn; [|cbn [nth]; apply HX; auto; simpl in Hw; lia]. cbn [nth fst snd]. split.
      + intros nu Hnu. apply HRr; auto.
      + intros n2 Hn2. unfold D_block. rewrite <- csum_scal_l. apply csum_ext. intros nu Hnu. rewrite !HRr by auto. rewrite !Cconj_mult, Cconj_conj. unfold Cdiv.
        transitivity (Cconj (th n) * th n2 * (Cconj (mat_of rows n nu) * mat_of rows n2 nu * / RtoC (fst (nth nu en (RtoC 0)))) * (Cconj (fi 0%nat nu) * fi 0%nat nu))%C; [ring|]. rewrite Hfi. ring. }
  destruct EcD as (cds' & Ec' & Ll & HX).
  pose proof (mapM_ok_length _ _ _ Ec) as Lc. fold Q in Lc.
  assert (NE : cds' <> []) by (intros Z; subst cds'; apply Hne; apply length_zero_iff_nil; auto).
  set (H' := hopfield N (M * Q) (phot_block (conversion a) f fim (fold_left mplus (map snd cds') mzero)) (hcat M (map fst cds')) (last (map snd cds') mzero) (fun j => nth j (List.concat ens) (RtoC 0))).
  exists H'. split.
  { unfold construct, from_freq_to_e. cbn [negb andb]. rewrite (proj2 (Rleb_false a 0)) by lra. cbn [bind]. rewrite L2, L3, Gf, Gfi. cbn [bind]. rewrite Ec'. cbn [bind].
    destruct cds' as [|cd' cds']; [congruence|]. rewrite Ee'. cbn [bind]. rewrite L1, Hlen. reflexivity. }
  intros l. rewrite EH. unfold H'.
  assert (HQ : (0 < Q)%nat) by (rewrite <- Lc; destruct cds; [congruence|simpl; lia]).
  assert (Two : forall n1 n2, (n1 < N)%nat -> (n2 < N)%nat -> exists r : R, (Cconj (th n1) * th n2 = RtoC r)%C /\ (th n1 * Cconj (th n2) = RtoC r)%C).
  { intros n1 n2 H1 H2. destruct (Hpm n1 n2 H1 H2) as [E|E]; eexists; split; try exact E; rewrite <- (Cconj_conj (th n1)), <- Cconj_mult, E; apply Cconj_R. }
  apply (hop_phase N (M * Q) _ _ _ _ _ _ _ th (fun j => fi (j / M)%nat (j mod M)%nat)); auto.
  - intros i j Hi Hj. destruct (Two i j Hi Hj) as (r & R1 & R2). unfold phot_block. rewrite !fold_mplus, !map_length, Ll. unfold mzero at 1 3. rewrite !Cplus_0_l.
    rewrite (csum_ext _ _ (fun w => RtoC r * nth w (map snd cds) mzero i j)%C).
    + rewrite csum_scal_l. set (sm := csum _ _). rewrite Cmult_plus_distr_l, Cmult_plus_distr_r. f_equal.
      * destruct (Nat.eqb_spec i j) as [<-|]; [|ring]. pose proof (Hth i Hi) as U. match goal with |- ?q = _ => transitivity (q * (Cconj (th i) * th i))%C end; [rewrite U; ring|ring].
      * transitivity (RtoC (2 * fst sm) * (th i * Cconj (th j)))%C; [|ring]. rewrite R2, <- RtoC_mult. f_equal. cbn [fst snd Cmult RtoC]. ring.
    + intros w Hw. rewrite !(map_nth_lt snd _ (mzero, mzero)) by lia. rewrite (proj2 (HX w i ltac:(lia) Hi)) by auto. rewrite R1. reflexivity.
  - intros i j Hi Hj. destruct (Two i j Hi Hj) as (r & R1 & R2). rewrite !last_nth, !map_length, Ll, Lc. rewrite !(map_nth_lt snd _ (mzero, mzero)) by lia.
    rewrite (proj2 (HX (Q - 1)%nat i ltac:(lia) Hi)) by auto. rewrite R1, <- R2. ring.
  - intros i j Hi Hj. unfold hcat. assert (Hw : (j / M < Q)%nat) by (apply Nat.div_lt_upper_bound; lia). assert (Hnu : (j mod M < M)%nat) by (apply Nat.mod_upper_bound; lia).
    rewrite !(map_nth_lt fst _ (mzero, mzero)) by lia. apply (proj1 (HX (j / M)%nat i Hw Hi)). auto.
Qed.
