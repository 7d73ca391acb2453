(** Two guided-mode runs whose inverse permittivities differ by phases. *)
From Coq Require Import Permutation List.
From Verif Require Import Py CBase LatticeModel PhcModel RecipModel SlabModel MatElModel SymModel RadModel RunModel RunSpec RunProofs RunProofs2 RunProofs5 PweProofs2 InvSpec InvProofs InvProofs3 GinvSpec.
Open Scope R_scope.
Open Scope list_scope.

(** ** arrays *)
Section Arrays.
Variable u : nat -> C.
Definition ph (w : list nat) (i : nat) : C := u (nth i w 0%nat).
Definition arel (wr wc : list nat) (a b : arr2) : Prop := nr a = List.length wr /\ nr b = List.length wr /\ nc a = List.length wc /\ nc b = List.length wc /\
  forall i j, (i < List.length wr)%nat -> (j < List.length wc)%nat -> ent b i j = (ph wr i * ent a i j * Cconj (ph wc j))%C.
Lemma ph_l w v i : (i < List.length w)%nat -> ph (w ++ v) i = ph w i.
Proof. intros H. unfold ph. rewrite app_nth1; auto. Qed.
Lemma ph_r w v i : (List.length w <= i)%nat -> ph (w ++ v) i = ph v (i - List.length w).
Proof. intros H. unfold ph. rewrite app_nth2; auto. Qed.
Lemma hcat_rel w v1 v2 a a' b b' : arel w v1 a a' -> arel w v2 b b' -> exists c c', hcat a b = Ok c /\ hcat a' b' = Ok c' /\ arel w (v1 ++ v2) c c'.
Proof.
  intros (A1 & A2 & A3 & A4 & A5) (B1 & B2 & B3 & B4 & B5). unfold hcat. rewrite A1, A2, B1, B2, Nat.eqb_refl. do 2 eexists. split; [reflexivity|]. split; [reflexivity|].
  unfold arel. cbn [nr nc ent]. rewrite A3, A4, B3, B4, app_length. repeat split; auto. intros i j Hi Hj.
  destruct (Nat.ltb_spec j (List.length v1)) as [Hl|Hl].
  - rewrite A5 by auto. rewrite ph_l by auto. reflexivity.
  - rewrite B5 by lia. rewrite ph_r by auto. reflexivity.
Qed.
Lemma vcat_rel w1 w2 v a a' b b' : arel w1 v a a' -> arel w2 v b b' -> exists c c', vcat a b = Ok c /\ vcat a' b' = Ok c' /\ arel (w1 ++ w2) v c c'.
Proof.
  intros (A1 & A2 & A3 & A4 & A5) (B1 & B2 & B3 & B4 & B5). unfold vcat. rewrite A3, A4, B3, B4, Nat.eqb_refl. do 2 eexists. split; [reflexivity|]. split; [reflexivity|].
  unfold arel. cbn [nr nc ent]. rewrite A1, A2, B1, B2, app_length. repeat split; auto. intros i j Hi Hj.
  destruct (Nat.ltb_spec i (List.length w1)) as [Hl|Hl].
  - rewrite A5 by auto. rewrite ph_l by auto. reflexivity.
  - rewrite B5 by lia. rewrite ph_r by auto. reflexivity.
Qed.
Inductive hrel (w : list nat) : list nat -> list arr2 -> list arr2 -> Prop :=
| HrOne v a a' : arel w v a a' -> hrel w v [a] [a']
| HrCons v vs a a' l l' : arel w v a a' -> hrel w vs l l' -> hrel w (v ++ vs) (a :: l) (a' :: l').
Lemma hstack_rel w v l l' : hrel w v l l' -> exists c c', hstack l = Ok c /\ hstack l' = Ok c' /\ arel w v c c'.
Proof.
  induction 1 as [v a a' H|v vs a a' l l' H Hl (c & c' & E & E' & R)]; [do 2 eexists; split; [reflexivity|]; split; [reflexivity|exact H]|].
  destruct (hcat_rel _ _ _ _ _ _ _ H R) as (x & x' & X & X' & XR). exists x, x'. split; [|split; [|exact XR]].
  - cbn [hstack]. destruct l; [inversion Hl|]. rewrite E. exact X.
  - cbn [hstack]. destruct l'; [inversion Hl|]. rewrite E'. exact X'.
Qed.
Inductive vrel (v : list nat) : list nat -> list arr2 -> list arr2 -> Prop :=
| VrOne w a a' : arel w v a a' -> vrel v w [a] [a']
| VrCons w ws a a' l l' : arel w v a a' -> vrel v ws l l' -> vrel v (w ++ ws) (a :: l) (a' :: l').
Lemma vstack_rel w v l l' : vrel v w l l' -> exists c c', vstack l = Ok c /\ vstack l' = Ok c' /\ arel w v c c'.
Proof.
  induction 1 as [w a a' H|w ws a a' l l' H Hl (c & c' & E & E' & R)]; [do 2 eexists; split; [reflexivity|]; split; [reflexivity|exact H]|].
  destruct (vcat_rel _ _ _ _ _ _ _ H R) as (x & x' & X & X' & XR). exists x, x'. split; [|split; [|exact XR]].
  - cbn [vstack]. destruct l; [inversion Hl|]. rewrite E. exact X.
  - cbn [vstack]. destruct l'; [inversion Hl|]. rewrite E'. exact X'.
Qed.
Variable n : nat.
Hypothesis U : forall i, (i < n)%nat -> (u i * Cconj (u i))%C = RtoC 1.
Lemma fill_rel w a a' : (forall x, In x w -> (x < n)%nat) -> arel w w a a' -> exists c c', fill_lower a = Ok c /\ fill_lower a' = Ok c' /\ arel w w c c'.
Proof.
  intros Hw (A1 & A2 & A3 & A4 & A5). unfold fill_lower. rewrite A1, A2, A3, A4, Nat.eqb_refl. do 2 eexists. split; [reflexivity|]. split; [reflexivity|].
  unfold arel. cbn [nr nc ent]. repeat split; auto. intros i j Hi Hj.
  assert (P1 : forall k, (k < List.length w)%nat -> (ph w k * Cconj (ph w k))%C = RtoC 1) by (intros k Hk; apply U; apply Hw; apply nth_In; auto).
  destruct (Nat.ltb_spec i j), (Nat.ltb_spec j i), (Nat.eqb_spec i j); try lia.
  - rewrite A5 by auto. ring_simplify. rewrite Cconj_R. ring.
  - rewrite A5 by auto. rewrite !Cconj_mult, Cconj_conj. ring.
  - subst j. rewrite A5 by auto. rewrite Cconj_R. set (z := ent a i i). set (p := ph w i) in *.
    assert (E : (p * z * Cconj p)%C = z) by (transitivity ((p * Cconj p) * z)%C; [ring|unfold p; rewrite P1 by auto; ring]). rewrite E.
    transitivity ((p * Cconj p) * RtoC (fst z))%C; [unfold p; rewrite P1 by auto; ring|ring].
Qed.
End Arrays.

(** ** the matrix of one k-point *)
Section Blocks.
Variables (u : nat -> C) (n : nat) (einv einv' : nat -> cmat) (dl : R) (eps ds : list R) (d : gkdata).
Hypothesis U : forall i, (i < n)%nat -> (u i * Cconj (u i))%C = RtoC 1.
Hypothesis E : forall il i j, (i < n)%nat -> (j < n)%nat -> einv' il i j = (u i * einv il i j * Cconj (u j))%C.
Definition within (m : nat * gmode) : Prop := forall x, In x (md_ind (snd m)) -> (x < n)%nat.
Lemma csum_phase N p q f g : (forall k, (k < N)%nat -> g k = (p * f k * q)%C) -> csum N g = (p * csum N f * q)%C.
Proof. intros H. rewrite (csum_ext N g (fun k => (p * (f k * q))%C)) by (intros; rewrite H by auto; ring). rewrite csum_scal_l, csum_scal_r. ring. Qed.
Lemma block_rel a b : within a -> within b -> arel u (md_ind (snd a)) (md_ind (snd b)) (mat_block dl eps ds einv d a b) (mat_block dl eps ds einv' d a b).
Proof.
  intros Wa Wb. assert (EE : forall il i j, (i < md_size (snd a))%nat -> (j < md_size (snd b))%nat ->
     einv' il (md_g (snd a) i) (md_g (snd b) j) = (ph u (md_ind (snd a)) i * einv il (md_g (snd a) i) (md_g (snd b) j) * Cconj (ph u (md_ind (snd b)) j))%C).
  { intros il i j Hi Hj. apply E; [apply Wa|apply Wb]; apply nth_In; auto. }
  unfold mat_block. destruct (Nat.even (fst a)), (Nat.even (fst b)); unfold arel, mat_te_te, mat_tm_tm, mat_te_tm, mat_tm_te; cbn [nr nc ent]; repeat split; auto; intros i j Hi Hj; cbv zeta.
  - match goal with |- (csum ?N ?g * ?X * ?Y)%C = (?p * (csum ?N ?f * ?X * ?Y) * ?q)%C => rewrite (csum_phase N p q f g); [ring|] end. intros il _. rewrite EE by auto. ring.
  - match goal with |- (csum ?N ?g * ?X * ?Y)%C = (?p * (csum ?N ?f * ?X * ?Y) * ?q)%C => rewrite (csum_phase N p q f g); [ring|] end. intros il _. rewrite EE by auto. ring.
  - match goal with |- (csum ?N ?g * ?X * ?Y)%C = (?p * (csum ?N ?f * ?X * ?Y) * ?q)%C => rewrite (csum_phase N p q f g); [ring|] end. intros il _. rewrite EE by auto. ring.
  - apply csum_phase. intros il _. rewrite EE by auto. ring.
Qed.
Lemma zeros_rel w v : arel u w v (zeros (List.length w) (List.length v)) (zeros (List.length w) (List.length v)).
Proof. unfold arel, zeros. cbn [nr nc ent]. repeat split; auto. intros. ring. Qed.
Definition waves (ms : list (nat * gmode)) : list nat := List.concat (map (fun m => md_ind (snd m)) ms).
Lemma row_rel m t : within m -> Forall within (m :: t) -> hrel u (md_ind (snd m)) (waves (m :: t)) (map (mat_block dl eps ds einv d m) (m :: t)) (map (mat_block dl eps ds einv' d m) (m :: t)).
Proof.
  intros Wm F. assert (K : forall b t, Forall within (b :: t) -> hrel u (md_ind (snd m)) (waves (b :: t)) (map (mat_block dl eps ds einv d m) (b :: t)) (map (mat_block dl eps ds einv' d m) (b :: t))).
  { intros b t0. revert b. induction t0 as [|c t0 IH]; intros b Fb; inversion Fb; subst.
    - unfold waves. cbn [map List.concat]. rewrite app_nil_r. apply HrOne. apply block_rel; auto.
    - change (waves (b :: c :: t0)) with (md_ind (snd b) ++ waves (c :: t0)). rewrite map_cons. rewrite (map_cons (mat_block dl eps ds einv' d m)). apply HrCons; [apply block_rel; auto|]. apply IH. auto. }
  apply K. exact F.
Qed.
Lemma rows_rel ms : forall first pre, Forall within ms -> (first = true -> pre = []) -> ms <> [] -> exists rows rows',
  mapM hstack (block_rows (mat_block dl eps ds einv d) first (List.length pre) ms) = Ok rows /\
  mapM hstack (block_rows (mat_block dl eps ds einv' d) first (List.length pre) ms) = Ok rows' /\ vrel u (pre ++ waves ms) (waves ms) rows rows'.
Proof.
  induction ms as [|m t IH]; intros first pre F Hp Ne; [congruence|]. cbn [block_rows mapM].
  assert (Wm : within m) by (inversion F; auto). assert (Ft : Forall within t) by (inversion F; auto).
  assert (HR : hrel u (md_ind (snd m)) (pre ++ waves (m :: t)) ((if first then [] else [zeros (md_size (snd m)) (List.length pre)]) ++ map (mat_block dl eps ds einv d m) (m :: t))
     ((if first then [] else [zeros (md_size (snd m)) (List.length pre)]) ++ map (mat_block dl eps ds einv' d m) (m :: t))).
  { pose proof (row_rel m t Wm F) as RR. destruct first; [rewrite (Hp eq_refl); exact RR|]. cbn [app]. apply HrCons; [apply zeros_rel|exact RR]. }
  destruct (hstack_rel _ _ _ _ _ HR) as (c & c' & -> & -> & R). cbn [bind].
  replace (List.length pre + md_size (snd m))%nat with (List.length (pre ++ md_ind (snd m))) by (rewrite app_length; reflexivity).
  assert (Ew : waves (m :: t) = md_ind (snd m) ++ waves t) by reflexivity.
  destruct t as [|m2 t2].
  - cbn [block_rows mapM bind]. do 2 eexists. split; [reflexivity|]. split; [reflexivity|]. rewrite Ew in *. change (waves []) with (@nil nat) in *. rewrite app_nil_r in *. apply VrOne. exact R.
  - destruct (IH false (pre ++ md_ind (snd m)) Ft ltac:(discriminate) ltac:(discriminate)) as (rows & rows' & -> & -> & V). cbn [bind].
    do 2 eexists. split; [reflexivity|]. split; [reflexivity|]. rewrite Ew in *. rewrite <- app_assoc in V. apply VrCons; [exact R|exact V].
Qed.
End Blocks.

Lemma guided_within ng gk garr te tm eps m g : get_guided ng gk garr te tm eps m = Ok g -> forall x, In x (md_ind g) -> (x < ng)%nat.
Proof.
  unfold get_guided. destruct (nth_error _ _) as [[oms cs]|]; [|discriminate]. destruct (last_n _ _) as [|g0 gs]; [discriminate|]. intros H. injection H as <-. cbn [md_ind].
  intros x Hx. unfold argwhere_gt in Hx. apply filter_In in Hx. destruct Hx as [Hx _]. apply in_seq in Hx. lia.
Qed.
Lemma mapM_all {A B} (f : A -> result B) (P : B -> Prop) l r : mapM f l = Ok r -> (forall a b, In a l -> f a = Ok b -> P b) -> Forall P r.
Proof.
  revert r. induction l as [|a l IH]; intros r H HP; cbn [mapM] in H; [injection H as <-; constructor|].
  destruct (f a) as [b|] eqn:Ea; [|discriminate]. cbn [bind] in H. destruct (mapM f l) as [t|] eqn:El; [|discriminate]. injection H as <-.
  constructor; [apply (HP a); simpl; auto|]. apply IH; auto. intros; eapply HP; eauto. simpl; auto.
Qed.
Lemma construct_rel u dl gvec k dgx inds garr te tm eps ds einv einv' : let n := List.length gvec in
  (forall i, (i < n)%nat -> (u i * Cconj (u i))%C = RtoC 1) ->
  (forall il i j, (i < n)%nat -> (j < n)%nat -> einv' il i j = (u i * einv il i j * Cconj (u j))%C) ->
  match construct_mat dl gvec k dgx inds garr te tm eps ds einv, construct_mat dl gvec k dgx inds garr te tm eps ds einv' with
  | Ok a, Ok b => exists w, (forall x, In x w -> (x < n)%nat) /\ arel u w w a b
  | Raise e, Raise e' => e = e'
  | _, _ => False
  end.
Proof.
  intros n U E. unfold construct_mat. destruct (gmode_include inds te tm) as [|m0 inc] eqn:Ei; [reflexivity|].
  destruct (mapM _ _) as [ms|] eqn:Em; [|reflexivity]. cbn [bind].
  assert (F : Forall (within n) ms).
  { apply (mapM_all _ _ _ _ Em). intros m b _ H. destruct (get_guided _ _ _ _ _ _ m) as [g|] eqn:Eg; [|discriminate]. injection H as <-. intros x Hx. cbn in Hx. eapply guided_within; eauto. }
  assert (Ne : ms <> []). { cbn [mapM] in Em. intros ->. destruct (get_guided _ _ _ _ _ _ m0); [|discriminate]. cbn [bind] in Em. destruct (mapM _ inc); discriminate. }
  destruct (rows_rel u n einv einv' dl eps ds (gk_data gvec k dgx) E ms true [] F ltac:(auto) Ne) as (rows & rows' & R1 & R2 & V).
  cbn [List.length] in R1, R2. rewrite R1, R2. cbn [bind]. destruct (vstack_rel u _ _ _ _ V) as (c & c' & -> & -> & R). cbn [bind app] in *.
  assert (Hw : forall x, In x (waves ms) -> (x < n)%nat).
  { intros x Hx. unfold waves in Hx. apply in_concat in Hx. destruct Hx as (l & Hl & Hx). apply in_map_iff in Hl. destruct Hl as (m & <- & Hm). rewrite Forall_forall in F. apply (F m Hm x Hx). }
  destruct (fill_rel u n U (waves ms) c c' Hw R) as (x & x' & -> & -> & RR). exists (waves ms). split; auto.
Qed.

(** ** the spectrum *)
Section Solve.
Variable argsort : list R -> list nat.
Variable eigh : nat -> cmat -> list R * cmat.
Hypothesis He : diagonalises eigh.
Hypothesis Ha : eigh_ascending eigh.
Lemma spectrum_twist n A A' sg d : perm_on n sg -> (forall i, (i < n)%nat -> (d i * Cconj (d i))%C = RtoC 1) ->
  (forall i j, (i < n)%nat -> (j < n)%nat -> A i j = Cconj (A j i)) -> (forall i j, (i < n)%nat -> (j < n)%nat -> A' i j = Cconj (A' j i)) ->
  (forall i j, (i < n)%nat -> (j < n)%nat -> A' i j = (d i * A (sg i) (sg j) * Cconj (d j))%C) -> fst (eigh n A') = fst (eigh n A).
Proof.
  intros P D H H' E. pose proof (He n A H) as S. pose proof (He n A' H') as S'.
  pose proof (twist_system n sg d (fun z => z) P D id_auto A _ _ S) as T.
  assert (T' : eigensystem n A' (fst (eigh n A)) (fun i j => twistv sg d (fun z => z) (fun i => snd (eigh n A) i j) i)).
  { destruct T as (T1 & T2 & T3). split; [auto|]. split; [auto|]. intros i j Hi Hj. rewrite <- T3 by auto. unfold mvec. apply csum_ext. intros k Hk. rewrite E by auto. reflexivity. }
  apply asc_unique; [|apply Ha; auto|apply Ha; auto]. apply (eigs_unique n A' _ _ _ _ T' S').
Qed.
Lemma plain_same o a b n : nr a = n -> nr b = n -> fst (eigh n (plus_eye b)) = fst (eigh n (plus_eye a)) ->
  match solve_plain argsort eigh o a, solve_plain argsort eigh o b with
  | Ok r, Ok r' => fst r' = fst r
  | Raise e, Raise e' => e = e'
  | _, _ => False
  end.
Proof.
  intros Na Nb E. unfold solve_plain. rewrite Na, Nb. destruct (eigh n (plus_eye a)) as [ls V]. destruct (eigh n (plus_eye b)) as [ls' V']. cbn [fst] in E. subst ls'.
  destruct (pick _ _ _ _); [|reflexivity]. cbn [bind]. destruct (take_ix _ _); reflexivity.
Qed.
End Solve.
