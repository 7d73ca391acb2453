(** After a run all wells have their levels; the order of the wells but the last does
    not matter. *)
From Coq Require Import Permutation List Lia.
From Verif Require Import Py CBase LatticeModel PhcModel RecipModel MatElModel SymModel SymSpec SymProofs2 FieldsModel RunModel RunSpec RunProofs RunProofs3 RunProofs5 PweModel ExcModel PolSpec PolModel PolSpec2 PolProofs PolProofs2 PolProofs3 PolProofs4 PolProofs5 PolProofs6 PolProofs7 PolProofs8 PolProofs9.
Open Scope R_scope.
Open Scope list_scope.

Section FILLED.
Variables (argsort : list R -> list nat) (eigh : nat -> cmat -> list R * cmat).

Lemma solve_lengths n m mat es vs : exc_solve argsort eigh n m mat = Ok (es, vs) ->
  List.length es = List.length vs /\ (List.length vs <= m)%nat.
Proof.
  unfold exc_solve. destruct (eigh n _) as [ls V]. cbv zeta.
  destruct (take_ix _ _) as [en|] eqn:E; [|discriminate]. cbn [bind]. intros H. injection H as <- <-.
  unfold take_ix in E. apply mapM_ok_length in E. unfold columns. rewrite map_length, E. split; auto. apply firstn_le_length.
Qed.
Lemma one_lengths s m pot k es vs : exc_one argsort eigh s m pot k = Ok (es, vs) ->
  List.length es = List.length vs /\ (List.length vs <= m)%nat.
Proof.
  unfold exc_one. cbv zeta. destruct (herm_check _ _) as [u|]; [|discriminate]. cbn [bind]. apply solve_lengths.
Qed.
Definition paired (m : nat) (r : list R) (v : list (nat * cvec)) : Prop := List.length r = List.length v /\ (List.length v <= m)%nat.
Lemma loop_lengths s m pot : forall ks fs vs vs' fs', Forall2 (paired m) fs vs ->
  exc_loop argsort eigh s m pot ks fs vs = (vs', Ok fs') -> Forall2 (paired m) fs' vs'.
Proof.
  induction ks as [|k ks IH]; intros fs vs vs' fs' HF; cbn [exc_loop].
  - intros H. injection H as <- <-. exact HF.
  - destruct (exc_one argsort eigh s m pot k) as [[f v]|] eqn:E; [|discriminate]. apply IH.
    apply Forall2_app; auto. constructor; [|constructor]. exact (one_lengths _ _ _ _ _ _ E).
Qed.
Lemma run_lengths s ks m s' u : exc_run argsort eigh s ks m = (s', Ok u) ->
  exists fs vs, ex_eners s' = Some (map (map (fun x => Cplus (RtoC (x + ex_E0 s)) (Cmult Ci (RtoC (ex_loss s))))) fs) /\
    ex_vecs s' = Some vs /\ Forall2 (paired m) fs vs.
Proof.
  unfold exc_run. cbv zeta. destruct (exc_loop _ _ _ _ _ _ _ _) as [vs [fs|e]] eqn:E; [|discriminate].
  intros H. injection H as <- _. exists fs, vs. split; [reflexivity|]. split; [reflexivity|].
  eapply loop_lengths; [|exact E]. constructor.
Qed.
Lemma wells_each : forall ws0 ks m ws, run_wells argsort eigh ws0 ks m = (ws, Ok tt) ->
  Forall2 (fun s s' => exc_run argsort eigh s ks m = (s', Ok tt)) ws0 ws.
Proof.
  induction ws0 as [|s t IH]; intros ks m ws; cbn [run_wells].
  - intros H. injection H as <-. constructor.
  - destruct (exc_run argsort eigh s ks m) as [s' [[]|e]] eqn:E; [|discriminate].
    destruct (run_wells argsort eigh t ks m) as [t' r] eqn:E2. intros H. injection H as <- ->. constructor; auto.
Qed.
Lemma each_wells : forall ws0 ks m ws, Forall2 (fun s s' => exc_run argsort eigh s ks m = (s', Ok tt)) ws0 ws ->
  run_wells argsort eigh ws0 ks m = (ws, Ok tt).
Proof.
  intros ws0 ks m ws F. induction F as [|s s' t t' E F IH]; [reflexivity|]. cbn [run_wells]. rewrite E, IH. reflexivity.
Qed.

Lemma block_levels a p M s kind rows : C_block a p M s kind = Ok rows -> (0 < ph_N p)%nat ->
  forall nu, (nu < M)%nat -> exists W, ft_wavef s kind nu = Ok W.
Proof.
  intros H HN nu Hn. unfold C_block in H. destruct (mapM_in_ok _ _ _ 0%nat H) as [y Hy]; [apply in_seq; lia|].
  destruct (ph_E p kind 0 (ex_z s)) as [E|]; [|discriminate]. cbn [bind] in Hy.
  destruct (mapM_in_ok _ _ _ nu Hy) as [z Hz]; [apply in_seq; lia|]. destruct (ft_wavef s kind nu) as [W|]; [eauto|discriminate].
Qed.

Lemma filled_after ws0 ks m ws a p kind H : run_wells argsort eigh ws0 ks m = (ws, Ok tt) ->
  construct a p m ws kind = Ok H -> (0 < ph_N p)%nat -> filled m kind ws.
Proof.
  intros HR HC HN s Hs. apply wells_each in HR.
  assert (Hx : exists s0, exc_run argsort eigh s0 ks m = (s, Ok tt)).
  { clear HC. induction HR as [|x y l l' E F IH]; [destruct Hs|]. destruct Hs as [<-|Hs]; eauto. }
  destruct Hx as [s0 E0]. destruct (run_lengths _ _ _ _ _ E0) as (fs & vs & EE & EV & F).
  destruct (construct_inv _ _ _ _ _ _ HC) as (f & fi & cds & ens & _ & _ & _ & Ec & _ & Ee & _).
  destruct (mapM_in_ok _ _ _ s Ec Hs) as [cd Hcd]. destruct (mapM_in_ok _ _ _ s Ee Hs) as [en Hen].
  unfold C_D in Hcd. destruct (C_block a p m s kind) as [rows|] eqn:EB; [|discriminate].
  unfold eners_at, attr in Hen. rewrite EE in Hen. cbn [bind] in Hen. unfold SymModel.get in Hen.
  destruct (nth_error (map _ fs) kind) as [row|] eqn:ER; [|discriminate].
  exists (map (map (fun x => Cplus (RtoC (x + ex_E0 s0)) (Cmult Ci (RtoC (ex_loss s0))))) fs), row. split; [auto|]. split; [auto|].
  rewrite nth_error_map in ER. destruct (nth_error fs kind) as [fr|] eqn:EF; [|discriminate]. injection ER as <-. rewrite map_length.
  assert (Hv : exists v, nth_error vs kind = Some v /\ paired m fr v).
  { clear -F EF. revert kind EF. induction F as [|x y l l' P F IH]; intros [|kind] EF; try discriminate.
    - injection EF as <-. eexists; split; [reflexivity|auto].
    - exact (IH kind EF). }
  destruct Hv as (v & Hv & Hl & Hm). rewrite Hl. destruct (Nat.eq_dec (List.length v) m) as [|Hne]; [auto|]. exfalso.
  destruct (block_levels _ _ _ _ _ _ EB HN (List.length v)) as [W HW]; [lia|].
  unfold ft_wavef, attr in HW. rewrite EV in HW. cbn [bind] in HW. unfold SymModel.get in HW. rewrite Hv in HW. cbn [bind] in HW.
  rewrite (proj2 (nth_error_None v (List.length v))) in HW by lia. discriminate.
Qed.
End FILLED.

(** ** Renumbering *)

Lemma permutes_list n t : permutes n t -> Permutation (map t (seq 0 n)) (seq 0 n).
Proof.
  intros [Hb Hi]. apply NoDup_Permutation_bis.
  - apply NoDup_nth with (d := 0%nat). rewrite map_length, seq_length. intros i j H1 H2 E.
    rewrite (nth_indep _ 0%nat (t 0%nat)), (nth_indep (map t (seq 0 n)) 0%nat (t 0%nat)) in E by (rewrite map_length, seq_length; auto).
    rewrite !map_nth, !seq_nth in E by auto. apply Hi in E; auto.
  - rewrite map_length. auto.
  - intros x Hx. apply in_map_iff in Hx. destruct Hx as (y & <- & Hy). apply in_seq in Hy. apply in_seq. specialize (Hb y). lia.
Qed.
Lemma permutes_sum n t f : permutes n t -> csum n (fun c => f (t c)) = csum n f.
Proof.
  intros H. rewrite <- (csum_perm n (map t (seq 0 n)) f (permutes_list n t H)). apply csum_ext. intros i Hi.
  rewrite (nth_indep _ 0%nat (t 0%nat)) by (rewrite map_length, seq_length; auto). rewrite map_nth, seq_nth by auto. reflexivity.
Qed.
Lemma permutes_onto n t i : permutes n t -> (i < n)%nat -> exists j, (j < n)%nat /\ t j = i.
Proof.
  intros H Hi. assert (Hx : In i (map t (seq 0 n))).
  { eapply Permutation_in; [apply Permutation_sym, permutes_list; auto|]. apply in_seq; lia. }
  apply in_map_iff in Hx. destruct Hx as (j & E & Hj). apply in_seq in Hj. exists j. split; [lia|auto].
Qed.
Lemma renumber n A B t l v : permutes n t -> (forall i j, (i < n)%nat -> (j < n)%nat -> B i j = A (t i) (t j)) ->
  eigvec n A l v -> eigvec n B l (fun i => v (t i)).
Proof.
  intros Ht HB [(i & Hi & Hv) He]. split.
  - destruct (permutes_onto n t i Ht Hi) as (j & Hj & <-). eauto.
  - intros k Hk. rewrite <- He by (apply Ht; auto). unfold mvec. rewrite <- (permutes_sum n t (fun j => (A (t k) j * v j)%C) Ht). apply csum_ext. intros j Hj.
    rewrite HB by auto. reflexivity.
Qed.

(** the renumbering of all rows that goes with a renumbering of the excitons *)
Definition lift_t (N K : nat) (s : nat -> nat) : nat -> nat :=
  stack4 N K (fun i => i) (fun j => N + s j)%nat (fun i => N + K + i)%nat (fun j => N + K + N + s j)%nat.
Lemma stack4_case {T} N K (x0 x1 x2 x3 : nat -> T) i : (i < 2 * (N + K))%nat ->
  ((i < N)%nat /\ stack4 N K x0 x1 x2 x3 i = x0 i) \/ (exists j, (j < K)%nat /\ i = (N + j)%nat /\ stack4 N K x0 x1 x2 x3 i = x1 j) \/
  (exists j, (j < N)%nat /\ i = (N + K + j)%nat /\ stack4 N K x0 x1 x2 x3 i = x2 j) \/
  (exists j, (j < K)%nat /\ i = (N + K + N + j)%nat /\ stack4 N K x0 x1 x2 x3 i = x3 j).
Proof.
  intros Hi. unfold stack4. destruct (Nat.ltb_spec i N); [left; auto|].
  destruct (Nat.ltb_spec i (N + K)); [right; left; exists (i - N)%nat; repeat split; lia|].
  destruct (Nat.ltb_spec i (N + K + N)); [right; right; left; exists (i - (N + K))%nat; repeat split; lia|].
  right; right; right. exists (i - (N + K + N))%nat. repeat split; lia.
Qed.
Lemma lift_0 N K s i : (i < N)%nat -> lift_t N K s i = i.
Proof. intros H. unfold lift_t. rewrite stack_0 by auto. reflexivity. Qed.
Lemma lift_1 N K s j : (j < K)%nat -> lift_t N K s (N + j)%nat = (N + s j)%nat.
Proof. intros H. unfold lift_t. rewrite stack_1 by auto. reflexivity. Qed.
Lemma lift_2 N K s i : (i < N)%nat -> lift_t N K s (N + K + i)%nat = (N + K + i)%nat.
Proof. intros H. unfold lift_t. rewrite stack_2 by auto. reflexivity. Qed.
Lemma lift_3 N K s j : (j < K)%nat -> lift_t N K s (N + K + N + j)%nat = (N + K + N + s j)%nat.
Proof. intros H. unfold lift_t. rewrite stack_3 by auto. reflexivity. Qed.

Lemma four N K i : (i < 2 * (N + K))%nat -> (i < N)%nat \/ (exists j, (j < K)%nat /\ i = (N + j)%nat) \/
  (exists j, (j < N)%nat /\ i = (N + K + j)%nat) \/ (exists j, (j < K)%nat /\ i = (N + K + N + j)%nat).
Proof.
  intros Hi. destruct (Nat.lt_ge_cases i N); [auto|]. destruct (Nat.lt_ge_cases i (N + K)); [right; left; exists (i - N)%nat; lia|].
  destruct (Nat.lt_ge_cases i (N + K + N)); [right; right; left; exists (i - (N + K))%nat; lia|].
  right; right; right. exists (i - (N + K + N))%nat. lia.
Qed.
Ltac lifts := repeat match goal with
  | |- context [lift_t ?N ?K ?s (?N + ?K + ?N + ?j)%nat] => rewrite (lift_3 N K s j) by auto
  | |- context [lift_t ?N ?K ?s (?N + ?K + ?j)%nat] => rewrite (lift_2 N K s j) by auto
  | |- context [lift_t ?N ?K ?s (?N + ?j)%nat] => rewrite (lift_1 N K s j) by auto
  | |- context [lift_t ?N ?K ?s ?j] => rewrite (lift_0 N K s j) by auto end.
Lemma lift_permutes N K s : permutes K s -> permutes (2 * (N + K)) (lift_t N K s).
Proof.
  intros [Hb Hi]. split.
  - intros i H. destruct (four N K i H) as [H0|[(j & Hj & ->)|[(j & Hj & ->)|(j & Hj & ->)]]];
      lifts; try specialize (Hb j Hj); lia.
  - intros i k H1 H2. destruct (four N K i H1) as [H0|[(j & Hj & ->)|[(j & Hj & ->)|(j & Hj & ->)]]];
      destruct (four N K k H2) as [H0'|[(j' & Hj' & ->)|[(j' & Hj' & ->)|(j' & Hj' & ->)]]];
      lifts; intros E;
      repeat match goal with H : (?x < K)%nat |- _ => lazymatch goal with _ : (s x < K)%nat |- _ => fail | _ => is_var x; pose proof (Hb x H) end end;
      try lia;
      match goal with Hj : (?x < K)%nat, Hj' : (?y < K)%nat |- (_ + ?x)%nat = (_ + ?y)%nat =>
        assert (Es : s x = s y) by lia; rewrite (Hi x y Hj Hj' Es); reflexivity end.
Qed.
Lemma hopfield_renumber N K A A' c c' d d' e e' s : permutes K s ->
  (forall i j, (i < N)%nat -> (j < N)%nat -> A' i j = A i j) -> (forall i j, (i < N)%nat -> (j < N)%nat -> d' i j = d i j) ->
  (forall i j, (i < N)%nat -> (j < K)%nat -> c' i j = c i (s j)) -> (forall j, (j < K)%nat -> e' j = e (s j)) ->
  forall i j, (i < 2 * (N + K))%nat -> (j < 2 * (N + K))%nat ->
  hopfield N K A' c' d' e' i j = hopfield N K A c d e (lift_t N K s i) (lift_t N K s j).
Proof.
  intros [Hb Hinj] HA Hd Hc He i j Hi Hj.
  assert (Hde : forall i j, (i < K)%nat -> (j < K)%nat -> (if Nat.eqb i j then e' i else RtoC 0) = (if Nat.eqb (s i) (s j) then e (s i) else RtoC 0)).
  { intros x y Hx Hy. destruct (Nat.eqb_spec x y) as [->|Hn]; [rewrite Nat.eqb_refl; auto|].
    destruct (Nat.eqb_spec (s x) (s y)) as [E|]; [apply Hinj in E; auto; congruence|reflexivity]. }
  unfold hopfield. cbv zeta.
  destruct (four N K i Hi) as [H0|[(x & Hx & ->)|[(x & Hx & ->)|(x & Hx & ->)]]];
  destruct (four N K j Hj) as [H0'|[(y & Hy & ->)|[(y & Hy & ->)|(y & Hy & ->)]]];
  lifts;
  repeat (first [rewrite stack_0 by auto | rewrite stack_1 by auto | rewrite stack_2 by auto | rewrite stack_3 by auto]);
  rewrite ?HA, ?Hd, ?Hc, ?Hde by auto; reflexivity.
Qed.

(** ** Permuted wells *)
Definition get_ok {A B} (f : A -> result B) (d : B) (x : A) : B := match f x with Ok y => y | Raise _ => d end.
Lemma mapM_get {A B} (f : A -> result B) d l r : mapM f l = Ok r -> r = map (get_ok f d) l.
Proof.
  intros H. assert (H2 : mapM f l = Ok (map (get_ok f d) l)); [|congruence]. apply mapM_pure. intros x Hx.
  destruct (mapM_in_ok _ _ _ x H Hx) as [y Hy]. unfold get_ok. rewrite Hy. reflexivity.
Qed.
Lemma mapM_permuted {A B} (f : A -> result B) d l l' r : mapM f l = Ok r -> Permutation l l' -> mapM f l' = Ok (map (get_ok f d) l').
Proof.
  intros H P. apply mapM_pure. intros x Hx. destruct (mapM_in_ok _ _ _ x H) as [y Hy]; [eapply Permutation_in; [apply Permutation_sym, P|auto]|].
  unfold get_ok. rewrite Hy. reflexivity.
Qed.
Lemma fold_perm ds ds' i j : Permutation ds ds' -> forall z, fold_left mplus ds z i j = fold_left mplus ds' z i j.
Proof.
  intros P. assert (G : forall l z, fold_left mplus l z i j = (z i j + fold_right (fun d acc => d i j + acc) (RtoC 0) l)%C).
  { induction l as [|d l IH]; intros z; cbn [fold_left fold_right]; [ring|]. rewrite IH. unfold mplus. ring. }
  intros z. rewrite !G. f_equal. induction P; cbn [fold_right]; auto; [rewrite IHP; auto|ring|congruence].
Qed.

Lemma reorder a p M ws w ws' kind H : construct a p M (ws ++ [w]) kind = Ok H -> filled M kind (ws ++ [w]) -> Permutation ws ws' ->
  exists H' t, construct a p M (ws' ++ [w]) kind = Ok H' /\
    let n := (2 * (ph_N p + M * S (List.length ws)))%nat in
    permutes n t /\ (forall i j, (i < n)%nat -> (j < n)%nat -> H' i j = H (t i) (t j)) /\
    (forall i, (i < ph_N p)%nat -> t i = i).
Proof.
  intros HC HF HP. set (l := ws ++ [w]) in *. set (l' := ws' ++ [w]).
  assert (P : Permutation l l') by (apply Permutation_app_tail; auto).
  assert (Ll : List.length l = S (List.length ws)) by (unfold l; rewrite app_length; cbn; lia).
  assert (Ll' : List.length l' = S (List.length ws)) by (rewrite <- (Permutation_length P); auto).
  destruct (construct_inv _ _ _ _ _ _ HC) as (f & fi & cds & ens & Ha & Gf & Gfi & Ec & Hne & Ee & EH).
  pose proof (filled_ens _ _ _ _ HF Ee) as HM.
  set (z2 := (mzero, mzero)). pose proof (mapM_get _ z2 _ _ Ec) as Ec0. pose proof (mapM_get _ [] _ _ Ee) as Ee0.
  pose proof (mapM_permuted _ z2 _ _ _ Ec P) as Ec'. pose proof (mapM_permuted _ [] _ _ _ Ee P) as Ee'.
  set (g := get_ok (fun s => C_D a p M s kind) z2) in *. set (h := get_ok (fun s => eners_at s kind) []) in *.
  apply (Permutation_nth l l' w) in P as Q. cbv zeta in Q. rewrite Ll in Q. destruct Q as (_ & u & Hub & Hui & Hun).
  set (K := (M * S (List.length ws))%nat) in *. set (N := ph_N p) in *.
  set (s := fun j => (u (j / M) * M + j mod M)%nat).
  assert (Hdec : forall j, (j < K)%nat -> (0 < M)%nat /\ (j / M < S (List.length ws))%nat /\ (j mod M < M)%nat /\ j = (j / M * M + j mod M)%nat).
  { intros j Hj. assert (0 < M)%nat by (destruct M; [unfold K in Hj; cbn in Hj; lia|lia]). split; auto.
    split; [apply Nat.div_lt_upper_bound; unfold K in Hj; lia|]. split; [apply Nat.mod_upper_bound; lia|].
    pose proof (Nat.div_mod j M). lia. }
  assert (Hs : permutes K s).
  { split.
    - intros j Hj. destruct (Hdec j Hj) as (H0 & H1 & H2 & _). specialize (Hub _ H1). unfold s, K. nia.
    - intros i j Hi Hj E. destruct (Hdec i Hi) as (H0 & H1 & H2 & E1). destruct (Hdec j Hj) as (_ & H1' & H2' & E2). unfold s in E.
      assert (Eu : u (i / M)%nat = u (j / M)%nat).
      { clear -E H0 H2 H2'.
        assert (A : ((u (i / M) * M + i mod M) / M = u (i / M))%nat) by (rewrite Nat.div_add_l by lia; rewrite (Nat.div_small (i mod M) M) by auto; lia).
        assert (B : ((u (j / M) * M + j mod M) / M = u (j / M))%nat) by (rewrite Nat.div_add_l by lia; rewrite (Nat.div_small (j mod M) M) by auto; lia).
        congruence. }
      assert (Em : (i mod M = j mod M)%nat) by lia. apply Hui in Eu; auto. congruence. }
  assert (Hcons : construct a p M l' kind = Ok (hopfield N K (phot_block (conversion a) f fi (fold_left mplus (map snd (map g l')) mzero)) (hcat M (map fst (map g l')))
     (last (map snd (map g l')) mzero) (fun j => nth j (List.concat (map h l')) (RtoC 0)))).
  { unfold construct, from_freq_to_e. cbn [negb andb]. destruct (Rleb a 0) eqn:Ea; [apply Rleb_true in Ea; lra|]. cbn [bind].
    rewrite Gf. cbn [bind]. rewrite Gfi. cbn [bind]. rewrite Ec'. cbn [bind]. rewrite Ee'. cbn [bind]. rewrite Ll'.
    destruct (map g l') eqn:El; [|reflexivity]. unfold l' in El. destruct ws'; discriminate. }
  eexists. exists (lift_t N K s). split; [exact Hcons|]. cbv zeta. fold N K. split; [apply lift_permutes; auto|].
  split; [|intros i Hi; apply lift_0; auto].
  rewrite EH. rewrite Ll. fold K N. apply hopfield_renumber; auto.
  - intros i j Hi Hj. unfold phot_block. do 4 f_equal. rewrite Ec0. apply fold_perm. apply Permutation_map, Permutation_map, Permutation_sym, P.
  - intros i j _ _. rewrite Ec0. unfold l, l'. rewrite !map_app. cbn [map]. rewrite !last_last. reflexivity.
  - intros i j Hi Hj. destruct (Hdec j Hj) as (H0 & H1 & H2 & E). unfold s. rewrite hcat_at by auto. rewrite E at 1. rewrite hcat_at by auto.
    rewrite Ec0, !map_map.
    rewrite !(nth_indep _ (fun _ _ => RtoC 0) (fst (g w))) by (rewrite map_length; rewrite ?Ll, ?Ll'; auto).
    rewrite !(map_nth (fun x => fst (g x))). rewrite Hun by auto. reflexivity.
  - intros j Hj. destruct (Hdec j Hj) as (H0 & H1 & H2 & E). unfold s. rewrite E at 1.
    assert (HM' : forall x, In x (map h l') -> List.length x = M).
    { intros x Hx. apply HM. rewrite Ee0. eapply Permutation_in; [apply Permutation_map, Permutation_sym, P|auto]. }
    rewrite (concat_nth (map h l') M) by (auto; rewrite map_length; lia).
    rewrite (concat_nth ens M) by (auto; rewrite Ee0, map_length, Ll; auto).
    rewrite Ee0. rewrite !(nth_indep _ [] (h w)) by (rewrite map_length; rewrite ?Ll, ?Ll'; auto).
    rewrite !map_nth. rewrite Hun by auto. reflexivity.
Qed.

Lemma reorder_energies a p M ws w ws' kind H : construct a p M (ws ++ [w]) kind = Ok H -> filled M kind (ws ++ [w]) -> Permutation ws ws' ->
  exists H' t, construct a p M (ws' ++ [w]) kind = Ok H' /\
    let n := (2 * (ph_N p + M * S (List.length ws)))%nat in
    permutes n t /\ (forall i j, (i < n)%nat -> (j < n)%nat -> H' i j = H (t i) (t j)) /\
    forall l, eigval n H' l <-> eigval n H l.
Proof.
  intros HC HF HP. destruct (reorder _ _ _ _ _ _ _ _ HC HF HP) as (H' & t & HC' & Ht & HH & _). exists H', t. split; [auto|]. cbv zeta in *.
  split; [auto|]. split; [auto|].
  assert (HF' : filled M kind (ws' ++ [w])).
  { intros s Hs. apply HF. eapply Permutation_in; [apply Permutation_app_tail, Permutation_sym, HP|auto]. }
  destruct (reorder _ _ _ _ _ _ _ _ HC' HF' (Permutation_sym HP)) as (H2 & t2 & HC2 & Ht2 & HH2 & _). rewrite HC in HC2. injection HC2 as <-.
  rewrite <- (Permutation_length HP) in Ht2, HH2.
  intros l. split; intros [v Hv].
  - exists (fun i => v (t2 i)). exact (renumber _ _ _ _ _ _ Ht2 HH2 Hv).
  - exists (fun i => v (t i)). exact (renumber _ _ _ _ _ _ Ht HH Hv).
Qed.

Lemma order_free argsort eigh ws w ws' ks m us a p kind H : run_wells argsort eigh (ws ++ [w]) ks m = (us, Ok tt) ->
  construct a p m us kind = Ok H -> (0 < ph_N p)%nat -> Permutation ws ws' ->
  exists us' H' t, run_wells argsort eigh (ws' ++ [w]) ks m = (us', Ok tt) /\ construct a p m us' kind = Ok H' /\
    let n := (2 * (ph_N p + m * S (List.length ws)))%nat in
    permutes n t /\ (forall i j, (i < n)%nat -> (j < n)%nat -> H' i j = H (t i) (t j)) /\
    forall l, eigval n H' l <-> eigval n H l.
Proof.
  intros HR HC HN HP. pose proof (filled_after _ _ _ _ _ _ _ _ _ _ HR HC HN) as HF.
  apply wells_each in HR. apply Forall2_app_inv_l in HR. destruct HR as (vs & wt & F1 & F2 & ->).
  inversion F2 as [|? v ? ? E F3]; subst. inversion F3; subst.
  assert (Hx : exists vs', Permutation vs vs' /\ Forall2 (fun s s' => exc_run argsort eigh s ks m = (s', Ok tt)) ws' vs').
  { clear -F1 HP. revert vs F1. induction HP as [|x l l' HP IH|x y l|l l' l'' H1 IH1 H2 IH2]; intros vs F.
    - inversion F; subst. exists []. auto.
    - inversion F as [|? v ? vs0 E F0]; subst. destruct (IH _ F0) as (vs' & P & F'). exists (v :: vs'). auto.
    - inversion F as [|? v ? vs0 E F0]; subst. inversion F0 as [|? v2 ? vs1 E1 F1]; subst. exists (v2 :: v :: vs1). split; [apply perm_swap|auto].
    - destruct (IH1 _ F) as (v1 & P1 & F1). destruct (IH2 _ F1) as (v2 & P2 & F2). exists v2. split; [eapply perm_trans; eauto|auto]. }
  destruct Hx as (vs' & PV & F'). destruct (reorder_energies _ _ _ _ _ _ _ _ HC HF PV) as (H' & t & HC' & Hrest).
  exists (vs' ++ [v]), H', t. split; [apply each_wells, Forall2_app; auto|]. split; [auto|].
  assert (HL : List.length ws = List.length vs) by (clear -F1; induction F1; cbn [List.length]; congruence).
  rewrite HL. exact Hrest.
Qed.

Lemma three_wells argsort eigh L : sorts argsort -> diagonalises eigh -> lattice_init (LatName "square") = Ok L ->
  exists P q s1 s2 s3 p us H, pol_init 0 P 0 "tbt" = Some (Ok q) /\ po_exc q = [s1; s2] ++ [s3] /\ (0 < ph_N p)%nat /\
  run_wells argsort eigh ([s1; s2] ++ [s3]) [(0, 0)] 1 = (us, Ok tt) /\ construct (po_a q) p 1 us 0 = Ok H /\
  exists i, (i < 3)%nat /\ H 0%nat (1 + i)%nat <> RtoC 0.
Proof.
  intros Hs He HL. destruct (toy_system argsort eigh Hs He L HL 2 [7 / 16] [RtoC 1] [0; bright] bright ltac:(lra) eq_refl) as (q & ws & us & H & EI & _ & ER & Lw & F & Lu & HU & EC & EM).
  { intros o [<-|[<-|[<-|[]]]]; unfold bright; lra. }
  pose proof (wells_each _ _ _ _ _ _ ER) as FF. assert (Lq : List.length (po_exc q) = 3%nat) by (clear -FF Lw; revert Lw; cbn [List.length]; intros <-; induction FF; cbn [List.length]; congruence).
  destruct (po_exc q) as [|s1 [|s2 [|s3 [|]]]] eqn:Eq; try discriminate.
  exists (toy_phc L 2 [bright; 0; bright]), q, s1, s2, s3, (light [7 / 16] [RtoC 1]), ws, H. split; [exact EI|]. split; [exact Eq|].
  split; [cbn; lia|]. split; [exact ER|]. split; [exact EC|]. exists 0%nat. split; [lia|]. cbn [List.length] in EM.
  rewrite (EM 0%nat (1 + 0)%nat ltac:(simpl; lia) ltac:(simpl; lia)). unfold hopfield. cbv zeta. rewrite stack_0 by lia. rewrite stack_1 by lia.
  unfold coupl. cbn [nth]. rewrite sqrt_bright. intros Z. pose proof (nth_unit us 0%nat HU ltac:(rewrite Lu; cbn; lia)) as U.
  set (u := nth 0 us (RtoC 0)) in *. apply (f_equal (fun z => (z * u)%C)) in Z.
  assert (Z2 : (- Ci * RtoC (5 / 4) * (Cconj u * u))%C = RtoC 0) by (rewrite <- (Cmult_0_l u), <- Z; ring).
  rewrite U in Z2. apply (f_equal snd) in Z2. simpl in Z2. lra.
Qed.
