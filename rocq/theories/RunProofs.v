(** Proofs about the selection of bands. *)
From Coq Require Import Permutation List.
From Verif Require Import Py CBase SymModel SymSpec RecipModel SlabModel MatElModel RadModel RunModel RunSpec.
Open Scope R_scope.
Open Scope list_scope.

Lemma asc_map_take {A} (f : A -> R) l : ascending (map f l) -> forall n, ascending (map f (firstn n l)).
Proof.
  intros H n i j [Hij Hj]. rewrite map_length in Hj.
  assert (Hl : (List.length (firstn n l) <= List.length l)%nat) by (rewrite firstn_length; lia).
  assert (E : forall q, (q < List.length (firstn n l))%nat -> nth q (map f (firstn n l)) 0 = nth q (map f l) 0).
  { intros q Hq. rewrite <- firstn_map. rewrite <- (firstn_skipn n (map f l)) at 2.
    rewrite app_nth1; auto. rewrite firstn_map, map_length. exact Hq. }
  rewrite !E by lia. apply H. rewrite map_length. lia.
Qed.

Lemma nodup_app {A} (l m : list A) : NoDup (l ++ m) -> NoDup l /\ NoDup m /\ forall x, In x l -> ~ In x m.
Proof.
  induction l as [|a l IH]; simpl; intros H.
  - split; [constructor|]. split; [exact H|]. intros x [].
  - inversion H; subst. destruct (IH H3) as (I1 & I2 & I3). split.
    + constructor; auto. intros I. apply H2, in_or_app. auto.
    + split; auto. intros x [->|I]; auto. intros I'. apply H2, in_or_app. auto.
Qed.

Section Pick.
Variable argsort : list R -> list nat.
Hypothesis Hs : sorts argsort.

Lemma sort_len l : List.length (argsort l) = List.length l.
Proof. destruct (Hs l) as [H _]. rewrite (Permutation_length H), seq_length. reflexivity. Qed.
Lemma sort_in l i : In i (argsort l) <-> (i < List.length l)%nat.
Proof.
  destruct (Hs l) as [H _]. split.
  - intros I. apply (Permutation_in _ H) in I. apply in_seq in I. lia.
  - intros I. apply (Permutation_in _ (Permutation_sym H)). apply in_seq. lia.
Qed.
Lemma sort_nodup l : NoDup (argsort l).
Proof. destruct (Hs l) as [H _]. apply (Permutation_NoDup (Permutation_sym H)), seq_NoDup. Qed.

Lemma dist_nth v arr i : (i < List.length arr)%nat -> nth i (map (fun x => Rabs (x - v)) arr) 0 = Rabs (nth i arr 0 - v).
Proof.
  intros H. rewrite (nth_indep _ 0 (Rabs (0 - v))) by (rewrite map_length; auto).
  rewrite (map_nth (fun x => Rabs (x - v))). reflexivity.
Qed.

Lemma nearest_ok arr v n : (n <= List.length arr)%nat ->
  nearest (List.length arr) n (fun i => Rabs (nth i arr 0 - v)) (find_nearest argsort arr v n) /\
  ascending (map (fun i => Rabs (nth i arr 0 - v)) (find_nearest argsort arr v n)).
Proof.
  intros Hn. set (dv := map (fun x => Rabs (x - v)) arr).
  assert (Hl : List.length dv = List.length arr) by apply map_length.
  assert (HL : List.length (argsort dv) = List.length arr) by (rewrite sort_len; exact Hl).
  destruct (Hs dv) as [_ Ha].
  assert (Hin : forall i, In i (argsort dv) <-> (i < List.length arr)%nat) by (intros i; rewrite sort_in, Hl; reflexivity).
  unfold find_nearest. fold dv.
  assert (Hsub : forall i, In i (firstn n (argsort dv)) -> (i < List.length arr)%nat).
  { intros i Hi. apply Hin. rewrite <- (firstn_skipn n). apply in_or_app. auto. }
  assert (Hnd : NoDup (firstn n (argsort dv))).
  { apply (nodup_app _ (skipn n (argsort dv))). rewrite firstn_skipn. apply sort_nodup. }
  assert (Hmap : map (fun i => Rabs (nth i arr 0 - v)) (firstn n (argsort dv)) = map (fun i => nth i dv 0) (firstn n (argsort dv))).
  { apply map_ext_in. intros i Hi. unfold dv. rewrite dist_nth by (apply Hsub; auto). reflexivity. }
  split.
  - split; [rewrite firstn_length; lia|]. split; [exact Hnd|]. split; [exact Hsub|].
    intros i j Hi Hj Hnj.
    assert (Hj' : In j (skipn n (argsort dv))).
    { assert (I : In j (argsort dv)) by (apply Hin; auto). rewrite <- (firstn_skipn n) in I.
      apply in_app_or in I. destruct I; auto; contradiction. }
    destruct (In_nth _ _ 0%nat Hi) as (p & Hp & <-). destruct (In_nth _ _ 0%nat Hj') as (q & Hq & <-).
    rewrite firstn_length in Hp. rewrite skipn_length in Hq.
    assert (E1 : nth p (firstn n (argsort dv)) 0%nat = nth p (argsort dv) 0%nat).
    { rewrite <- (firstn_skipn n (argsort dv)) at 2. rewrite app_nth1; auto. rewrite firstn_length. lia. }
    assert (E2 : nth q (skipn n (argsort dv)) 0%nat = nth (n + q)%nat (argsort dv) 0%nat).
    { rewrite <- (firstn_skipn n (argsort dv)) at 2. rewrite app_nth2; rewrite firstn_length; [|lia].
      f_equal. lia. }
    rewrite E1, E2.
    rewrite <- !dist_nth. 2,3: apply Hin, nth_In; lia.
    fold dv. specialize (Ha p (n + q)%nat). rewrite map_length in Ha.
    assert (E3 : forall r, (r < List.length arr)%nat -> nth r (map (fun i => nth i dv 0) (argsort dv)) 0 = nth (nth r (argsort dv) 0%nat) dv 0).
    { intros r Hr. rewrite (nth_indep _ 0 (nth 0%nat dv 0)) by (rewrite map_length; lia).
      rewrite (map_nth (fun i => nth i dv 0)). reflexivity. }
    rewrite !E3 in Ha by lia. apply Ha. lia.
  - rewrite Hmap. apply asc_map_take. exact Ha.
Qed.

Lemma get_ok {A} (d : A) l i : (i < List.length l)%nat -> SymModel.get l i = Ok (nth i l d).
Proof. intros H. unfold SymModel.get. rewrite (nth_error_nth' _ d H). reflexivity. Qed.
Lemma get_inv {A} (d : A) l i x : SymModel.get l i = Ok x -> (i < List.length l)%nat /\ x = nth i l d.
Proof.
  unfold SymModel.get. intros H. destruct (nth_error l i) as [y|] eqn:E; [|discriminate].
  injection H as <-. split; [apply nth_error_Some; congruence|]. symmetry. apply nth_error_nth. exact E.
Qed.
Lemma take_ok {A} (d : A) l ix : (forall i, In i ix -> (i < List.length l)%nat) -> take_ix l ix = Ok (map (fun i => nth i l d) ix).
Proof.
  unfold take_ix. induction ix as [|i t IH]; intros H; [reflexivity|].
  cbn [mapM map]. rewrite (get_ok d) by (apply H; left; auto). cbn [bind].
  rewrite IH by (intros; apply H; right; auto). reflexivity.
Qed.
Lemma take_ok_iff {A} l ix (r : list A) : take_ix l ix = Ok r -> forall i, In i ix -> (i < List.length l)%nat.
Proof.
  unfold take_ix. revert r. induction ix as [|i t IH]; intros r H j [].
  - subst. cbn [mapM] in H. destruct (SymModel.get l j) as [x|] eqn:E; [|discriminate].
    unfold SymModel.get in E. destruct (nth_error l j) eqn:E2; [|discriminate]. apply nth_error_Some. congruence.
  - cbn [mapM] in H. destruct (SymModel.get l i) as [x|] eqn:E; [|discriminate]. cbn [bind] in H.
    destruct (mapM (SymModel.get l) t) as [y|] eqn:E2; [|discriminate]. apply (IH y); auto.
Qed.
Lemma take_raise {A} l ix : ~ (forall i, In i ix -> (i < @List.length A l)%nat) -> take_ix l ix = Raise IndexError.
Proof.
  unfold take_ix. induction ix as [|i t IH]; intros H; [exfalso; apply H; intros ? []|].
  cbn [mapM]. unfold SymModel.get at 1. destruct (nth_error l i) eqn:E; [|reflexivity]. cbn [bind].
  rewrite IH; [reflexivity|]. intros H2. apply H. intros j [<-|I]; [|auto]. apply nth_error_Some. congruence.
Qed.

Lemma pick_ok arr v n : (n <= List.length arr)%nat -> exists ix, pick argsort arr v n = Ok ix /\
  nearest (List.length arr) n (fun i => Rabs (nth i arr 0 - v)) ix /\ ascending (map (fun i => nth i arr 0) ix).
Proof.
  intros Hn. destruct (nearest_ok arr v n Hn) as [(H1 & H2 & H3 & H4) _]. unfold pick.
  set (near := find_nearest argsort arr v n) in *.
  rewrite (take_ok 0 arr near H3). cbn [bind].
  set (fn := map (fun i => nth i arr 0) near).
  assert (Hf : List.length fn = List.length near) by apply map_length.
  rewrite (take_ok 0%nat near).
  2:{ intros i Hi. apply sort_in in Hi. lia. }
  exists (map (fun i => nth i near 0%nat) (argsort fn)). split; [reflexivity|].
  assert (Hp : Permutation (map (fun i => nth i near 0%nat) (argsort fn)) near).
  { assert (Hq : Permutation (map (fun i => nth i near 0%nat) (argsort fn)) (map (fun i => nth i near 0%nat) (seq 0 (List.length near)))).
    { apply Permutation_map. rewrite <- Hf. apply Hs. }
    rewrite Hq. clear. induction near as [|a l IH]; [constructor|].
    cbn [List.length seq map nth]. constructor. rewrite <- seq_shift, map_map. exact IH. }
  split.
  - split; [rewrite (Permutation_length Hp); auto|]. split; [apply (Permutation_NoDup (Permutation_sym Hp)); auto|].
    split; [intros i Hi; apply H3; apply (Permutation_in _ Hp); auto|].
    intros i j Hi Hj Hnj. apply H4; auto; [apply (Permutation_in _ Hp); auto|].
    intros I. apply Hnj. apply (Permutation_in _ (Permutation_sym Hp)). auto.
  - rewrite map_map. destruct (Hs fn) as [_ Ha].
    assert (E : map (fun i => nth (nth i near 0%nat) arr 0) (argsort fn) = map (fun i => nth i fn 0) (argsort fn)).
    { apply map_ext_in. intros i Hi. apply sort_in in Hi. unfold fn.
      rewrite (nth_indep (map (fun i => nth i arr 0) near) 0 (nth 0%nat arr 0)) by (fold fn; lia).
      rewrite (map_nth (fun i => nth i arr 0)). reflexivity. }
    rewrite E. exact Ha.
Qed.
End Pick.

Lemma shift_nth ls j : (j < List.length ls)%nat -> nth j (map (fun l => l - 1) ls) 0 = nth j ls 0 - 1.
Proof.
  intros H. rewrite (nth_indep _ 0 (0 - 1)) by (rewrite map_length; auto).
  rewrite (map_nth (fun l => l - 1)). reflexivity.
Qed.
Lemma eye_row n a (v : cvec) i : (i < n)%nat ->
  csum n (fun k => Cmult (plus_eye a i k) (v k)) = Cplus (csum n (fun k => Cmult (ent a i k) (v k))) (v i).
Proof.
  intros Hi. rewrite <- (csum_delta n i (v i)) by auto. rewrite <- csum_plus. apply csum_ext. intros k Hk.
  unfold plus_eye. destruct (Nat.eqb_spec i k) as [->|Hne]; [rewrite Nat.eqb_refl; cring|].
  destruct (Nat.eqb_spec k i); [congruence|cring].
Qed.
(** eigensystem of M + 1 gives one of M *)
Lemma shift_system n a ls V : eigensystem n (plus_eye a) ls V ->
  eigensystem n (ent a) (map (fun l => l - 1) ls) V.
Proof.
  intros (H1 & H2 & H3). split; [rewrite map_length; auto|]. split; [exact H2|].
  intros i j Hi Hj. specialize (H3 i j Hi Hj). unfold mvec in *.
  pose proof (eye_row n a (fun k => V k j) i Hi) as E.
  rewrite E in H3.
  rewrite shift_nth by lia.
  replace (csum n (fun k => Cmult (ent a i k) (V k j))) with
    (Cminus (Cplus (csum n (fun k => Cmult (ent a i k) (V k j))) (V i j)) (V i j)) by (apply Ceq; simpl; ring).
  rewrite H3. cring.
Qed.

Definition herm (a : arr2) : Prop := nc a = nr a /\ forall i j, (i < nr a)%nat -> (j < nr a)%nat -> ent a i j = Cconj (ent a j i).
Lemma plus_eye_herm a n : (forall i j, (i < n)%nat -> (j < n)%nat -> ent a i j = Cconj (ent a j i)) ->
  forall i j, (i < n)%nat -> (j < n)%nat -> plus_eye a i j = Cconj (plus_eye a j i).
Proof.
  intros H i j Hi Hj. unfold plus_eye. rewrite (H i j Hi Hj), (Nat.eqb_sym j i).
  destruct (Nat.eqb i j); cring.
Qed.

Lemma to_freqs_len ls : List.length (to_freqs ls) = List.length ls.
Proof. apply map_length. Qed.
Lemma to_freqs_nth ls j : (j < List.length ls)%nat -> nth j (to_freqs ls) 0 = freq_of (nth j (map (fun l => l - 1) ls) 0).
Proof.
  intros H. unfold to_freqs.
  rewrite (nth_indep _ 0 (sqrt (Rabs (0 - 1)) / 2 / PI)) by (rewrite map_length; auto).
  rewrite (map_nth (fun l => sqrt (Rabs (l - 1)) / 2 / PI)).
  rewrite shift_nth by lia. unfold freq_of. field. apply PI_neq0.
Qed.

Section Solve.
Variable argsort : list R -> list nat.
Variable eigh : nat -> cmat -> list R * cmat.
Variable eigsh : nat -> cmat -> nat -> R -> result (list R * cmat).
Hypothesis Hs : sorts argsort.
Hypothesis He : diagonalises eigh.
Hypothesis Hsh : diagonalises_near eigsh.

Lemma plain_ok o a : herm a -> (o_numeig o <= nr a)%nat ->
  exists ls V idx fs vs, solve_plain argsort eigh o a = Ok (fs, vs) /\
    reports (nr a) (ent a) ls V idx fs vs /\
    nearest (nr a) (o_numeig o) (fun j => Rabs (freq_of (nth j ls 0) - o_sigma o)) idx.
Proof.
  intros [Hsq Hh] Hn. unfold solve_plain.
  pose proof (He (nr a) (plus_eye a) (plus_eye_herm a (nr a) Hh)) as Hsys.
  destruct (eigh (nr a) (plus_eye a)) as [ls V] eqn:E. cbn [fst snd] in Hsys.
  pose proof (proj1 Hsys) as Hl.
  destruct (pick_ok argsort Hs (to_freqs ls) (o_sigma o) (o_numeig o)) as (ix & E1 & (N1 & N2 & N3 & N4) & Ha).
  { rewrite to_freqs_len. lia. }
  rewrite to_freqs_len, Hl in N3, N4.
  rewrite E1. cbn [bind]. rewrite (take_ok 0).
  2:{ intros i Hi. rewrite to_freqs_len, Hl. auto. }
  cbn [bind]. exists (map (fun l => l - 1) ls), V, ix. eexists _, _. split; [reflexivity|].
  assert (Hf : forall j, (j < nr a)%nat -> nth j (to_freqs ls) 0 = freq_of (nth j (map (fun l => l - 1) ls) 0))
    by (intros j Hj; apply to_freqs_nth; lia).
  split.
  - split; [apply shift_system; exact Hsys|]. split; [apply map_ext_in; intros j Hj; apply Hf; auto|].
    split; [exact Ha|]. split; [apply map_length|].
    intros b Hb. unfold columns.
    rewrite (nth_indep _ (0%nat, fun _ => RtoC 0) ((fun j => (nr a, fun i => V i j)) 0%nat)) by (rewrite map_length; auto).
    rewrite (map_nth (fun j => (nr a, fun i => V i j))). cbn [fst snd]. split; auto.
  - split; auto. split; auto. split; auto. intros i j Hi Hj Hn'. rewrite <- !Hf by auto. apply N4; auto.
Qed.

Lemma eigsh_ok o a : herm a -> (0 < o_numeig o <= nr a)%nat ->
  ~ eigval (nr a) (ent a) (RtoC ((2 * PI * o_sigma o) * (2 * PI * o_sigma o))) ->
  exists ls V idx fs vs, solve_eigsh argsort eigsh o a = Ok (fs, vs) /\
    reports (nr a) (ent a) ls V idx fs vs /\
    nearest (nr a) (o_numeig o) (fun j => Rabs (nth j ls 0 - (2 * PI * o_sigma o) * (2 * PI * o_sigma o))) idx.
Proof.
  intros [Hsq Hh] Hn Hv. unfold solve_eigsh.
  set (sg := (o_sigma o * 2 * PI) * (o_sigma o * 2 * PI) + 1).
  assert (Hv' : ~ eigval (nr a) (plus_eye a) (RtoC sg)).
  { intros (v & Hnz & Hv'). apply Hv. exists v. split; [exact Hnz|]. intros i Hi. specialize (Hv' i Hi).
    unfold mvec in *.
    pose proof (eye_row (nr a) a v i Hi) as E.
    rewrite E in Hv'.
    replace (csum (nr a) (fun k => Cmult (ent a i k) (v k))) with
      (Cminus (Cplus (csum (nr a) (fun k => Cmult (ent a i k) (v k))) (v i)) (v i)) by (apply Ceq; simpl; ring).
    rewrite Hv'. unfold sg. cring. }
  destruct (Hsh (nr a) (plus_eye a) (o_numeig o) sg (plus_eye_herm a (nr a) Hh) Hn Hv')
    as (ls & V & ix & ks & W & Hsys & (N1 & N2 & N3 & N4) & E & Ek & HW).
  rewrite E. cbn [bind].
  pose proof (proj1 Hsys) as Hl.
  assert (Hlk : List.length ks = o_numeig o) by (rewrite Ek, map_length; auto).
  set (so := argsort (to_freqs ks)).
  assert (Hso : forall i, In i so <-> (i < o_numeig o)%nat).
  { intros i. unfold so. rewrite (sort_in argsort Hs), to_freqs_len, Hlk. reflexivity. }
  rewrite (take_ok 0). 2:{ intros i Hi. rewrite to_freqs_len, Hlk. apply Hso; auto. }
  cbn [bind].
  set (idx := map (fun c => nth c ix 0%nat) so).
  exists (map (fun l => l - 1) ls), V, idx. eexists _, _. split; [reflexivity|].
  assert (Hkn : forall c, (c < o_numeig o)%nat -> nth c ks 0 = nth (nth c ix 0%nat) ls 0).
  { intros c Hc. rewrite Ek. rewrite (nth_indep _ 0 (nth 0%nat ls 0)) by (rewrite map_length; lia).
    rewrite (map_nth (fun j => nth j ls 0)). reflexivity. }
  assert (Hpi : Permutation idx ix).
  { unfold idx. assert (Hq : Permutation so (seq 0 (List.length ix))).
    { rewrite N1, <- Hlk, <- to_freqs_len. apply Hs. }
    rewrite Hq. clear. induction ix as [|x l IH]; [constructor|].
    cbn [List.length seq map nth]. constructor. rewrite <- seq_shift, map_map. exact IH. }
  assert (Hsub : forall j, (j < nr a)%nat -> nth j (map (fun l => l - 1) ls) 0 = nth j ls 0 - 1).
  { intros j Hj. apply shift_nth. lia. }
  split.
  - split; [apply shift_system; exact Hsys|].
    assert (Ef : map (fun i => nth i (to_freqs ks) 0) so = map (fun j => freq_of (nth j (map (fun l => l - 1) ls) 0)) idx).
    { unfold idx. rewrite map_map. apply map_ext_in. intros c Hc. apply Hso in Hc.
      rewrite to_freqs_nth by lia. f_equal.
      rewrite shift_nth by lia.
      rewrite Hsub by (apply N3, nth_In; lia). rewrite Hkn by lia. reflexivity. }
    split; [exact Ef|]. split; [apply (proj2 (Hs (to_freqs ks)))|].
    assert (Hli : List.length idx = List.length so) by apply map_length.
    split; [unfold columns; rewrite map_length; symmetry; exact Hli|].
    intros b Hb. unfold columns.
    rewrite (nth_indep _ (0%nat, fun _ => RtoC 0) ((fun j => (nr a, fun i => W i j)) 0%nat)) by (rewrite map_length; lia).
    rewrite (map_nth (fun j => (nr a, fun i => W i j))). cbn [fst snd]. split; auto.
    intros i Hi. rewrite HW; auto.
    2:{ apply Hso, nth_In. lia. }
    f_equal. unfold idx. rewrite (nth_indep (map (fun c => nth c ix 0%nat) so) 0%nat (nth 0%nat ix 0%nat)) by (fold idx; lia).
    rewrite (map_nth (fun c => nth c ix 0%nat)). reflexivity.
  - split; [rewrite (Permutation_length Hpi); auto|]. split; [apply (Permutation_NoDup (Permutation_sym Hpi)); auto|].
    assert (H3 : forall i, In i idx -> (i < nr a)%nat) by (intros i Hi; apply N3, (Permutation_in _ Hpi); auto).
    split; [exact H3|].
    intros i j Hi Hj Hnj. rewrite !Hsub by auto.
    assert (Hc : Rabs (nth i ls 0 - sg) <= Rabs (nth j ls 0 - sg)).
    { apply N4; auto; [apply (Permutation_in _ Hpi); auto|].
      intros I. apply Hnj, (Permutation_in _ (Permutation_sym Hpi)); auto. }
    unfold sg in Hc. replace (nth i ls 0 - 1 - 2 * PI * o_sigma o * (2 * PI * o_sigma o)) with (nth i ls 0 - (o_sigma o * 2 * PI * (o_sigma o * 2 * PI) + 1)) by ring.
    replace (nth j ls 0 - 1 - 2 * PI * o_sigma o * (2 * PI * o_sigma o)) with (nth j ls 0 - (o_sigma o * 2 * PI * (o_sigma o * 2 * PI) + 1)) by ring.
    exact Hc.
Qed.
End Solve.
