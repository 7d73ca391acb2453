(** The assembled GME matrix (C29, C30, C77). *)
From Verif Require Import Py CBase SlabModel SlabProofs MatElModel MatElSpec MatElProofs MatElProofs2.
Open Scope R_scope.

Lemma bl_nr dl eps ds einv d a b : nr (mat_block dl eps ds einv d a b) = md_size (snd a).
Proof. unfold mat_block. destruct (Nat.even (fst a)), (Nat.even (fst b)); reflexivity. Qed.
Lemma bl_nc dl eps ds einv d a b : nc (mat_block dl eps ds einv d a b) = md_size (snd b).
Proof. unfold mat_block. destruct (Nat.even (fst a)), (Nat.even (fst b)); reflexivity. Qed.

Definition dgm : nat * gmode := (0%nat, GMode [] (fun _ => 0) (fun _ _ => RtoC 0) (fun _ _ => RtoC 0) (fun _ _ => RtoC 0)).

Lemma include_in inds te tm m : In m (gmode_include inds te tm) <-> In m inds /\ entry te tm m <> None.
Proof.
  unfold gmode_include, entry. rewrite filter_In. split; intros [H1 H2]; split; auto.
  - apply nth_error_Some. destruct (Nat.even m); apply Nat.ltb_lt in H2; auto.
  - apply nth_error_Some in H2. destruct (Nat.even m); apply Nat.ltb_lt; auto.
Qed.

Lemma include_present inds te tm : gmode_include inds te tm = present te tm inds.
Proof.
  unfold gmode_include, present, entry. apply filter_ext. intros m.
  destruct (Nat.even m).
  - destruct (nth_error te (m / 2)) eqn:E; [apply Nat.ltb_lt, nth_error_Some; congruence|apply Nat.ltb_ge, nth_error_None; auto].
  - destruct (nth_error tm (m / 2)) eqn:E; [apply Nat.ltb_lt, nth_error_Some; congruence|apply Nat.ltb_ge, nth_error_None; auto].
Qed.
Lemma present_in inds (te tm : gtable) m : In m (present te tm inds) <-> In m inds /\ entry te tm m <> None.
Proof. rewrite <- include_present. apply include_in. Qed.

Lemma last_n_hd {A} n (l : list A) : (0 < n <= List.length l)%nat ->
  exists x t, last_n n l = x :: t /\ nth_error l (List.length l - n) = Some x.
Proof.
  intros H. unfold last_n. destruct n as [|n]; [lia|].
  destruct (skipn (List.length l - S n) l) as [|x t] eqn:E.
  - pose proof (skipn_length (List.length l - S n) l) as L. rewrite E in L. simpl in L. lia.
  - exists x, t. split; auto.
    rewrite <- (firstn_skipn (List.length l - S n) l) at 1. rewrite E.
    rewrite nth_error_app2; rewrite firstn_length, Nat.min_l by lia; [|lia].
    rewrite Nat.sub_diag. reflexivity.
Qed.

Section Cm.
Variables (dl : R) (gvec : list (R * R)) (k : R * R) (dgx : R) (inds : list nat) (garr : list R) (te tm : gtable) (eps ds : list R) (einv : nat -> cmat).
Let d := gk_data gvec k dgx.
Let gg m := get_guided (List.length gvec) (gk_len d) garr te tm eps m.

Lemma guided_ind m : (forall oms cs, entry te tm m = Some (oms, cs) -> (0 < List.length oms <= List.length garr)%nat) ->
  entry te tm m <> None -> exists g, gg m = Ok g /\ NoDup (md_ind g) /\ forall i, In i (md_ind g) <-> supports gvec k dgx garr te tm m i.
Proof.
  intros H Hn. unfold gg, get_guided. fold (entry te tm m). unfold supports.
  destruct (entry te tm m) as [[oms cs]|] eqn:E; [|congruence].
  destruct (last_n_hd (List.length oms) garr (H oms cs eq_refl)) as [g0 [t [E1 E2]]]. rewrite E1.
  eexists. split; [reflexivity|]. cbn [md_ind]. unfold argwhere_gt. split.
  - apply NoDup_filter, seq_NoDup.
  - intros i. rewrite filter_In, in_seq, Rltb_true. cbn [gk_len gk_data]. split.
    + intros [H1 H2]. split; [lia|]. exists oms, cs, g0. auto.
    + intros [H1 [oms' [cs' [g0' [F1 [F2 F3]]]]]]. injection F1 as <- <-. rewrite E2 in F2. injection F2 as <-. split; [lia|]. exact F3.
Qed.

Hypothesis Htab : forall m oms cs, entry te tm m = Some (oms, cs) -> (0 < List.length oms <= List.length garr)%nat.

Lemma modes_ok : forall l, (forall m, In m l -> entry te tm m <> None) ->
  exists ms, mapM (fun m => let* g := gg m in Ok (m, g)) l = Ok ms /\ map fst ms = l /\
    Forall (fun x => gg (fst x) = Ok (snd x) /\ NoDup (md_ind (snd x)) /\ forall i, In i (md_ind (snd x)) <-> supports gvec k dgx garr te tm (fst x) i) ms.
Proof.
  induction l as [|m l IH]; intros H.
  - exists []. repeat split; auto.
  - destruct (guided_ind m (Htab m)) as [g [E1 [E2 E3]]]; [apply H; left; auto|].
    destruct IH as [ms [F1 [F2 F3]]]; [intros; apply H; right; auto|].
    cbn [mapM]. rewrite E1. cbn [bind]. rewrite F1. cbn [bind]. exists ((m, g) :: ms). split; auto. split; [simpl; congruence|].
    constructor; auto.
Qed.

Lemma no_mode : (forall m, In m inds -> entry te tm m = None) -> construct_mat dl gvec k dgx inds garr te tm eps ds einv = Raise RuntimeError.
Proof.
  intros H. unfold construct_mat.
  destruct (gmode_include inds te tm) as [|m l] eqn:E; auto.
  assert (I : In m (gmode_include inds te tm)) by (rewrite E; left; auto).
  apply include_in in I. destruct I as [I1 I2]. rewrite (H m I1) in I2. congruence.
Qed.

Lemma matrix_ok : (exists m, In m inds /\ entry te tm m <> None) ->
  exists ms M, construct_mat dl gvec k dgx inds garr te tm eps ds einv = Ok M /\
    map fst ms = present te tm inds /\
    Forall (fun x => gg (fst x) = Ok (snd x) /\ NoDup (md_ind (snd x)) /\ forall i, In i (md_ind (snd x)) <-> supports gvec k dgx garr te tm (fst x) i) ms /\
    let sz := map (fun x => List.length (md_ind (snd x))) ms in
    nr M = list_sum sz /\ nc M = list_sum sz /\
    (forall i j, (ent M i j) = Cconj (ent M j i)) /\
    (forall p r, (p < List.length ms)%nat -> (r < nth p sz 0)%nat ->
       ent M (offset sz p + r) (offset sz p + r) = RtoC (fst (ent (mat_block dl eps ds einv d (nth p ms dgm) (nth p ms dgm)) r r))) /\
    (forall p q r s, (p < List.length ms)%nat -> (q < List.length ms)%nat -> (r < nth p sz 0)%nat -> (s < nth q sz 0)%nat ->
       (offset sz p + r < offset sz q + s)%nat ->
       ent M (offset sz p + r) (offset sz q + s) = ent (mat_block dl eps ds einv d (nth p ms dgm) (nth q ms dgm)) r s).
Proof.
  intros [m0 H0]. unfold construct_mat. fold d.
  assert (I0 : In m0 (gmode_include inds te tm)) by (apply include_in; auto).
  destruct (gmode_include inds te tm) as [|m l] eqn:E; [destruct I0|].
  destruct (modes_ok (m :: l)) as [ms [F1 [F2 F3]]].
  { intros x Hx. rewrite <- E in Hx. apply include_in in Hx. apply Hx. }
  unfold gg in F1. rewrite F1. cbn [bind].
  destruct (assembled (mat_block dl eps ds einv d) (bl_nr dl eps ds einv d) (bl_nc dl eps ds einv d) dgm ms) as [M [E1 [E2 [E3 [E4 [E5 E6]]]]]].
  { intros Z. rewrite Z in F2. discriminate. }
  exists ms, M. split; [exact E1|]. split; [|split; [exact F3|]].
  - rewrite F2, <- E. apply include_present.
  - split; [exact E2|]. split; [exact E3|]. split; [exact E4|]. split; [exact E5|exact E6].
Qed.
End Cm.

(** with no regulariser and Hermitian inverse permittivities every entry, above
    and below the diagonal, is the matrix element of its own pair *)
Lemma matrix_pairs gvec k dgx inds garr te tm eps ds einv : herm_layers einv ->
  (forall m oms cs, entry te tm m = Some (oms, cs) -> (0 < List.length oms <= List.length garr)%nat) ->
  (exists m, In m inds /\ entry te tm m <> None) ->
  exists ms M, construct_mat 0 gvec k dgx inds garr te tm eps ds einv = Ok M /\
    map fst ms = present te tm inds /\
    Forall (fun x => get_guided (List.length gvec) (gk_len (gk_data gvec k dgx)) garr te tm eps (fst x) = Ok (snd x)) ms /\
    let sz := map (fun x => List.length (md_ind (snd x))) ms in
    nr M = list_sum sz /\ nc M = list_sum sz /\
    (forall p q r s, (p < List.length ms)%nat -> (q < List.length ms)%nat -> (r < nth p sz 0)%nat -> (s < nth q sz 0)%nat ->
       ent M (offset sz p + r) (offset sz q + s) = ent (mat_block 0 eps ds einv (gk_data gvec k dgx) (nth p ms dgm) (nth q ms dgm)) r s).
Proof.
  intros HE Htab Hex. destruct (matrix_ok 0 gvec k dgx inds garr te tm eps ds einv Htab Hex) as [ms [M [E1 [E2 [E2' [E3 [E4 [E5 [E6 E7]]]]]]]]].
  exists ms, M. split; auto. split; auto. split; [eapply Forall_impl; [|exact E2']; intros x [? _]; auto|]. split; auto. split; auto.
  intros p q r s Hp Hq Hr Hs. set (sz := map (fun x => List.length (md_ind (snd x))) ms) in *.
  assert (Z : (- 0)%R = 0%R) by ring.
  destruct (Nat.lt_trichotomy (offset sz p + r) (offset sz q + s)) as [L|[L|L]].
  - apply E7; auto.
  - assert (p = q /\ r = s) as [-> ->].
    { destruct (Nat.lt_trichotomy p q) as [G|[G|G]].
      - pose proof (off_step sz p ltac:(unfold sz; rewrite map_length; auto)). pose proof (off_le sz (S p) q ltac:(lia)). lia.
      - subst. split; auto. lia.
      - pose proof (off_step sz q ltac:(unfold sz; rewrite map_length; auto)). pose proof (off_le sz (S q) p ltac:(lia)). lia. }
    rewrite E6 by auto.
    pose proof (block_adj 0 eps ds einv (gk_data gvec k dgx) (nth q ms dgm) (nth q ms dgm) s s HE) as A. rewrite Z in A.
    set (x := ent _ s s) in *. apply (f_equal snd) in A. simpl in A. apply Ceq; simpl; lra.
  - rewrite E5, E7 by auto.
    pose proof (block_adj 0 eps ds einv (gk_data gvec k dgx) (nth p ms dgm) (nth q ms dgm) r s HE) as A. rewrite Z in A. exact A.
Qed.

(** the result is the same whatever the order of the requested modes *)
Lemma order_free gvec k dgx inds inds' garr te tm eps ds einv : herm_layers einv ->
  (forall m oms cs, entry te tm m = Some (oms, cs) -> (0 < List.length oms <= List.length garr)%nat) ->
  (exists m, In m inds /\ entry te tm m <> None) -> (forall m, In m inds <-> In m inds') ->
  exists ms ms' M M',
    construct_mat 0 gvec k dgx inds garr te tm eps ds einv = Ok M /\
    construct_mat 0 gvec k dgx inds' garr te tm eps ds einv = Ok M' /\
    (forall m, In m (map fst ms) <-> In m inds /\ entry te tm m <> None) /\
    (forall m, In m (map fst ms') <-> In m inds /\ entry te tm m <> None) /\
    let sz := map (fun x : nat * gmode => List.length (md_ind (snd x))) in
    nr M = list_sum (sz ms) /\ nr M' = list_sum (sz ms') /\
    forall p q p' q' r s, (p < List.length ms)%nat -> (q < List.length ms)%nat -> (p' < List.length ms')%nat -> (q' < List.length ms')%nat ->
      fst (nth p ms dgm) = fst (nth p' ms' dgm) -> fst (nth q ms dgm) = fst (nth q' ms' dgm) ->
      nth p (sz ms) 0%nat = nth p' (sz ms') 0%nat /\ nth q (sz ms) 0%nat = nth q' (sz ms') 0%nat /\
      ((r < nth p (sz ms) 0)%nat -> (s < nth q (sz ms) 0)%nat ->
       ent M (offset (sz ms) p + r) (offset (sz ms) q + s) = ent M' (offset (sz ms') p' + r) (offset (sz ms') q' + s)).
Proof.
  intros HE Htab Hex Hp.
  destruct (matrix_pairs gvec k dgx inds garr te tm eps ds einv HE Htab Hex) as [ms [M [E1 [E2 [E3 [E4 [_ E5]]]]]]].
  assert (Hex' : exists m, In m inds' /\ entry te tm m <> None) by (destruct Hex as [m [? ?]]; exists m; split; auto; apply Hp; auto).
  destruct (matrix_pairs gvec k dgx inds' garr te tm eps ds einv HE Htab Hex') as [ms' [M' [F1 [F2 [F3 [F4 [_ F5]]]]]]].
  exists ms, ms', M, M'. split; auto. split; auto. split; [intros m; rewrite E2; apply present_in|]. split; [intros m; rewrite F2, present_in, Hp; tauto|].
  cbv zeta. split; auto. split; auto.
  intros p q p' q' r s Lp Lq Lp' Lq' Np Nq.
  assert (Same : forall u v, (u < List.length ms)%nat -> (v < List.length ms')%nat -> fst (nth u ms dgm) = fst (nth v ms' dgm) -> nth u ms dgm = nth v ms' dgm).
  { intros u v Lu Lv N. rewrite Forall_forall in E3, F3.
    pose proof (E3 _ (nth_In ms dgm Lu)) as A. pose proof (F3 _ (nth_In ms' dgm Lv)) as B. rewrite N, B in A.
    injection A as A. destruct (nth u ms dgm), (nth v ms' dgm). simpl in *. congruence. }
  assert (Sz : forall u v, (u < List.length ms)%nat -> (v < List.length ms')%nat -> fst (nth u ms dgm) = fst (nth v ms' dgm) ->
     nth u (map (fun x : nat * gmode => List.length (md_ind (snd x))) ms) 0%nat = nth v (map (fun x : nat * gmode => List.length (md_ind (snd x))) ms') 0%nat).
  { intros u v Lu Lv N. set (f := fun x : nat * gmode => List.length (md_ind (snd x))).
    pose proof (map_nth f ms dgm u) as A. pose proof (map_nth f ms' dgm v) as B. unfold f in *. simpl in A, B. rewrite A, B, (Same u v); auto. }
  split; auto. split; auto. intros Hr Hs.
  rewrite E5 by auto. rewrite F5; auto; try (rewrite <- (Sz p p') by auto; auto); try (rewrite <- (Sz q q') by auto; auto).
  rewrite (Same p p'), (Same q q') by auto. reflexivity.
Qed.

(** ** example data *)
Definition ex_c : nat -> C * C := fun il => match il with 0%nat => (RtoC 0, RtoC 1) | 1%nat => (RtoC 1, RtoC 2) | _ => (RtoC 1, RtoC 0) end.
Definition ex_te : gtable := [([1; 3/2], [ex_c; ex_c])].
Definition ex_tm : gtable := [([3/2], [ex_c])].
Lemma ex_tab : forall m oms cs, entry ex_te ex_tm m = Some (oms, cs) -> (0 < List.length oms <= List.length [1; 2])%nat.
Proof.
  intros m oms cs. unfold entry. destruct (Nat.even m), (m / 2)%nat as [|[|]]; simpl; intros E; try discriminate; injection E as <- <-; simpl; lia.
Qed.
