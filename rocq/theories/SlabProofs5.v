(** The guided-mode search (C33). *)
From Verif Require Import Py CBase SlabModel SlabSpec SlabProofs SlabProofs2.
From Coq Require Import Sorted.
Open Scope string_scope.
Open Scope list_scope.
Open Scope R_scope.

(** ** np.arange *)
Lemma ceil_spec x : x <= IZR (- Int_part (- x)) < x + 1.
Proof.
  rewrite opp_IZR. destruct (base_Int_part (- x)) as [H1 H2]. lra.
Qed.
Lemma arange_empty lb ub step : 0 < step -> ub <= lb -> arange lb ub step = [].
Proof.
  intros Hs H. unfold arange. destruct (ceil_spec ((ub - lb) / step)) as [C1 C2].
  assert (X : (ub - lb) / step <= 0).
  { unfold Rdiv. rewrite <- (Rmult_0_l (/ step)). apply Rmult_le_compat_r; [left; apply Rinv_0_lt_compat; auto|lra]. }
  assert (Z : (- Int_part (- ((ub - lb) / step)) < 1)%Z) by (apply lt_IZR; lra).
  replace (Z.to_nat _) with 0%nat by lia. reflexivity.
Qed.
Lemma arange_n lb ub step : 0 < step -> lb < ub -> exists n,
  arange lb ub step = map (fun k => lb + INR k * step) (seq 0 (S n)) /\
  lb + INR n * step < ub <= lb + INR (S n) * step.
Proof.
  intros Hs H. unfold arange. destruct (ceil_spec ((ub - lb) / step)) as [C1 C2].
  set (z := (- Int_part (- ((ub - lb) / step)))%Z) in *.
  assert (X : 0 < (ub - lb) / step) by (apply Rdiv_lt_0_compat; lra).
  assert (Z : (0 < z)%Z) by (apply lt_IZR; lra).
  exists (Z.to_nat z - 1)%nat. replace (S (Z.to_nat z - 1)) with (Z.to_nat z) by lia. split; auto.
  assert (E : INR (Z.to_nat z) = IZR z) by (rewrite INR_IZR_INZ, Z2Nat.id; auto; lia).
  assert (E' : INR (Z.to_nat z - 1) = IZR z - 1).
  { rewrite minus_INR by lia. rewrite E. reflexivity. }
  rewrite E, E'. assert (Q : (ub - lb) / step * step = ub - lb) by (field; lra).
  split.
  - assert ((IZR z - 1) * step < (ub - lb) / step * step) by (apply Rmult_lt_compat_r; lra). lra.
  - assert ((ub - lb) / step * step <= IZR z * step) by (apply Rmult_le_compat_r; lra). lra.
Qed.

(** ** grid *)
Lemma bounds_grid a b step : 0 < step -> a < b -> is_grid a b step (arange a b step ++ [b]).
Proof.
  intros Hs H. destruct (arange_n a b step Hs H) as [n [E [B1 B2]]]. rewrite E.
  split; [|split].
  - simpl. ring.
  - apply last_last.
  - intros k Hk. rewrite app_length, map_length, seq_length in Hk. simpl in Hk.
    assert (G : forall j, (j <= n)%nat -> nth j (map (fun k => a + INR k * step) (seq 0 (S n)) ++ [b]) 0 = a + INR j * step).
    { intros j Hj. rewrite app_nth1 by (rewrite map_length, seq_length; lia).
      rewrite (nth_indep _ 0 (a + INR 0 * step)) by (rewrite map_length, seq_length; lia).
      rewrite (map_nth (fun k => a + INR k * step)). rewrite seq_nth by lia. reflexivity. }
    rewrite (G k) by lia.
    destruct (Nat.eq_dec k n) as [->|Hne].
    + rewrite app_nth2 by (rewrite map_length, seq_length; lia). rewrite map_length, seq_length, Nat.sub_diag. simpl nth.
      rewrite S_INR in B2. lra.
    + rewrite (G (S k)) by lia. rewrite S_INR. lra.
Qed.

Fixpoint inc (l : list R) : Prop :=
  match l with x :: ((y :: _) as t) => x < y /\ inc t | _ => True end.
Lemma inc_nth l : (forall k, (S k < List.length l)%nat -> nth k l 0 < nth (S k) l 0) -> inc l.
Proof.
  induction l as [|x [|y t] IH]; simpl; auto. intros H. split.
  - apply (H 0%nat). lia.
  - apply IH. intros k Hk. apply (H (S k)). simpl in *. lia.
Qed.
Lemma pairs_cons {A} (x y : A) t : pairs (x :: y :: t) = (x, y) :: pairs (y :: t).
Proof. reflexivity. Qed.
Lemma pairs_nth {A} (d : A) l a b : In (a, b) (pairs l) <->
  exists k, (S k < List.length l)%nat /\ nth k l d = a /\ nth (S k) l d = b.
Proof.
  induction l as [|x [|y t] IH].
  - simpl. split; [tauto|]. intros [k [H _]]. lia.
  - simpl. split; [tauto|]. intros [k [H _]]. lia.
  - rewrite pairs_cons. simpl In. rewrite IH. split.
    + intros [E|[k [H1 [H2 H3]]]].
      * inversion E; subst. exists 0%nat. simpl. repeat split; lia.
      * exists (S k). simpl in *. repeat split; auto; lia.
    + intros [[|k] [H1 [H2 H3]]].
      * left. simpl in H2, H3. subst; auto.
      * right. exists k. simpl in *. repeat split; auto; lia.
Qed.
Lemma inc_pairs x t a b : inc (x :: t) -> In (a, b) (pairs (x :: t)) -> x <= a /\ a < b.
Proof.
  revert x. induction t as [|y t IH]; intros x H; simpl; [tauto|].
  simpl in H. destruct H as [H1 H2]. intros [E|E].
  - inversion E; subst. lra.
  - destruct (IH y H2 E). lra.
Qed.

Section Search.
Variables (D : R -> R) (rt : R -> R -> R).
Hypothesis Hrt : forall a b, a < b -> D a * D b < 0 -> a < rt a b < b /\ D (rt a b) = 0.
Definition sc (p : R * R) : bool := Rltb (D (fst p) * D (snd p)) 0.
Definition roots (n : nat) (pts : list R) : list R :=
  map (fun p => rt (fst p) (snd p)) (firstn n (filter sc (pairs pts))).

Lemma roots_spec pts : inc pts -> forall n,
  (List.length (roots n pts) <= n)%nat /\ StronglySorted Rlt (roots n pts) /\
  (forall w, In w (roots n pts) -> exists a b, In (a, b) (pairs pts) /\ a < w < b /\ D a * D b < 0 /\ D w = 0) /\
  (forall a b, In (a, b) (pairs pts) -> D a * D b < 0 ->
     (exists w, In w (roots n pts) /\ a < w < b /\ forall w', In w' (roots n pts) -> a < w' < b -> w' = w) \/
     (List.length (roots n pts) = n /\ forall w, In w (roots n pts) -> w < a)).
Proof.
  induction pts as [|x [|y t] IH]; intros Hinc n.
  - unfold roots. simpl. rewrite firstn_nil. simpl. repeat split; try tauto; try lia. constructor.
  - unfold roots. simpl. rewrite firstn_nil. simpl. repeat split; try tauto; try lia. constructor.
  - destruct Hinc as [Hxy Hinc]. specialize (IH Hinc).
    assert (Y : forall a b, In (a, b) (pairs (y :: t)) -> y <= a /\ a < b) by (intros; apply (inc_pairs y t); auto).
    destruct (sc (x, y)) eqn:Esc.
    + assert (Dxy : D x * D y < 0) by (apply Rltb_true in Esc; exact Esc).
      destruct (Hrt x y Hxy Dxy) as [W0 W0'].
      destruct n as [|m].
      * unfold roots. rewrite !firstn_O. simpl map. split; [simpl; lia|]. split; [constructor|]. split.
        -- simpl; tauto.
        -- intros a b _ _. right. split; auto. simpl; tauto.
      * assert (E : roots (S m) (x :: y :: t) = rt x y :: roots m (y :: t)).
        { unfold roots. rewrite pairs_cons. cbn [filter]. rewrite Esc. reflexivity. }
        rewrite E. destruct (IH m) as [L [S1 [S2 S3]]].
        assert (G : forall w, In w (roots m (y :: t)) -> y < w).
        { intros w Hw. destruct (S2 w Hw) as [a [b [Hab [Hw' _]]]]. destruct (Y a b Hab). lra. }
        split; [|split; [|split]].
        -- simpl; lia.
        -- constructor; auto. apply Forall_forall. intros w Hw. specialize (G w Hw). lra.
        -- intros w [<-|Hw].
           ++ exists x, y. split; [left; auto|]. auto.
           ++ destruct (S2 w Hw) as [a [b [H1 H2]]]. exists a, b. split; [right; auto|auto].
        -- intros a b [Eab|Hab] Dab.
           ++ inversion Eab; subst a b. left. exists (rt x y). split; [left; auto|]. split; auto.
              intros w' [<-|Hw'] Hb; auto. specialize (G w' Hw'). lra.
           ++ destruct (Y a b Hab) as [Y1 Y2].
              destruct (S3 a b Hab Dab) as [[w [H1 [H2 H3]]]|[H1 H2]].
              ** left. exists w. split; [right; auto|]. split; auto.
                 intros w' [<-|Hw'] Hb; [lra|]. apply H3; auto.
              ** right. split; [simpl; lia|]. intros w [<-|Hw]; [lra|auto].
    + assert (E : roots n (x :: y :: t) = roots n (y :: t)).
      { unfold roots. rewrite pairs_cons. cbn [filter]. rewrite Esc. reflexivity. }
      rewrite E. destruct (IH n) as [L [S1 [S2 S3]]]. split; auto. split; auto. split.
      * intros w Hw. destruct (S2 w Hw) as [a [b [H1 H2]]]. exists a, b. split; [right; auto|auto].
      * intros a b [Eab|Hab] Dab.
        -- inversion Eab; subst a b. apply Rltb_false in Esc. simpl in Esc. lra.
        -- apply S3; auto.
Qed.

Lemma sorted_inc l : StronglySorted Rlt l -> increasing l.
Proof.
  induction 1 as [|x l HS IH HF]; intros i j [Hij Hj]; simpl in Hj; [lia|].
  destruct i as [|i], j as [|j]; try lia; simpl.
  - rewrite Forall_forall in HF. apply HF. apply nth_In. lia.
  - apply IH. lia.
Qed.

Lemma grid_between a b h pts k : is_grid a b h pts -> (S k < List.length pts)%nat -> a <= nth k pts 0 /\ nth (S k) pts 0 <= b.
Proof.
  intros [G1 [G2 G3]] Hk.
  assert (M : forall i j, (i <= j)%nat -> (j < List.length pts)%nat -> nth i pts 0 <= nth j pts 0).
  { intros i j Hij. induction Hij as [|j Hij IH]; intros Hj; [lra|].
    destruct (G3 j Hj). specialize (IH ltac:(lia)). lra. }
  split.
  - rewrite <- G1. destruct pts; [simpl in Hk; lia|]. change (hd 0 (r :: pts)) with (nth 0 (r :: pts) 0). apply M; lia.
  - rewrite <- G2. replace (last pts 0) with (nth (List.length pts - 1) pts 0).
    + apply M; lia.
    + clear. induction pts as [|x [|y t] IH]; auto.
      change (last (x :: y :: t) 0) with (last (y :: t) 0). rewrite <- IH. simpl. rewrite Nat.sub_0_r. reflexivity.
Qed.

Lemma roots_search a b h n : 0 < h -> search_spec D a b h n (roots n (arange a b h ++ [b])).
Proof.
  intros Hh. destruct (Rle_dec b a) as [Hba|Hba].
  - rewrite arange_empty by auto. unfold roots. simpl. rewrite firstn_nil. simpl.
    repeat split; simpl; try tauto; try lia; try lra. intros i j Hij. simpl in Hij. lia.
  - assert (Hab : a < b) by lra. pose proof (bounds_grid a b h Hh Hab) as G.
    set (pts := arange a b h ++ [b]) in *.
    assert (HI : inc pts) by (apply inc_nth; intros; apply G; auto).
    destruct (roots_spec pts HI n) as [L [S1 [S2 S3]]].
    assert (W : forall w, In w (roots n pts) -> exists k, (S k < List.length pts)%nat /\
        nth k pts 0 < w < nth (S k) pts 0 /\ D (nth k pts 0) * D (nth (S k) pts 0) < 0 /\ D w = 0).
    { intros w Hw. destruct (S2 w Hw) as [x [y [P1 [P2 [P3 P4]]]]].
      apply (pairs_nth 0) in P1. destruct P1 as [k [K1 [K2 K3]]]. exists k. subst. auto. }
    split; [auto|]. split; [apply sorted_inc; auto|]. split; [|split; [lra|]].
    + intros w Hw. destruct (W w Hw) as [k [K1 [K2 [K3 K4]]]].
      destruct (grid_between a b h pts k G K1). split; [lra|auto].
    + intros _. exists pts. split; auto. split.
      * intros w Hw. destruct (W w Hw) as [k [K1 [K2 [K3 K4]]]]. exists k; auto.
      * intros k Hk Dk. apply S3; auto. apply (pairs_nth 0). exists k; auto.
Qed.
End Search.

(** ** totality of the model's loops *)
Lemma D_loop_total te omega g es : forall e1 D ds, List.length ds = List.length es ->
  exists D', D_loop D (Slist te omega g (e1 :: es)) (Tlist omega g (e1 :: es) ds) = Ok D'.
Proof.
  induction es as [|e2 es IH]; intros e1 D ds Hl.
  - exists D. reflexivity.
  - destruct ds as [|d ds]; [simpl in Hl; lia|]. rewrite Slist_cons, Tlist_cons. cbn [D_loop]. apply IH. simpl in Hl; lia.
Qed.
Lemma D22_total pol omega g eps ds : is_te pol || is_tm pol = true ->
  (List.length ds + 2 = List.length eps)%nat -> exists z, D22 pol omega g eps ds = Ok z.
Proof.
  intros Hp Hl. destruct (te_of_dec pol Hp) as [te H].
  assert (N : exists z, D22_nlayer pol omega g eps ds = Ok z).
  { destruct eps as [|e0 [|e1 t]]; simpl in Hl; try lia.
    unfold D22_nlayer. rewrite (ST_pol pol te omega g _ _ tt) by auto. rewrite ST_lists by (simpl; lia).
    cbn [bind fst snd]. rewrite Slist_cons.
    destruct (D_loop_total te omega g t e1 (Sf te (ce omega g e0) (ce omega g e1)) ds) as [D' E]; [lia|].
    rewrite E. eexists; reflexivity. }
  unfold D22. destruct eps as [|e0 [|e1 [|e2 [|e3 t]]]]; auto.
  unfold D22_3layer. destruct ds as [|d [|d2 ds]]; simpl in Hl; try lia.
  destruct (chis_3layer omega g e0 e1 e2) as [[c1 c2] c3].
  destruct te; simpl in H.
  - rewrite H. eexists; reflexivity.
  - destruct H as [-> ->]. eexists; reflexivity.
Qed.
Lemma AB_loop_total te omega g es : forall e1 v ds, List.length ds = List.length es ->
  exists r, AB_loop v (Slist te omega g (e1 :: es)) (Tlist omega g (e1 :: es) ds) = Ok r /\ List.length r = List.length es.
Proof.
  induction es as [|e2 es IH]; intros e1 v ds Hl.
  - exists []. split; reflexivity.
  - destruct ds as [|d ds]; [simpl in Hl; lia|]. rewrite Slist_cons, Tlist_cons.
    destruct es as [|e3 es].
    + change (Slist te omega g [e2]) with (@nil m2). cbn [AB_loop]. eexists; split; reflexivity.
    + destruct ds as [|d2 ds]; [simpl in Hl; lia|].
      set (t := m2vec (T_half (chi omega g e2, d2)) (m2vec (Sf te (ce omega g e1) (ce omega g e2))
                (m2vec (T_half (chi omega g e1, d)) v))).
      destruct (IH e2 t (d2 :: ds)) as [r [E L]]; [simpl in *; lia|].
      rewrite Slist_cons, Tlist_cons in *. exists (t :: r). cbn [AB_loop]. fold t.
      cbn [AB_loop] in E. rewrite E. split; [reflexivity|]. simpl in *; lia.
Qed.
Lemma AB_total pol omega g eps ds : is_te pol || is_tm pol = true ->
  (List.length ds + 2 = List.length eps)%nat -> ds <> [] ->
  exists AB, AB_matrices pol omega g eps ds = Ok AB /\ List.length AB = List.length eps /\ hd (RtoC 0, RtoC 0) AB = (RtoC 0, RtoC 1).
Proof.
  intros Hp Hl Hne. destruct (te_of_dec pol Hp) as [te H].
  destruct eps as [|e0 [|e1 es]]; simpl in Hl; try lia.
  destruct ds as [|d ds]; [congruence|]. destruct es as [|e2 es]; [simpl in Hl; lia|].
  unfold AB_matrices. replace (Nat.eqb _ _) with true by (symmetry; apply Nat.eqb_eq; simpl in *; lia).
  rewrite (ST_pol pol te omega g _ _ tt) by auto. rewrite ST_lists by (simpl in *; lia). cbn [bind fst snd].
  rewrite (Slist_cons te omega g e0 e1).
  set (S0 := Sf te (ce omega g e0) (ce omega g e1)).
  set (AB1 := m2vec (T_half (chi omega g e1, d)) (m2vec S0 (RtoC 0, RtoC 1))).
  destruct (AB_loop_total te omega g (e2 :: es) e1 AB1 (d :: ds)) as [r [E L]]; [simpl in *; lia|].
  rewrite Tlist_cons in E |- *. cbn zeta. fold AB1. rewrite E. cbn [bind].
  eexists; split; [reflexivity|]. split; auto. simpl in *; lia.
Qed.

Lemma mapM_total {A B} (f : A -> result B) (h : A -> B) l : (forall x, In x l -> f x = Ok (h x)) -> mapM f l = Ok (map h l).
Proof.
  induction l as [|x t IH]; simpl; intros H; auto.
  rewrite H by (left; auto). simpl. rewrite IH by (intros; apply H; right; auto). reflexivity.
Qed.

Lemma sign_changes_eq D pts : sign_changes (combine pts (map D pts)) = filter (sc D) (pairs pts).
Proof.
  unfold sign_changes. induction pts as [|x [|y t] IH]; auto.
  change (combine (x :: y :: t) (map D (x :: y :: t))) with ((x, D x) :: combine (y :: t) (map D (y :: t))).
  change (pairs (x :: y :: t)) with ((x, y) :: pairs (y :: t)).
  replace (pairs ((x, D x) :: combine (y :: t) (map D (y :: t)))) with
    (((x, D x), (y, D y)) :: pairs (combine (y :: t) (map D (y :: t)))) by reflexivity.
  set (P := pairs (combine (y :: t) (map D (y :: t)))) in *. set (Q := pairs (y :: t)) in *.
  cbn [filter]. unfold sc at 1. cbn [fst snd]. destruct (Rltb (D x * D y) 0); [|exact IH].
  rewrite map_cons. cbn [fst snd]. rewrite IH. reflexivity.
Qed.

Lemma exact_lower (te : bool) : te_of (if te then "TE" else "TM")%string te.
Proof. destruct te; [reflexivity|split; reflexivity]. Qed.

Lemma norm_total dl (te : bool) g eps ds cs AB : (List.length ds + 2 = List.length eps)%nat ->
  exists N, normalization_coeff dl (if te then "TE" else "TM")%string g eps ds cs AB = Ok N.
Proof.
  intros Hl. unfold normalization_coeff. rewrite Hl, Nat.eqb_refl. destruct te; simpl; eexists; reflexivity.
Qed.

Section Mode.
Variables (root : (R -> R) -> R -> R -> R) (te : bool) (g : R) (eps ds : list R) (n : nat).
Let pol := (if te then "TE" else "TM")%string.
Hypothesis Hl : (List.length ds + 2 = List.length eps)%nat.
Hypothesis Hne : ds <> [].
Let D := D22real pol g eps ds.

Lemma pol_ok : is_te pol || is_tm pol = true.
Proof. unfold pol; destruct te; reflexivity. Qed.

Lemma D22real_ok w : exists z, D22 pol w g eps ds = Ok z /\ fst z = D w.
Proof.
  destruct (D22_total pol w g eps ds pol_ok Hl) as [z E]. exists z. split; auto.
  unfold D, D22real. rewrite E. reflexivity.
Qed.

Lemma D22s_ok pts : exists zs, D22s_vec pol pts g eps ds = Ok zs /\ map fst zs = map D pts.
Proof.
  exists (map (fun w => match D22 pol w g eps ds with Ok z => z | _ => RtoC 0 end) pts). split.
  - unfold D22s_vec. apply mapM_total. intros w _. rewrite <- D22_vec_scalar by (apply pol_ok || auto).
    destruct (D22real_ok w) as [z [E _]]. rewrite E. reflexivity.
  - rewrite map_map. apply map_ext. intros w. destruct (D22real_ok w) as [z [E1 E2]]. rewrite E1. exact E2.
Qed.

Lemma mapM_fst_total {A B X} (f : A -> result (X * B)) (h : A -> X) l :
  (forall x, exists b, f x = Ok (h x, b)) -> exists r, mapM f l = Ok r /\ map fst r = map h l.
Proof.
  intros H. induction l as [|x t [r [E1 E2]]]; [exists []; auto|].
  destruct (H x) as [b E]. exists ((h x, b) :: r). simpl. rewrite E. simpl. rewrite E1. simpl. rewrite E2. auto.
Qed.

Lemma solve_ok br : exists AB N, AB_matrices pol (root D (fst br) (snd br)) g eps ds = Ok AB /\
  normalization_coeff reg pol g eps ds (chi_array (root D (fst br) (snd br)) g eps) AB = Ok N /\
  solve_mode root pol g eps ds br = Ok (root D (fst br) (snd br), map (fun ab : C * C => (Cdiv (fst ab) (csqrt N), Cdiv (snd ab) (csqrt N))) AB).
Proof.
  unfold solve_mode. fold D. rewrite pol_ok.
  destruct (AB_total pol (root D (fst br) (snd br)) g eps ds pol_ok Hl Hne) as [AB [E _]].
  destruct (norm_total reg te g eps ds (chi_array (root D (fst br) (snd br)) g eps) AB Hl) as [N EN].
  exists AB, N. split; [exact E|]. split; [exact EN|]. rewrite E. cbn [bind]. unfold pol in *. rewrite EN. reflexivity.
Qed.

Lemma given_g_ok lb ub step tol :
  exists cs, guided_mode_given_g root pol g eps ds n (Some lb) (Some ub) step tol =
    Ok (roots D (root D) n (omega_bounds lb ub step tol), cs) /\
    List.length cs = List.length (roots D (root D) n (omega_bounds lb ub step tol)).
Proof.
  unfold guided_mode_given_g. cbn [bind].
  destruct (D22s_ok (omega_bounds lb ub step tol)) as [zs [E1 E2]]. rewrite E1. cbn [bind]. rewrite E2.
  rewrite sign_changes_eq.
  destruct (mapM_fst_total (solve_mode root pol g eps ds) (fun br => root D (fst br) (snd br))
    (firstn n (filter (sc D) (pairs (omega_bounds lb ub step tol))))) as [r [E3 E4]].
  { intros br. destruct (solve_ok br) as [AB [N [_ [_ E]]]]. eexists; exact E. }
  rewrite E3. cbn [bind]. exists (map snd r). split.
  - rewrite E4. reflexivity.
  - unfold roots. rewrite <- E4, !map_length. reflexivity.
Qed.

Lemma given_g_search lb ub step tol oms cs : finds_roots root D -> 0 < step ->
  guided_mode_given_g root pol g eps ds n (Some lb) (Some ub) step tol = Ok (oms, cs) ->
  search_spec D (lb * (1 + tol)) (ub * (1 - tol)) step n oms /\ List.length cs = List.length oms.
Proof.
  intros HR Hs E. destruct (given_g_ok lb ub step tol) as [cs' [E' L]]. rewrite E in E'. injection E' as -> ->.
  split; auto. apply roots_search; auto.
Qed.
End Mode.
