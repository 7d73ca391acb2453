(** What _construct_Hopfield computes; the loop over k. *)
From Coq Require Import Permutation List.
From Verif Require Import Py CBase LatticeModel PhcModel RecipModel MatElModel SymModel SymSpec FieldsModel RunModel RunSpec RunProofs RunProofs3 PweModel ExcModel PolSpec PolModel PolSpec2 PolProofs PolProofs2.
Open Scope R_scope.
Open Scope list_scope.

Definition conversion (a : R) : R := h_eV_Hz * c_light / a.
Lemma construct_inv a p M ws kind H : construct a p M ws kind = Ok H -> exists f fi cds ens,
  0 < a /\ SymModel.get (ph_freqs p) kind = Ok f /\ SymModel.get (ph_ims p) kind = Ok fi /\
  mapM (fun s => C_D a p M s kind) ws = Ok cds /\ cds <> [] /\ mapM (fun s => eners_at s kind) ws = Ok ens /\
  H = hopfield (ph_N p) (M * List.length ws) (phot_block (conversion a) f fi (fold_left mplus (map snd cds) mzero)) (hcat M (map fst cds))
        (last (map snd cds) mzero) (fun j => nth j (List.concat ens) (RtoC 0)).
Proof.
  unfold construct, from_freq_to_e. cbn [negb andb]. destruct (Rleb a 0) eqn:Ea; [discriminate|]. apply Rleb_false in Ea. cbn [bind].
  destruct (SymModel.get (ph_freqs p) kind) as [f|]; [|discriminate]. cbn [bind].
  destruct (SymModel.get (ph_ims p) kind) as [fi|]; [|discriminate]. cbn [bind].
  destruct (mapM (fun s => C_D a p M s kind) ws) as [cds|]; [|discriminate]. cbn [bind].
  destruct cds as [|cd cds]; [discriminate|].
  destruct (mapM (fun s => eners_at s kind) ws) as [ens|]; [|discriminate]. cbn [bind]. intros E. injection E as <-.
  exists f, fi, (cd :: cds), ens. split; [lra|]. repeat split; auto. discriminate.
Qed.

Lemma csum_blocks M Q f : csum (M * Q) f = csum Q (fun w => csum M (fun nu => f (w * M + nu)%nat)).
Proof.
  induction Q as [|Q IH]; [rewrite Nat.mul_0_r; reflexivity|]. rewrite Nat.mul_succ_r, csum_add, IH. cbn [csum]. f_equal.
  apply csum_ext. intros i Hi. f_equal. lia.
Qed.
Lemma fold_mplus ds i j : forall z, fold_left mplus ds z i j = (z i j + csum (List.length ds) (fun w => nth w ds mzero i j))%C.
Proof.
  induction ds as [|d t IH]; intros z; cbn [fold_left List.length]; [simpl; ring|]. rewrite IH, csum_first. unfold mplus at 1. cbn [nth]. ring.
Qed.
Lemma concat_nth {A} (ls : list (list A)) M d : forall w nu, (forall l, In l ls -> List.length l = M) -> (w < List.length ls)%nat -> (nu < M)%nat ->
  nth (w * M + nu) (List.concat ls) d = nth nu (nth w ls []) d.
Proof.
  induction ls as [|l t IH]; intros w nu HM Hw Hn; [simpl in Hw; lia|]. cbn [List.concat]. pose proof (HM l (or_introl eq_refl)) as Hl.
  destruct w as [|w].
  - rewrite app_nth1 by lia. reflexivity.
  - rewrite app_nth2 by lia. rewrite Hl. replace (S w * M + nu - M)%nat with (w * M + nu)%nat by lia. rewrite IH; auto; [intros; apply HM; right; auto|simpl in Hw; lia].
Qed.
Lemma hcat_at M cs w nu i : (nu < M)%nat -> hcat M cs i (w * M + nu)%nat = nth w cs (fun _ _ => RtoC 0) i nu.
Proof.
  intros Hn. unfold hcat. replace ((w * M + nu) / M)%nat with w; [replace ((w * M + nu) mod M)%nat with nu; auto|].
  - rewrite Nat.add_comm, Nat.mod_add by lia. symmetry. apply Nat.mod_small. auto.
  - rewrite Nat.add_comm, Nat.div_add by lia. rewrite Nat.div_small by auto. reflexivity.
Qed.
(** reading a Hopfield matrix *)
Lemma read_coupling N K A c d e n j : (n < N)%nat -> (j < K)%nat -> coupling_of N (hopfield N K A c d e) n j = c n j.
Proof. intros Hn Hj. unfold coupling_of, hopfield. cbv zeta. rewrite stack_0, stack_1 by auto. pose proof Ci_sq. replace (Ci * (- Ci * c n j))%C with (- (Ci * Ci) * c n j)%C by ring. rewrite H. ring. Qed.
Lemma read_exciton N K A c d e j : (j < K)%nat -> exciton_of N (hopfield N K A c d e) j = e j.
Proof. intros Hj. unfold exciton_of, hopfield. cbv zeta. rewrite stack_1, stack_1 by auto. rewrite Nat.eqb_refl. reflexivity. Qed.
Lemma read_dia N K A c d e n1 n2 : (n1 < N)%nat -> (n2 < N)%nat -> dia_of N K (hopfield N K A c d e) n1 n2 = csum K (fun j => Cconj (c n1 j) * c n2 j / RtoC (fst (e j)))%C.
Proof. intros H1 H2. unfold dia_of. apply csum_ext. intros j Hj. rewrite !read_coupling, read_exciton by auto. reflexivity. Qed.
Lemma read_00 N K A c d e n1 n2 : (n1 < N)%nat -> (n2 < N)%nat -> hopfield N K A c d e n1 n2 = A n1 n2.
Proof. intros H1 H2. unfold hopfield. cbv zeta. rewrite !stack_0 by auto. reflexivity. Qed.
Lemma read_02 N K A c d e n1 n2 : (n1 < N)%nat -> (n2 < N)%nat -> hopfield N K A c d e n1 (N + K + n2)%nat = (RtoC (- 2) * d n1 n2)%C.
Proof. intros H1 H2. unfold hopfield. cbv zeta. rewrite stack_0, stack_2 by auto. reflexivity. Qed.
Lemma read_20 N K A c d e n1 n2 : (n1 < N)%nat -> (n2 < N)%nat -> hopfield N K A c d e (N + K + n1)%nat n2 = (RtoC 2 * d n1 n2)%C.
Proof. intros H1 H2. unfold hopfield. cbv zeta. rewrite stack_2, stack_0 by auto. reflexivity. Qed.
Lemma read_22 N K A c d e n1 n2 : (n1 < N)%nat -> (n2 < N)%nat -> hopfield N K A c d e (N + K + n1)%nat (N + K + n2)%nat = (- A n1 n2)%C.
Proof. intros H1 H2. unfold hopfield. cbv zeta. rewrite stack_2, stack_2 by auto. reflexivity. Qed.

Lemma filled_ens M kind ws ens : filled M kind ws -> mapM (fun s => eners_at s kind) ws = Ok ens -> forall l, In l ens -> List.length l = M.
Proof.
  intros HF E l Hl. apply In_nth_error in Hl. destruct Hl as [i Hi]. pose proof (mapM_ok_length _ _ _ E) as Le.
  destruct (nth_error ws i) as [s|] eqn:Es; [|apply nth_error_None in Es; assert (nth_error ens i <> None) by congruence; apply nth_error_Some in H; lia].
  destruct (mapM_ok_nth _ _ _ E _ _ Es) as (y & Ey & Hy). rewrite Hi in Hy. injection Hy as <-.
  destruct (HF s) as (rows & row & R1 & R2 & R3); [eapply nth_error_In; eauto|]. unfold eners_at, attr in Ey. rewrite R1 in Ey. cbn [bind] in Ey.
  unfold SymModel.get in Ey. rewrite R2 in Ey. injection Ey as <-. exact R3.
Qed.

Section Construct.
Variables (a : R) (p : phot) (M : nat) (ws : list exc) (kind : nat) (H : cmat).
Hypothesis HC : construct a p M ws kind = Ok H.
Local Notation N := (ph_N p).
Local Notation K := (M * List.length ws)%nat.

Lemma dia_sum f fi cds ens : mapM (fun s => C_D a p M s kind) ws = Ok cds -> mapM (fun s => eners_at s kind) ws = Ok ens -> filled M kind ws ->
  H = hopfield N K (phot_block (conversion a) f fi (fold_left mplus (map snd cds) mzero)) (hcat M (map fst cds)) (last (map snd cds) mzero) (fun j => nth j (List.concat ens) (RtoC 0)) ->
  forall n1 n2, (n1 < N)%nat -> (n2 < N)%nat -> fold_left mplus (map snd cds) mzero n1 n2 = dia_of N K H n1 n2.
Proof.
  intros Ec Ee HF -> n1 n2 H1 H2. rewrite read_dia by auto. rewrite csum_blocks, fold_mplus. unfold mzero at 1. rewrite Cplus_0_l.
  pose proof (mapM_ok_length _ _ _ Ec) as Lc. pose proof (mapM_ok_length _ _ _ Ee) as Le. rewrite map_length, Lc.
  apply csum_ext. intros w Hw. destruct (nth_error ws w) as [s|] eqn:Es; [|apply nth_error_None in Es; lia].
  destruct (mapM_ok_nth _ _ _ Ec _ _ Es) as ([cw dw] & E1 & N1). destruct (mapM_ok_nth _ _ _ Ee _ _ Es) as (en & E2 & N2).
  assert (X1 : nth w (map snd cds) mzero = dw) by (apply nth_error_nth; rewrite nth_error_map, N1; reflexivity).
  assert (X2 : nth w (map fst cds) (fun _ _ => RtoC 0) = cw) by (apply nth_error_nth; rewrite nth_error_map, N1; reflexivity).
  assert (X3 : nth w ens [] = en) by (apply nth_error_nth; auto). rewrite X1.
  unfold C_D in E1. destruct (C_block a p M s kind) as [rows|]; [|discriminate]. cbn [bind] in E1. rewrite E2 in E1. cbn [bind] in E1. injection E1 as <- <-.
  unfold D_block. apply csum_ext. intros nu Hnu. rewrite !hcat_at by auto. rewrite X2. rewrite (concat_nth _ M _ w nu (filled_ens M kind ws ens HF Ee)) by (auto; lia). rewrite X3. reflexivity.
Qed.
(** the photonic block has the contributions of all wells *)
Lemma photon_block : filled M kind ws -> exists f fi, SymModel.get (ph_freqs p) kind = Ok f /\ SymModel.get (ph_ims p) kind = Ok fi /\
  forall n1 n2, (n1 < N)%nat -> (n2 < N)%nat ->
  let bare := if Nat.eqb n1 n2 then (RtoC (conversion a) * (RtoC (nth n1 f 0) + Ci * RtoC (nth n1 fi 0)))%C else RtoC 0 in
  H n1 n2 = (bare + RtoC (2 * fst (dia_of N K H n1 n2)))%C /\ H (N + K + n1)%nat (N + K + n2)%nat = (- H n1 n2)%C.
Proof.
  intros HF. destruct (construct_inv _ _ _ _ _ _ HC) as (f & fi & cds & ens & Ha & Gf & Gfi & Ec & Hne & Ee & EH).
  exists f, fi. split; auto. split; auto. intros n1 n2 H1 H2. cbv zeta. rewrite <- (dia_sum f fi cds ens Ec Ee HF EH n1 n2 H1 H2).
  rewrite EH. rewrite read_22, read_00 by auto. split; auto. unfold phot_block. f_equal. destruct (Nat.eqb n1 n2); auto. rewrite !RtoC_mult. ring.
Qed.
(** one well: the off-diagonal blocks have its contribution *)
Lemma off_block : List.length ws = 1%nat -> filled M kind ws -> forall n1 n2, (n1 < N)%nat -> (n2 < N)%nat ->
  H n1 (N + K + n2)%nat = (- RtoC 2 * dia_of N K H n1 n2)%C /\ H (N + K + n1)%nat n2 = (RtoC 2 * dia_of N K H n1 n2)%C.
Proof.
  intros H1w HF n1 n2 H1 H2. destruct (construct_inv _ _ _ _ _ _ HC) as (f & fi & cds & ens & Ha & Gf & Gfi & Ec & Hne & Ee & EH).
  rewrite <- (dia_sum f fi cds ens Ec Ee HF EH n1 n2 H1 H2). pose proof (mapM_ok_length _ _ _ Ec) as Lc. rewrite H1w in Lc.
  destruct cds as [|cd [|]]; [discriminate| |discriminate]. cbn [map fold_left last] in *. unfold mplus, mzero. rewrite Cplus_0_l. rewrite EH, read_02, read_20 by auto.
  split; auto. apply Ceq; simpl; ring.
Qed.
Lemma construct_pair l v : eigvec (2 * (N + K)) H l v -> eigvec (2 * (N + K)) H (- l)%C (mirror N K v).
Proof.
  destruct (construct_inv _ _ _ _ _ _ HC) as (f & fi & cds & ens & _ & _ & _ & _ & _ & _ & ->). apply mirror_pair.
Qed.
End Construct.

(** ** diagonal matrices *)
Lemma diag_eigval n A (w : nat -> C) l : (forall i j, (i < n)%nat -> (j < n)%nat -> A i j = if Nat.eqb i j then w i else RtoC 0) ->
  eigval n A l <-> exists i, (i < n)%nat /\ l = w i.
Proof.
  intros HA. assert (Hm : forall v i, (i < n)%nat -> mvec n A v i = (w i * v i)%C).
  { intros v i Hi. unfold mvec. rewrite (csum_single n i); auto; [rewrite HA, Nat.eqb_refl by auto; auto|].
    intros j Hj Hn. rewrite HA by auto. rewrite (proj2 (Nat.eqb_neq i j)) by auto. ring. }
  split.
  - intros (v & (i & Hi & Hv) & He). exists i. split; auto. specialize (He i Hi). rewrite Hm in He by auto.
    destruct (Ceq_dec (l - w i)%C (RtoC 0)) as [E|E]; [replace l with ((l - w i) + w i)%C by ring; rewrite E; ring|].
    exfalso. apply (Cmult_neq_0 _ _ E Hv). replace ((l - w i) * v i)%C with (l * v i - w i * v i)%C by ring. rewrite He. ring.
  - intros (i & Hi & ->). exists (fun j => if Nat.eqb j i then RtoC 1 else RtoC 0). split.
    + exists i. split; auto. rewrite Nat.eqb_refl. apply RtoC_neq0. lra.
    + intros j Hj. rewrite Hm by auto. destruct (Nat.eqb_spec j i) as [->|]; auto; ring.
Qed.
(** zero oscillator strength: the bare energies, with both signs *)
Lemma osc_zero_C a ng E W osc : nth 0 osc 0 = 0 -> nth 1 osc 0 = 0 -> nth 2 osc 0 = 0 -> C_entry a ng osc E W = RtoC 0.
Proof.
  intros E0 E1 E2. unfold C_entry. destruct E as [[ex ey] ez]. rewrite E0, E1, E2, sqrt_0. rewrite csum_0; [ring|]. intros i Hi. ring.
Qed.
Lemma dark_C a p M s kind rows : dark s -> C_block a p M s kind = Ok rows -> forall i j, mat_of rows i j = RtoC 0.
Proof.
  intros (osc & Ho & O0 & O1 & O2) E i j. unfold mat_of. destruct (nth_error rows i) as [row|] eqn:Er; [|rewrite (nth_overflow rows) by (apply nth_error_None; auto); destruct j; auto].
  rewrite (nth_error_nth _ _ _ Er). unfold C_block in E. pose proof (mapM_ok_length _ _ _ E) as Ll. assert (Hi : (i < List.length rows)%nat) by (apply nth_error_Some; congruence).
  rewrite seq_length in Ll. assert (Es : nth_error (seq 0 (ph_N p)) i = Some i) by (rewrite nth_error_nth' with (d := 0%nat) by (rewrite seq_length; lia); rewrite seq_nth by lia; auto).
  destruct (mapM_ok_nth _ _ _ E _ _ Es) as (y & Ey & Hy). rewrite Er in Hy. injection Hy as <-. destruct (ph_E p kind i (ex_z s)) as [Ef|]; [|discriminate]. cbn [bind] in Ey.
  destruct (nth_error row j) as [x|] eqn:Ex; [|rewrite nth_overflow by (apply nth_error_None; auto); auto]. rewrite (nth_error_nth _ _ _ Ex).
  pose proof (mapM_ok_length _ _ _ Ey) as Lr. rewrite seq_length in Lr. assert (Hj : (j < List.length row)%nat) by (apply nth_error_Some; congruence).
  assert (Ej : nth_error (seq 0 M) j = Some j) by (rewrite nth_error_nth' with (d := 0%nat) by (rewrite seq_length; lia); rewrite seq_nth by lia; auto).
  destruct (mapM_ok_nth _ _ _ Ey _ _ Ej) as (z & Ez & Hz). rewrite Ex in Hz. injection Hz as <-. destruct (ft_wavef s kind j) as [W|]; [|discriminate]. cbn [bind] in Ez.
  unfold attr in Ez. rewrite Ho in Ez. cbn [bind] in Ez. injection Ez as <-. apply osc_zero_C; auto.
Qed.
Lemma last_in {A} (d : A) l : l <> [] -> In (last l d) l.
Proof. induction l as [|x [|y t] IH]; [congruence|left; auto|]. intros _. right. apply IH. discriminate. Qed.
Lemma all_dark a p M ws kind H : construct a p M ws kind = Ok H -> (forall s, In s ws -> dark s) -> exists f fi ens,
  SymModel.get (ph_freqs p) kind = Ok f /\ SymModel.get (ph_ims p) kind = Ok fi /\ mapM (fun s => eners_at s kind) ws = Ok ens /\
  let N := ph_N p in let K := (M * List.length ws)%nat in
  forall l, eigval (2 * (N + K)) H l <->
    (exists n, (n < N)%nat /\ (l = RtoC (conversion a) * (RtoC (nth n f 0) + Ci * RtoC (nth n fi 0)) \/ l = - (RtoC (conversion a) * (RtoC (nth n f 0) + Ci * RtoC (nth n fi 0)))))%C \/
    (exists j, (j < K)%nat /\ (l = nth j (List.concat ens) (RtoC 0) \/ l = - nth j (List.concat ens) (RtoC 0)))%C.
Proof.
  intros HC HD. destruct (construct_inv _ _ _ _ _ _ HC) as (f & fi & cds & ens & Ha & Gf & Gfi & Ec & Hne & Ee & EH).
  exists f, fi, ens. split; auto. split; auto. split; auto. cbv zeta. intros l. set (N := ph_N p) in *. set (K := (M * List.length ws)%nat) in *.
  assert (Z0 : forall cd, In cd cds -> (forall i j, fst cd i j = RtoC 0) /\ forall i j, snd cd i j = RtoC 0).
  { intros cd Hcd. apply In_nth_error in Hcd. destruct Hcd as [w Hw]. pose proof (mapM_ok_length _ _ _ Ec) as Lc.
    destruct (nth_error ws w) as [s|] eqn:Es; [|apply nth_error_None in Es; assert (X : nth_error cds w <> None) by congruence; apply nth_error_Some in X; lia].
    destruct (mapM_ok_nth _ _ _ Ec _ _ Es) as (y & Ey & Hy). rewrite Hw in Hy. injection Hy as <-. unfold C_D in Ey.
    destruct (C_block a p M s kind) as [rows|] eqn:Er; [|discriminate]. cbn [bind] in Ey. destruct (eners_at s kind) as [en|]; [|discriminate]. cbn [bind] in Ey. injection Ey as <-.
    assert (Z : forall i j, mat_of rows i j = RtoC 0) by (apply (dark_C a p M s kind); auto; apply HD; eapply nth_error_In; eauto). split; auto.
    intros i j. cbn [snd]. unfold D_block. apply csum_0. intros nu Hnu. rewrite !Z. unfold Cdiv. ring. }
  set (wb := fun n => (RtoC (conversion a) * (RtoC (nth n f 0) + Ci * RtoC (nth n fi 0)))%C). set (e := fun j => nth j (List.concat ens) (RtoC 0)) in *.
  rewrite (diag_eigval _ H (stack4 N K wb e (fun i => - wb i)%C (fun i => - e i)%C)).
  - split.
    + intros (i & Hi & ->). revert i Hi. apply split4; intros i Hi.
      * left. exists i. split; auto. left. rewrite stack_0 by auto. reflexivity.
      * right. exists i. split; auto. left. rewrite stack_1 by auto. reflexivity.
      * left. exists i. split; auto. right. rewrite stack_2 by auto. reflexivity.
      * right. exists i. split; auto. right. rewrite stack_3 by auto. reflexivity.
    + intros [(n & Hn & [->| ->])|(j & Hj & [->| ->])].
      * exists n. split; [lia|]. rewrite stack_0 by auto. reflexivity.
      * exists (N + K + n)%nat. split; [lia|]. rewrite stack_2 by auto. reflexivity.
      * exists (N + j)%nat. split; [lia|]. rewrite stack_1 by auto. reflexivity.
      * exists (N + K + N + j)%nat. split; [lia|]. rewrite stack_3 by auto. reflexivity.
  - rewrite EH. apply uncoupled.
    + intros i j Hi Hj. unfold hcat. destruct (nth_in_or_default (j / M) (map fst cds) (fun _ _ => RtoC 0)) as [I|I]; [|rewrite I; auto].
      apply in_map_iff in I. destruct I as (cd & E & I). rewrite <- E. apply Z0; auto.
    + intros i j Hi Hj. assert (I : In (last (map snd cds) mzero) (map snd cds)) by (apply last_in; destruct cds; [congruence|discriminate]).
      apply in_map_iff in I. destruct I as (cd & E & I). rewrite <- E. apply Z0; auto.
    + intros i j Hi Hj. unfold phot_block. rewrite fold_mplus. unfold mzero at 1. rewrite csum_0.
      * unfold wb. rewrite Cplus_0_l. cbn [fst RtoC]. rewrite Rmult_0_r, Cplus_0_r. destruct (Nat.eqb i j); auto. rewrite !RtoC_mult. ring.
      * intros w Hw. destruct (nth_in_or_default w (map snd cds) mzero) as [I|I]; [|rewrite I; auto].
        apply in_map_iff in I. destruct I as (cd & E & I). rewrite <- E. apply Z0; auto.
Qed.

(** ** the loop over k *)
Section Loop.
Variables (eig : nat -> cmat -> list C * cmat) (cargsort : list C -> list nat).
Lemma loop_inv a p M ws kinds : forall acc mat res mat', k_loop eig cargsort a p M ws kinds acc mat = Ok (res, mat') -> exists more, res = acc ++ more /\
  Forall2 (fun kind r => exists A, construct a p M ws kind = Ok A /\ solve_k eig cargsort (ph_N p) (M * List.length ws) A = Ok r) kinds more.
Proof.
  induction kinds as [|kind t IH]; intros acc mat res mat' E; cbn [k_loop] in E; [injection E as <- <-; exists []; rewrite app_nil_r; split; auto|].
  destruct (construct a p M ws kind) as [A|] eqn:EA; [|discriminate]. cbn [bind] in E.
  destruct (solve_k _ _ _ _ A) as [r|] eqn:Er; [|discriminate]. cbn [bind] in E. destruct (IH _ _ _ _ E) as (more & -> & F).
  exists (r :: more). rewrite <- app_assoc. split; auto. constructor; auto. exists A. auto.
Qed.
Lemma loop_ok a p M ws kinds : (forall kind, In kind kinds -> exists A r, construct a p M ws kind = Ok A /\ solve_k eig cargsort (ph_N p) (M * List.length ws) A = Ok r) ->
  forall acc mat, exists more mat', k_loop eig cargsort a p M ws kinds acc mat = Ok (acc ++ more, mat') /\ (kinds <> [] \/ mat <> None -> mat' <> None).
Proof.
  induction kinds as [|kind t IH]; intros HO acc mat; [exists [], mat; rewrite app_nil_r; split; auto; intros [X|X]; congruence|].
  destruct (HO kind (or_introl eq_refl)) as (A & r & EA & Er). cbn [k_loop]. rewrite EA. cbn [bind]. rewrite Er. cbn [bind].
  destruct (IH ltac:(intros; apply HO; right; auto) (acc ++ [r]) (Some A)) as (more & mat' & E & Hm). exists (r :: more), mat'. rewrite E, <- app_assoc. split; auto.
  intros _. apply Hm. right. discriminate.
Qed.
End Loop.
