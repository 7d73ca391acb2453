(** The guided-mode matrix of unpatterned layers is diagonal. *)
From Verif Require Import Py CBase ShapesSpec CInt SlabModel SlabSpec SlabProofs SlabProofs3 MatElModel MatElSpec MatElProofs MatElProofs2 MatElProofs3 OrthSpec OrthProofs3 UnifSpec UnifProofs UnifProofs2.
From Coquelicot Require Import Hierarchy RInt RInt_analysis Derive Continuity Complex Lim_seq Rbar Rcomplements.
Open Scope R_scope.

Lemma solves_fit d eps ds a i b j il : solves d eps ds a i -> solves d eps ds b j -> (il < List.length eps)%nat ->
  layer_fit 0 il (List.length eps) (md_chi (snd a) il i) (md_A (snd a) il i) (md_B (snd a) il i)
    (md_chi (snd b) il j) (md_A (snd b) il j) (md_B (snd b) il j).
Proof.
  intros [_ [_ S1]] [_ [_ S2]] L. unfold layer_fit.
  destruct (ss_below _ _ _ _ _ _ _ _ S1) as [[_ E1] F1]. destruct (ss_below _ _ _ _ _ _ _ _ S2) as [[_ E2] F2].
  destruct (ss_above _ _ _ _ _ _ _ _ S1) as [[_ G1] H1]. destruct (ss_above _ _ _ _ _ _ _ _ S2) as [[_ G2] H2]. cbv beta in *.
  destruct (Nat.eqb_spec il 0) as [->|N0]; [|destruct (Nat.eqb_spec il (List.length eps - 1)) as [->|N1]].
  - split; [exact F1|]. split; [exact E1|]. split; [left; exact F2|right; lra].
  - split; [exact H1|]. split; [exact G1|]. split; [right; lra|left; exact H2].
  - left. reflexivity.
Qed.

Lemma zint a b : is_RInt (fun _ => 0) a b 0.
Proof. eapply is_RInt_eq; [|apply is_RInt_constR]. ring. Qed.
Lemma ztail : is_tail_int (fun _ => 0) 0.
Proof.
  split; [intros L; eexists; apply zint|]. apply is_lim_ext with (fun _ => 0); [|apply is_lim_const].
  intros L. symmetry. apply is_RInt_unique, zint.
Qed.
Lemma over_zero il Nl ds : over_layer il Nl ds (fun _ => RtoC 0) (RtoC 0).
Proof.
  unfold over_layer. destruct (Nat.eqb il 0); [|destruct (Nat.eqb il (Nl - 1))].
  1,2: split; apply ztail.
  split; apply zint.
Qed.
Lemma over_nonneg il Nl ds h v : (forall z, 0 <= fst (h z)) -> (il <> 0%nat -> il <> (Nl - 1)%nat -> 0 <= nth (il - 1) ds 0) ->
  over_layer il Nl ds h v -> 0 <= fst v.
Proof.
  intros P Hd. unfold over_layer.
  assert (T : forall f x, (forall z, 0 <= f z) -> is_tail_int f x -> 0 <= x).
  { intros f x Hf [A B]. apply (is_lim_le_loc (fun _ => 0) (fun L => RInt f 0 L) p_infty 0 x); [|apply is_lim_const|exact B].
    exists 0. intros L HL. apply RInt_ge_0; [lra|apply A|intros; apply Hf]. }
  destruct (Nat.eqb_spec il 0) as [|N0]; [|destruct (Nat.eqb_spec il (Nl - 1)) as [|N1]].
  - intros [A _]. eapply T; [|exact A]. intros z. apply P.
  - intros [A _]. eapply T; [|exact A]. exact P.
  - intros [A _]. specialize (Hd N0 N1). refine (is_RInt_ge_0 (fun z => fst (h z)) _ _ _ _ A _); [lra|]. intros z _. apply P.
Qed.
Lemma density_nonneg te g c A B z : 0 <= fst (overlap_density te g c A B c A B z).
Proof.
  assert (Q : forall u : C, 0 <= fst (Cconj u * u)%C) by (intros [x y]; cbn; nra).
  unfold overlap_density. destruct te; [|apply Q].
  set (u := dwave c A B z). set (v := wave c A B z). pose proof (Q u). pose proof (Q v).
  destruct (Cconj u * u)%C as [a b]. destruct (Cconj v * v)%C as [a' b']. cbn in *. nra.
Qed.
Lemma csum_fst n f : fst (csum n f) = fst (csum n (fun i => RtoC (fst (f i)))).
Proof. induction n as [|n IH]; [reflexivity|]. cbn [csum]. cbn [Cplus fst]. rewrite IH. reflexivity. Qed.
Lemma csum_nonneg n f : (forall i, (i < n)%nat -> 0 <= fst (f i)) -> 0 <= fst (csum n f).
Proof. induction n as [|n IH]; intros H; [cbn; lra|]. cbn [csum]. cbn [Cplus fst]. pose proof (H n ltac:(lia)). specialize (IH ltac:(intros; apply H; lia)). lra. Qed.

Lemma te_tm_dot kx ky w1 w2 e1 e2 c1 A1 B1 c2 A2 B2 z te1 te2 : te1 <> te2 ->
  hdot (curl_field te1 kx ky w1 e1 c1 A1 B1 z) (curl_field te2 kx ky w2 e2 c2 A2 B2 z) = RtoC 0.
Proof.
  intros H. unfold hdot, curl_field. set (g := sqrt _). set (u := wave _ _ _ _). set (v := wave _ _ _ _). set (u' := dwave _ _ _ _). set (v' := dwave _ _ _ _).
  destruct te1, te2; try congruence; rewrite !Cconj_mult, !Cconj_R; unfold Rdiv; rewrite ?RtoC_opp, ?RtoC_mult, ?RtoC_opp, ?RtoC_mult; ring.
Qed.

Lemma csum_all0 n f : (forall i, (i < n)%nat -> f i = RtoC 0) -> csum n f = RtoC 0.
Proof. intros H. rewrite (csum_ext n f (fun _ => RtoC 0) H). apply csum_zero. Qed.

Section Block.
Variables (gvec : list (R * R)) (k : R * R) (dgx : R) (eps ds : list R) (einv : nat -> cmat).
Let d := gk_data gvec k dgx.
Hypothesis Hu : unpatterned (List.length gvec) eps einv.

Lemma block_off a i b j : solves d eps ds a i -> solves d eps ds b j ->
  (md_g (snd a) i < List.length gvec)%nat -> (md_g (snd b) j < List.length gvec)%nat ->
  (md_g (snd a) i = md_g (snd b) j -> Nat.even (fst a) = Nat.even (fst b) -> md_om (snd a) i <> md_om (snd b) j) ->
  ent (mat_block 0 eps ds einv d a b) i j = RtoC 0.
Proof.
  intros S1 S2 L1 L2 Hne.
  destruct (overlap 0 eps ds einv d a b i j eq_refl eq_refl) as [V [HV ->]]; [intros il L; apply (solves_fit d eps ds); auto|].
  unfold bfield in HV.
  destruct (Nat.eq_dec (md_g (snd a) i) (md_g (snd b) j)) as [E|E].
  2:{ apply csum_all0. intros il L. rewrite Hu by auto. destruct (Nat.eqb_spec (md_g (snd a) i) (md_g (snd b) j)) as [X|X]; [contradiction|ring]. }
  assert (R1 : csum (List.length eps) (fun il => (einv il (md_g (snd a) i) (md_g (snd b) j) * V il)%C) = csum (List.length eps) (fun il => (RtoC (/ nth il eps 0) * V il)%C)).
  { apply csum_ext. intros il L. rewrite Hu by auto. rewrite E, Nat.eqb_refl. reflexivity. }
  rewrite R1. destruct S1 as [G1 [W1 S1]]. destruct S2 as [G2 [W2 S2]].
  rewrite <- E in HV. rewrite <- E in S2.
  destruct (Bool.bool_dec (Nat.even (fst a)) (Nat.even (fst b))) as [Et|Et].
  - rewrite <- Et in HV, S2.
    refine (elec_orthogonal _ _ _ _ eps ds _ _ _ _ _ _ (gk_x d (md_g (snd a) i)) (gk_y d (md_g (snd a) i)) S1 S2 eq_refl G1 W1 W2 V (Hne E Et) _).
    intros il L. apply of_int. exact (HV il L).
  - apply csum_all0. intros il L. replace (V il) with (RtoC 0); [ring|].
    eapply over_unique; [apply over_zero|]. eapply over_ext; [|apply of_int, HV, L].
    intros z. cbv beta. apply te_tm_dot; auto.
Qed.

Lemma block_diag a i : solves d eps ds a i -> (md_g (snd a) i < List.length gvec)%nat ->
  (forall il, (il <> 0)%nat -> (il <> List.length eps - 1)%nat -> 0 <= nth (il - 1) ds 0) ->
  exists E, is_energy (Nat.even (fst a)) (gk_len d (md_g (snd a) i)) (List.length eps) ds
      (fun il => md_chi (snd a) il i) (fun il => md_A (snd a) il i) (fun il => md_B (snd a) il i) E /\ 0 <= E /\
    ent (mat_block 0 eps ds einv d a a) i i = RtoC (md_om (snd a) i * md_om (snd a) i * E).
Proof.
  intros S1 L1 Hd.
  destruct (overlap 0 eps ds einv d a a i i eq_refl eq_refl) as [V [HV ->]]; [intros il L; apply (solves_fit d eps ds); auto|].
  unfold bfield in HV.
  assert (R1 : csum (List.length eps) (fun il => (einv il (md_g (snd a) i) (md_g (snd a) i) * V il)%C) = csum (List.length eps) (fun il => (RtoC (/ nth il eps 0) * V il)%C)).
  { apply csum_ext. intros il L. rewrite Hu by auto. rewrite Nat.eqb_refl. reflexivity. }
  rewrite R1. destruct S1 as [G1 [W1 S1]].
  destruct (elec_mag _ _ _ _ eps ds _ _ _ _ _ _ S1 S1 (gk_x d (md_g (snd a) i)) (gk_y d (md_g (snd a) i)) eq_refl G1 W1 W1 V HV) as [H [H1 H2]].
  rewrite H2.
  assert (Rl : Cconj (csum (List.length eps) H) = csum (List.length eps) H).
  { rewrite csum_conj. apply csum_ext. intros il L. eapply over_unique; [|apply of_int, H1, L].
    eapply over_ext; [|apply over_conj, of_int, H1, L]. intros z. apply density_conj. }
  assert (Rr : csum (List.length eps) H = RtoC (fst (csum (List.length eps) H))).
  { apply Ceq; [reflexivity|]. apply (f_equal snd) in Rl. cbn in Rl. cbn. lra. }
  exists (fst (csum (List.length eps) H)). split; [|split].
  - exists H. split; [intros il L; apply of_int, H1, L|exact Rr].
  - apply csum_nonneg. intros il L. eapply over_nonneg; [|apply Hd|apply of_int, H1, L]. intros z. apply density_nonneg.
  - rewrite Rr at 1. rewrite <- RtoC_mult. destruct (Nat.even (fst a)); reflexivity.
Qed.
End Block.

Lemma present_nodup {A} (te tm : list A) inds : NoDup inds -> NoDup (present te tm inds).
Proof. apply NoDup_filter. Qed.

Lemma unif_matrix gvec k dgx inds garr (te tm : gtable) eps ds einv :
  let d := gk_data gvec k dgx in
  (forall m oms cs, entry te tm m = Some (oms, cs) -> (0 < List.length oms <= List.length garr)%nat) ->
  (exists m, In m inds /\ entry te tm m <> None) -> NoDup inds ->
  unpatterned (List.length gvec) eps einv -> List.Forall (fun x => 0 <= x) ds ->
  (forall m x, In m (present te tm inds) -> get_guided (List.length gvec) (gk_len d) garr te tm eps m = Ok x ->
     forall r, (r < List.length (md_ind x))%nat -> solves d eps ds (m, x) r) ->
  (forall m x m' x', In m (present te tm inds) -> In m' (present te tm inds) -> m <> m' -> Nat.even m = Nat.even m' ->
     get_guided (List.length gvec) (gk_len d) garr te tm eps m = Ok x -> get_guided (List.length gvec) (gk_len d) garr te tm eps m' = Ok x' ->
     forall r r', (r < List.length (md_ind x))%nat -> (r' < List.length (md_ind x'))%nat -> md_g x r = md_g x' r' -> md_om x r <> md_om x' r') ->
  exists ms M, construct_mat 0 gvec k dgx inds garr te tm eps ds einv = Ok M /\
    map fst ms = present te tm inds /\
    List.Forall (fun x => get_guided (List.length gvec) (gk_len d) garr te tm eps (fst x) = Ok (snd x)) ms /\
    let sz := map (fun x => List.length (md_ind (snd x))) ms in
    nr M = list_sum sz /\ nc M = list_sum sz /\
    (forall P Q, (P < nr M)%nat -> (Q < nr M)%nat -> P <> Q -> ent M P Q = RtoC 0) /\
    (forall p r, (p < List.length ms)%nat -> (r < nth p sz 0)%nat -> let a := nth p ms dgm in
       exists E, is_energy (Nat.even (fst a)) (gk_len d (md_g (snd a) r)) (List.length eps) ds
           (fun il => md_chi (snd a) il r) (fun il => md_A (snd a) il r) (fun il => md_B (snd a) il r) E /\ 0 <= E /\
         ent M (offset sz p + r) (offset sz p + r) = RtoC (md_om (snd a) r * md_om (snd a) r * E)).
Proof.
  intros d Ht He Hn Hu Hds Hsol Hdist.
  destruct (matrix_ok 0 gvec k dgx inds garr te tm eps ds einv Ht He) as [ms [M [HM [Hms [Hf [N1 [N2 [Hh [Hd Ho]]]]]]]]].
  fold d in Hf, Hd, Ho. set (sz := map (fun x => List.length (md_ind (snd x))) ms) in *.
  assert (Lsz : List.length sz = List.length ms) by apply map_length.
  assert (Nsz : forall p, (p < List.length ms)%nat -> nth p sz 0%nat = List.length (md_ind (snd (nth p ms dgm)))).
  { intros p Hp. unfold sz. rewrite (nth_indep _ 0%nat ((fun x : nat * gmode => List.length (md_ind (snd x))) dgm)) by (rewrite map_length; exact Hp).
    apply (map_nth (fun x : nat * gmode => List.length (md_ind (snd x)))). }
  assert (At : forall p, (p < List.length ms)%nat -> In (fst (nth p ms dgm)) (present te tm inds) /\
     get_guided (List.length gvec) (gk_len d) garr te tm eps (fst (nth p ms dgm)) = Ok (snd (nth p ms dgm)) /\
     NoDup (md_ind (snd (nth p ms dgm))) /\ forall r, (r < nth p sz 0)%nat -> (md_g (snd (nth p ms dgm)) r < List.length gvec)%nat).
  { intros p Hp. rewrite List.Forall_forall in Hf. destruct (Hf (nth p ms dgm) (nth_In _ _ Hp)) as [A [B D]].
    split; [rewrite <- Hms; apply in_map, nth_In, Hp|]. split; [exact A|]. split; [exact B|].
    intros r Hr. rewrite Nsz in Hr by auto. unfold md_g. destruct (proj1 (D (nth r (md_ind (snd (nth p ms dgm))) 0%nat)) (nth_In _ _ Hr)) as [X _]. exact X. }
  assert (So : forall p r, (p < List.length ms)%nat -> (r < nth p sz 0)%nat -> solves d eps ds (nth p ms dgm) r).
  { intros p r Hp Hr. destruct (At p Hp) as [A [B _]]. rewrite (surjective_pairing (nth p ms dgm)). apply Hsol; auto. rewrite <- Nsz; auto. }
  assert (Df : forall p q, (p < List.length ms)%nat -> (q < List.length ms)%nat -> p <> q -> fst (nth p ms dgm) <> fst (nth q ms dgm)).
  { intros p q Hp Hq Hpq E. apply Hpq. pose proof (present_nodup te tm inds Hn) as ND. rewrite <- Hms in ND.
    apply (NoDup_nth (map fst ms) (fst dgm)); [exact ND|rewrite map_length; auto|rewrite map_length; auto|]. rewrite !map_nth. exact E. }
  exists ms, M. split; [exact HM|]. split; [exact Hms|]. split; [rewrite List.Forall_forall in *; intros x Hx; apply Hf, Hx|].
  cbv zeta. split; [exact N1|]. split; [exact N2|]. split.
  - assert (Up : forall P Q, (P < nr M)%nat -> (Q < nr M)%nat -> (P < Q)%nat -> ent M P Q = RtoC 0).
    { intros P Q HP HQ HPQ. rewrite N1 in HP, HQ.
      destruct (off_inv sz P HP) as [p [r [Hp [Hr ->]]]]. destruct (off_inv sz Q HQ) as [q [s [Hq [Hs ->]]]]. rewrite Lsz in Hp, Hq.
      rewrite (Ho p q r s Hp Hq Hr Hs HPQ).
      destruct (At p Hp) as [A [B [ND Lr]]]. destruct (At q Hq) as [A' [B' [ND' Ls]]].
      apply block_off; auto. intros Eg Ee. destruct (Nat.eq_dec p q) as [<-|Npq].
      - exfalso. unfold md_g in Eg. rewrite Nsz in Hr, Hs by auto.
        apply (NoDup_nth _ 0%nat) in Eg; auto. lia.
      - eapply Hdist; [exact A|exact A'|apply Df; auto|exact Ee|exact B|exact B'|rewrite <- Nsz; auto|rewrite <- Nsz; auto|exact Eg]. }
    intros P Q HP HQ HPQ. destruct (Nat.lt_trichotomy P Q) as [L|[L|L]]; [apply Up; auto|contradiction|].
    rewrite Hh, (Up Q P) by auto. apply Cconj_R.
  - intros p r Hp Hr. rewrite Hd by auto.
    destruct (block_diag gvec k dgx eps ds einv Hu (nth p ms dgm) r (So p r Hp Hr)) as [E [E1 [E2 E3]]].
    + apply At; auto.
    + intros il _ _. destruct (Nat.lt_ge_cases (il - 1) (List.length ds)) as [L|L]; [|rewrite nth_overflow by lia; lra].
      rewrite List.Forall_forall in Hds. apply Hds, nth_In, L.
    + exists E. split; [exact E1|]. split; [exact E2|]. fold d in E3. rewrite E3. reflexivity.
Qed.
