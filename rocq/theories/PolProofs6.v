(** Lossless wells, two oscillators, phases of the modes. *)
From Coq Require Import Permutation List.
From Verif Require Import Py CBase LatticeModel PhcModel RecipModel MatElModel SymModel SymSpec FieldsModel RunModel RunSpec RunProofs RunProofs3 PweModel ExcModel PolSpec PolModel PolSpec2 PolProofs PolProofs2 PolProofs4 PolProofs5.
Open Scope R_scope.
Open Scope list_scope.

Lemma eigvec_meq n A B l v : meq n n A B -> eigvec n A l v -> eigvec n B l v.
Proof. intros E [Hn He]. split; auto. intros i Hi. rewrite <- He by auto. unfold mvec. apply csum_ext. intros j Hj. rewrite E by auto. reflexivity. Qed.
Lemma eigval_meq n A B l : meq n n A B -> eigval n A l <-> eigval n B l.
Proof. intros E. split; intros [v H]; exists v; [apply (eigvec_meq n A B)|apply (eigvec_meq n B A)]; auto. intros i j Hi Hj. symmetry. auto. Qed.
Lemma hopfield_ext N K A c d e A' c' d' e' : (forall i j, (i < N)%nat -> (j < N)%nat -> A i j = A' i j) -> (forall i j, (i < N)%nat -> (j < K)%nat -> c i j = c' i j) ->
  (forall i j, (i < N)%nat -> (j < N)%nat -> d i j = d' i j) -> (forall j, (j < K)%nat -> e j = e' j) ->
  meq (2 * (N + K)) (2 * (N + K)) (hopfield N K A c d e) (hopfield N K A' c' d' e').
Proof.
  intros HA Hc Hd He i j Hi Hj. unfold hopfield. cbv zeta. revert j Hj. pattern i. revert i Hi.
  apply split4; intros i Hi j Hj; pattern j; revert j Hj; apply split4; intros j Hj;
    repeat first [rewrite !stack_3 | rewrite !stack_2 by auto | rewrite !stack_1 by auto | rewrite !stack_0 by auto];
    rewrite ?HA, ?Hc, ?Hd, ?He by auto; auto; destruct (Nat.eqb i j); auto.
Qed.

Lemma lossless_real a p M ws kind H f fi : construct a p M ws kind = Ok H -> let N := ph_N p in let K := (M * List.length ws)%nat in
  List.length ws = 1%nat -> filled M kind ws ->
  SymModel.get (ph_freqs p) kind = Ok f -> SymModel.get (ph_ims p) kind = Ok fi ->
  (forall n, (n < N)%nat -> 0 < nth n f 0 /\ nth n fi 0 = 0) ->
  (forall j, (j < K)%nat -> 0 < fst (exciton_of N H j) /\ snd (exciton_of N H j) = 0) ->
  (forall n1 n2, (n1 < N)%nat -> (n2 < N)%nat -> snd (dia_of N K H n1 n2) = 0) ->
  forall l, eigval (2 * (N + K)) H l -> snd l = 0 /\ fst l <> 0.
Proof.
  intros HC N K Hl HF Gf Gfi Hf He HD l [v Hv].
  destruct (construct_inv _ _ _ _ _ _ HC) as (f' & fi' & cds & ens & Ha & Gf' & Gfi' & Ec & Hne & Ee & EH).
  rewrite Gf in Gf'. injection Gf' as <-. rewrite Gfi in Gfi'. injection Gfi' as <-.
  pose proof (dia_sum a p M ws kind H HC f fi cds ens Ec Ee HF EH) as DS. fold N K in EH, DS.
  assert (Conv : 0 < conversion a).
  { unfold conversion, h_eV_Hz, c_light. apply Rdiv_lt_0_compat; auto. apply Rmult_lt_0_compat; lra. }
  set (e := fun j => nth j (List.concat ens) (RtoC 0)) in *. set (c := hcat M (map fst cds)) in *.
  assert (EX : forall j, (j < K)%nat -> exciton_of N H j = e j) by (intros j Hj; rewrite EH; apply read_exciton; auto).
  assert (DD : forall n1 n2, (n1 < N)%nat -> (n2 < N)%nat -> dD K c (fun j => fst (e j)) n1 n2 = dia_of N K H n1 n2).
  { intros n1 n2 H1 H2. rewrite EH, read_dia by auto. reflexivity. }
  rewrite EH in Hv.
  apply (real_energy N K (fun n => nth n f 0 * conversion a) c (fun j => fst (e j))) with (7 := Hv).
  - intros n Hn. apply Rmult_lt_0_compat; auto. apply Hf; auto.
  - intros j Hj. rewrite <- EX by auto. apply He; auto.
  - intros n1 n2 H1 H2. rewrite DD by auto. auto.
  - intros i j Hi Hj. unfold phot_block. f_equal.
    + destruct (Nat.eqb i j); auto. rewrite (proj2 (Hf i Hi)). rewrite Rmult_0_l. ring.
    + rewrite DS, DD by auto. apply Ceq; cbn [fst snd RtoC Cmult]; [ring|]. rewrite HD by auto. ring.
  - intros i j Hi Hj. rewrite DD, <- DS by auto. pose proof (mapM_ok_length _ _ _ Ec) as Lc. rewrite Hl in Lc. destruct cds as [|cd [|]]; [discriminate| |discriminate].
    cbn [map last fold_left]. unfold mplus, mzero. ring.
  - intros j Hj. fold (e j). rewrite <- EX by auto. apply Ceq; cbn [fst snd RtoC]; auto. apply He; auto.
Qed.

(** ** one photon and one exciton *)
Lemma csum1 f : csum 1 f = f 0%nat.
Proof. cbn [csum]. ring. Qed.
Section TwoOsc.
Variables (w E g : R) (A c d : cmat) (e : nat -> C).
Hypothesis Hw : w <> 0.
Hypothesis HE : E <> 0.
Hypothesis HA : A 0%nat 0%nat = RtoC (w + 2 * g / E).
Hypothesis Hd : d 0%nat 0%nat = RtoC (g / E).
Hypothesis He : e 0%nat = RtoC E.
Hypothesis Hg : (Cconj (c 0%nat 0%nat) * c 0%nat 0%nat)%C = RtoC g.
Local Notation H := (hopfield 1 1 A c d e).
Lemma rows4 v l : (forall i, (i < 4)%nat -> mvec 4 H v i = (l * v i)%C) <->
  (l * v 0%nat = RtoC (w + 2 * g / E) * v 0%nat - Ci * (c 0%nat 0%nat * (v 1%nat + v 3%nat)) - RtoC (2 * (g / E)) * v 2%nat /\
   l * v 1%nat = Ci * (Cconj (c 0%nat 0%nat) * (v 0%nat - v 2%nat)) + RtoC E * v 1%nat /\
   l * v 2%nat = RtoC (2 * (g / E)) * v 0%nat - Ci * (c 0%nat 0%nat * (v 1%nat + v 3%nat)) - RtoC (w + 2 * g / E) * v 2%nat /\
   l * v 3%nat = - (Ci * (Cconj (c 0%nat 0%nat) * (v 0%nat - v 2%nat))) - RtoC E * v 3%nat)%C.
Proof.
  pose proof (row0 1 1 A c d e v 0%nat ltac:(lia)) as R0. pose proof (row1 1 1 A c d e v 0%nat ltac:(lia)) as R1.
  pose proof (row2 1 1 A c d e v 0%nat ltac:(lia)) as R2. pose proof (row3 1 1 A c d e v 0%nat ltac:(lia)) as R3.
  change (2 * (1 + 1))%nat with 4%nat in *. change (1 + 0)%nat with 1%nat in *. change (1 + 1 + 0)%nat with 2%nat in *. change (1 + 1 + 1 + 0)%nat with 3%nat in *.
  unfold mvec in R0, R2. unfold adjv in *. unfold mvec at 1 in R1. unfold mvec at 1 in R3.
  rewrite (csum1 (fun j => A 0%nat j * v j)%C) in R0.
  rewrite !csum1 in R0, R1, R2, R3. unfold part1, part2, part3 in *.
  change (1 + 0)%nat with 1%nat in *. change (1 + 1 + 0)%nat with 2%nat in *. change (1 + 1 + 1 + 0)%nat with 3%nat in *.
  repeat rewrite csum1 in R0; repeat rewrite csum1 in R1; repeat rewrite csum1 in R2; repeat rewrite csum1 in R3.
  change (1 + 0)%nat with 1%nat in *. change (1 + 1 + 0)%nat with 2%nat in *. change (1 + 1 + 1 + 0)%nat with 3%nat in *.
  rewrite HA, Hd in R0, R2. rewrite He in R1, R3. rewrite !RtoC_mult.
  split.
  - intros Hi. pose proof (Hi 0%nat ltac:(lia)) as E0. pose proof (Hi 1%nat ltac:(lia)) as E1. pose proof (Hi 2%nat ltac:(lia)) as E2. pose proof (Hi 3%nat ltac:(lia)) as E3.
    unfold mvec in *. rewrite <- E0, <- E1, <- E2, <- E3. rewrite R0, R1, R2, R3. repeat split; ring.
  - intros (E0 & E1 & E2 & E3) i Hi. unfold mvec.
    destruct i as [|[|[|[|i]]]]; [rewrite R0, E0|rewrite R1, E1|rewrite R2, E2|rewrite R3, E3|lia]; ring.
Qed.
Lemma c2 (z : C) : (Ci * z * (Ci * z) = - (z * z))%C.
Proof. pose proof Ci_sq. replace (Ci * z * (Ci * z))%C with (Ci * Ci * (z * z))%C by ring. rewrite H. ring. Qed.
Lemma c_int (x y : C) : (x * y = RtoC 0)%C -> x = RtoC 0 \/ y = RtoC 0.
Proof. intros P. destruct (Ceq_dec x (RtoC 0)); auto. destruct (Ceq_dec y (RtoC 0)); auto. exfalso. apply (Cmult_neq_0 x y); auto. Qed.
Lemma c_cancel (z x y : C) : z <> RtoC 0 -> (z * x = z * y)%C -> x = y.
Proof. intros Hz E1. destruct (c_int z (x - y)%C) as [Z|Z]; [replace (z * (x - y))%C with (z * x - z * y)%C by ring; rewrite E1; ring|contradiction|]. transitivity (x - y + y)%C; [ring|rewrite Z; ring]. Qed.
Definition biquad (l : C) : C := (l * l * (l * l) - RtoC (w ^ 2 + E ^ 2 + 4 * w * g / E) * (l * l) + RtoC (w ^ 2 * E ^ 2))%C.
Lemma biquad_det l : biquad l = ((l * l - RtoC (w ^ 2 + 4 * w * (g / E))) * (l * l - RtoC (E ^ 2)) - RtoC (4 * w * E * g))%C.
Proof.
  unfold biquad. destruct l as [l1 l2]. apply Ceq; unfold Cminus, Cplus, Copp, Cmult, RtoC; cbn [fst snd]; field; auto.
Qed.
Lemma two_osc l : eigval 4 H l <-> biquad l = RtoC 0.
Proof.
  rewrite biquad_det. set (k := c 0%nat 0%nat) in *. assert (EC : RtoC E <> RtoC 0) by (apply RtoC_neq0; auto). assert (WC : RtoC w <> RtoC 0) by (apply RtoC_neq0; auto).
  assert (GE : RtoC g = (RtoC (g / E) * RtoC E)%C) by (rewrite <- RtoC_mult; f_equal; field; auto).
  split.
  - intros (v & (i & Hi & Hn) & HM). apply rows4 in HM. fold k in HM. destruct HM as (E0 & E1 & E2 & E3).
    set (x := (v 0%nat - v 2%nat)%C) in *. set (y := (v 1%nat + v 3%nat)%C) in *.
    assert (S1 : (l * x = RtoC w * (v 0%nat + v 2%nat))%C).
    { unfold x. replace (l * (v 0%nat - v 2%nat))%C with (l * v 0%nat - l * v 2%nat)%C by ring. rewrite E0, E2, !RtoC_plus. replace (2 * g / E) with (2 * (g / E)) by (field; auto). ring. }
    assert (S2 : (l * (v 0%nat + v 2%nat) = RtoC (w + 4 * (g / E)) * x - RtoC 2 * (Ci * (k * y)))%C).
    { replace (l * (v 0%nat + v 2%nat))%C with (l * v 0%nat + l * v 2%nat)%C by ring. rewrite E0, E2, !RtoC_plus. replace (2 * g / E) with (2 * (g / E)) by (field; auto).
      replace (4 * (g / E)) with (2 * (g / E) + 2 * (g / E)) by ring. rewrite RtoC_plus. unfold x. replace (RtoC 2) with (RtoC 1 + RtoC 1)%C by (rewrite <- RtoC_plus; f_equal; ring). ring. }
    assert (S3 : (l * y = RtoC E * (v 1%nat - v 3%nat))%C).
    { unfold y. replace (l * (v 1%nat + v 3%nat))%C with (l * v 1%nat + l * v 3%nat)%C by ring. rewrite E1, E3. ring. }
    assert (S4 : (l * (v 1%nat - v 3%nat) = RtoC E * y + RtoC 2 * (Ci * (Cconj k * x)))%C).
    { replace (l * (v 1%nat - v 3%nat))%C with (l * v 1%nat - l * v 3%nat)%C by ring. rewrite E1, E3. unfold y. replace (RtoC 2) with (RtoC 1 + RtoC 1)%C by (rewrite <- RtoC_plus; f_equal; ring). ring. }
    assert (T1 : ((l * l - RtoC (w ^ 2 + 4 * w * (g / E))) * x = - (RtoC (2 * w) * (Ci * (k * y))))%C).
    { replace (RtoC (w ^ 2 + 4 * w * (g / E))) with (RtoC w * RtoC (w + 4 * (g / E)))%C by (rewrite <- RtoC_mult; f_equal; ring).
      replace ((l * l - RtoC w * RtoC (w + 4 * (g / E))) * x)%C with (l * (l * x) - RtoC w * (RtoC (w + 4 * (g / E)) * x))%C by ring.
      rewrite S1. replace (l * (RtoC w * (v 0%nat + v 2%nat)))%C with (RtoC w * (l * (v 0%nat + v 2%nat)))%C by ring. rewrite S2, RtoC_mult. ring. }
    assert (T2 : ((l * l - RtoC (E ^ 2)) * y = RtoC (2 * E) * (Ci * (Cconj k * x)))%C).
    { replace (RtoC (E ^ 2)) with (RtoC E * RtoC E)%C by (rewrite <- RtoC_mult; f_equal; ring).
      replace ((l * l - RtoC E * RtoC E) * y)%C with (l * (l * y) - RtoC E * (RtoC E * y))%C by ring. rewrite S3.
      replace (l * (RtoC E * (v 1%nat - v 3%nat)))%C with (RtoC E * (l * (v 1%nat - v 3%nat)))%C by ring. rewrite S4, RtoC_mult. ring. }
    set (P := (l * l - RtoC (w ^ 2 + 4 * w * (g / E)))%C) in *. set (Q := (l * l - RtoC (E ^ 2))%C) in *.
    assert (GG : forall z, (RtoC (2 * w) * (Ci * (k * (RtoC (2 * E) * (Ci * (Cconj k * z))))) = - (RtoC (4 * w * E * g) * z))%C).
    { intros z. pose proof Ci_sq as CI. replace (RtoC (4 * w * E * g)) with (RtoC (2 * w) * RtoC (2 * E) * RtoC g)%C by (rewrite <- !RtoC_mult; f_equal; ring). rewrite <- Hg.
      transitivity (Ci * Ci * (RtoC (2 * w) * RtoC (2 * E) * (Cconj k * k) * z))%C; [ring|]. rewrite CI. ring. }
    assert (U1 : ((P * Q - RtoC (4 * w * E * g)) * x = RtoC 0)%C).
    { replace ((P * Q - RtoC (4 * w * E * g)) * x)%C with (Q * (P * x) - RtoC (4 * w * E * g) * x)%C by ring. rewrite T1.
      replace (Q * - (RtoC (2 * w) * (Ci * (k * y))))%C with (- (RtoC (2 * w) * (Ci * (k * (Q * y)))))%C by ring. rewrite T2, GG. ring. }
    assert (U2 : ((P * Q - RtoC (4 * w * E * g)) * y = RtoC 0)%C).
    { replace ((P * Q - RtoC (4 * w * E * g)) * y)%C with (P * (Q * y) - RtoC (4 * w * E * g) * y)%C by ring. rewrite T2.
      replace (P * (RtoC (2 * E) * (Ci * (Cconj k * x))))%C with (RtoC (2 * E) * (Ci * (Cconj k * (P * x))))%C by ring. rewrite T1.
      transitivity (- (RtoC (2 * w) * (Ci * (k * (RtoC (2 * E) * (Ci * (Cconj k * y)))))) - RtoC (4 * w * E * g) * y)%C; [ring|]. rewrite GG. ring. }
    destruct (c_int _ _ U1) as [Hz|X0]; auto. destruct (c_int _ _ U2) as [Hz|Y0]; auto. exfalso.
    rewrite X0 in S1. rewrite Y0 in S3. rewrite Cmult_0_r in S1, S3.
    destruct (c_int _ _ (eq_sym S1)) as [Z|A1]; [auto|]. destruct (c_int _ _ (eq_sym S3)) as [Z|A2]; [auto|].
    assert (Two : forall z1 z2 : C, (z1 - z2 = RtoC 0)%C -> (z1 + z2 = RtoC 0)%C -> z1 = RtoC 0 /\ z2 = RtoC 0).
    { clear. intros [p1 p2] [q1 q2] H1 H2. injection H1 as H1 H1'. injection H2 as H2 H2'. unfold RtoC. split; f_equal; lra. }
    destruct (Two _ _ X0 A1) as [V0 V2]. destruct (Two _ _ A2 Y0) as [V1 V3]. destruct i as [|[|[|[|i]]]]; auto; lia.
  - intros Det. set (P := (l * l - RtoC (w ^ 2 + 4 * w * (g / E)))%C) in *. set (Q := (l * l - RtoC (E ^ 2))%C) in *.
    assert (Key : forall x y : C, (P * x = - (RtoC (2 * w) * (Ci * (k * y))))%C -> (Q * y = RtoC (2 * E) * (Ci * (Cconj k * x)))%C -> (x <> RtoC 0 \/ y <> RtoC 0) -> eigval 4 H l).
    { intros x y T1 T2 Hxy. set (s := (l * x / RtoC w)%C). set (u := (l * y / RtoC E)%C).
      assert (HS : (l * x = RtoC w * s)%C) by (unfold s; field; auto). assert (HU : (l * y = RtoC E * u)%C) by (unfold u; field; auto).
      assert (HS2 : (l * s = RtoC (w + 4 * (g / E)) * x - RtoC 2 * (Ci * (k * y)))%C).
      { apply c_cancel with (RtoC w); auto. transitivity (l * (l * x))%C; [rewrite HS; ring|].
        replace (l * (l * x))%C with (P * x + RtoC (w ^ 2 + 4 * w * (g / E)) * x)%C by (unfold P; ring). rewrite T1.
        replace (RtoC (w ^ 2 + 4 * w * (g / E))) with (RtoC w * RtoC (w + 4 * (g / E)))%C by (rewrite <- RtoC_mult; f_equal; ring). rewrite RtoC_mult. ring. }
      assert (HU2 : (l * u = RtoC E * y + RtoC 2 * (Ci * (Cconj k * x)))%C).
      { apply c_cancel with (RtoC E); auto. transitivity (l * (l * y))%C; [rewrite HU; ring|].
        replace (l * (l * y))%C with (Q * y + RtoC (E ^ 2) * y)%C by (unfold Q; ring). rewrite T2. replace (RtoC (E ^ 2)) with (RtoC E * RtoC E)%C by (rewrite <- RtoC_mult; f_equal; ring).
        rewrite !RtoC_mult. ring. }
      set (h := RtoC (1 / 2)). assert (HH : (h + h = RtoC 1)%C) by (unfold h; rewrite <- RtoC_plus; f_equal; lra).
      exists (fun i => match i with 0%nat => h * (s + x) | 1%nat => h * (y + u) | 2%nat => h * (s - x) | _ => h * (y - u) end)%C. split.
      - destruct (zero_dec 4 (fun i => match i with 0%nat => h * (s + x) | 1%nat => h * (y + u) | 2%nat => h * (s - x) | _ => h * (y - u) end)%C) as [N0|N0]; auto. exfalso.
        pose proof (N0 0%nat ltac:(lia)) as Z0. pose proof (N0 1%nat ltac:(lia)) as Z1. pose proof (N0 2%nat ltac:(lia)) as Z2. pose proof (N0 3%nat ltac:(lia)) as Z3. cbv iota beta in *.
        destruct Hxy as [X|X]; apply X.
        + transitivity (h * (s + x) - h * (s - x))%C; [|rewrite Z0, Z2; ring]. transitivity ((h + h) * x)%C; [rewrite HH; ring|ring].
        + transitivity (h * (y + u) + h * (y - u))%C; [|rewrite Z1, Z3; ring]. transitivity ((h + h) * y)%C; [rewrite HH; ring|ring].
      - apply rows4. cbv iota beta. fold k. replace (2 * g / E) with (2 * (g / E)) by (field; auto).
        assert (XX : (h * (s + x) - h * (s - x) = x)%C) by (transitivity ((h + h) * x)%C; [ring|rewrite HH; ring]).
        assert (YY : (h * (y + u) + h * (y - u) = y)%C) by (transitivity ((h + h) * y)%C; [ring|rewrite HH; ring]).
        rewrite XX, YY. assert (H2 : (h * RtoC 2 = RtoC 1)%C) by (unfold h; rewrite <- RtoC_mult; f_equal; lra).
        assert (H4 : (h * RtoC (4 * (g / E)) = RtoC (2 * (g / E)))%C) by (unfold h; rewrite <- RtoC_mult; f_equal; lra).
        assert (RW : (h * RtoC (w + 4 * (g / E)) = h * RtoC w + RtoC (2 * (g / E)))%C) by (rewrite RtoC_plus, Cmult_plus_distr_l, H4; reflexivity).
        rewrite RtoC_plus. repeat split.
        + replace (l * (h * (s + x)))%C with (h * (l * s) + h * (l * x))%C by ring. rewrite HS2, HS.
          transitivity ((h * RtoC (w + 4 * (g / E))) * x - h * RtoC 2 * (Ci * (k * y)) + h * (RtoC w * s))%C; [ring|]. rewrite RW, H2.
          transitivity (RtoC w * (h * (s + x)) + RtoC (2 * (g / E)) * (h * (s + x) - h * (s - x)) - Ci * (k * y))%C; [rewrite XX; ring|ring].
        + replace (l * (h * (y + u)))%C with (h * (l * y) + h * (l * u))%C by ring. rewrite HU2, HU.
          transitivity (h * RtoC 2 * (Ci * (Cconj k * x)) + RtoC E * (h * (y + u)))%C; [ring|]. rewrite H2. ring.
        + replace (l * (h * (s - x)))%C with (h * (l * s) - h * (l * x))%C by ring. rewrite HS2, HS.
          transitivity ((h * RtoC (w + 4 * (g / E))) * x - h * RtoC 2 * (Ci * (k * y)) - h * (RtoC w * s))%C; [ring|]. rewrite RW, H2.
          transitivity (RtoC (2 * (g / E)) * (h * (s + x) - h * (s - x)) - Ci * (k * y) - RtoC w * (h * (s - x)))%C; [rewrite XX; ring|ring].
        + replace (l * (h * (y - u)))%C with (h * (l * y) - h * (l * u))%C by ring. rewrite HU2, HU.
          transitivity (- (h * RtoC 2 * (Ci * (Cconj k * x))) - RtoC E * (h * (y - u)))%C; [ring|]. rewrite H2. ring. }
    destruct (Ceq_dec k (RtoC 0)) as [K0|K0].
    + assert (g0 : RtoC (4 * w * E * g) = RtoC 0) by (rewrite RtoC_mult, <- Hg, K0, Cconj_R; ring). rewrite g0 in Det.
      assert (Det' : (P * Q = RtoC 0)%C) by (transitivity (P * Q - RtoC 0)%C; [ring|auto]).
      destruct (c_int _ _ Det') as [Z|Z].
      * apply (Key (RtoC 1) (RtoC 0)); [rewrite Z, K0; ring|rewrite K0, Cconj_R; ring|left; apply RtoC_neq0; lra].
      * apply (Key (RtoC 0) (RtoC 1)); [rewrite K0; ring|rewrite Z; ring|right; apply RtoC_neq0; lra].
    + apply (Key Q (RtoC (2 * E) * (Ci * Cconj k))%C).
      * transitivity (P * Q - RtoC (4 * w * E * g) + RtoC (4 * w * E * g))%C; [ring|]. rewrite Det.
        replace (RtoC (4 * w * E * g)) with (RtoC (2 * w) * RtoC (2 * E) * RtoC g)%C by (rewrite <- !RtoC_mult; f_equal; ring). rewrite <- Hg. pose proof Ci_sq as CI.
        transitivity (- (Ci * Ci) * (RtoC (2 * w) * RtoC (2 * E) * (Cconj k * k)))%C; [rewrite CI; ring|ring].
      * ring.
      * right. apply Cmult_neq_0; [apply RtoC_neq0; lra|]. apply Cmult_neq_0; [apply Ci_neq0|]. intros Z. apply K0. rewrite <- (Cconj_conj k), Z. apply Cconj_R.
Qed.
End TwoOsc.
