(** Concrete crystals: refutation of C51, examples. *)
From Coq Require Import Permutation List.
From Verif Require Import Py CBase LatticeModel LatticeSpec LatticeProofs PhcModel PhcSpec PhcProofs3 RecipModel RecipSpec RecipProofs RecipProofs3 RecipProofs5 MatElModel FieldsSpec FieldsModel FieldsProofs2 RunModel RunSpec RunProofs PweSpec PweModel PweProofs PweProofs2 PweProofs3 PweProofs4 PweProofs5.
Open Scope R_scope.
Open Scope list_scope.

Definition slab_of (eps : R) : layer := shapes_layer 0 1 eps.

(** one plane wave *)
Lemma one_wave : exists L, lattice_init (LatName "square") = Ok L /\ independent (lt_a1 L) (lt_a2 L) /\ rc_g (recip_tbt L 0) = [(0, 0)].
Proof.
  assert (E : exists L, lattice_init (LatName "square") = Ok L) by (eexists; reflexivity). destruct E as [L HL].
  exists L. split; [exact HL|]. pose proof (named_independent _ _ HL) as Hi. split; [exact Hi|].
  destruct (tbt_set _ L 0 HL Hi ltac:(lra)) as (n1 & n2 & I1 & I2 & _ & _ & Ln & _ & Nth & _).
  assert (Z : forall n b, integer_part (2 * PI * 0 / len b) n -> n = 0%nat).
  { intros n b [A B]. replace (2 * PI * 0 / len b) with 0 in A by (unfold Rdiv; ring). destruct n; auto. rewrite S_INR in A. pose proof (pos_INR n). lra. }
  apply Z in I1, I2. subst n1 n2. specialize (Nth 0%nat 0%nat ltac:(lia) ltac:(lia)). cbn [Nat.mul Nat.add Z.of_nat Z.sub Z.opp Z.add] in Nth.
  destruct (rc_g (recip_tbt L 0)) as [|g [|g' t]]; simpl in Ln; try discriminate. simpl in Nth. injection Nth as ->. f_equal. unfold comb. f_equal; simpl; ring.
Qed.

Lemma no_constant : exists L ly ks, lattice_init (LatName "square") = Ok L /\
  forall argsort eigh inv, sorts argsort -> diagonalises eigh -> inverts inv -> exists s' fs,
    pwe_run argsort eigh inv (pwe_init L ly 0 None) ks "te" 1 = (s', Ok tt) /\ pw_freqs s' = Some fs /\
    forall dl, 0 <= dl -> forall c : C, exists i k H D, nth_error ks i = Some k /\ pwe_ft_field dl s' "H" i 0 = Ok (Some H) /\ pwe_ft_field dl s' "D" i 0 = Ok (Some D) /\
      at3 D 0 <> scale3 (c / RtoC (2 * PI * nth 0 (nth i fs []) 0))%C (curl_at (shifted k (gat (rc_g (pw_rc s')) 0)) (at3 H 0)).
Proof.
  destruct one_wave as (L & HL & Hi & Hg). exists L, (slab_of 1), [(2, 0); (3, 0)]. split; [exact HL|].
  intros argsort eigh inv Hs He Hv. set (ks := [(2, 0); (3, 0)]).
  assert (Sep : forall g g', In g (rc_g (recip_tbt L 0)) -> In g' (rc_g (recip_tbt L 0)) -> is_g0 (diff g g') -> g = g').
  { rewrite Hg. intros g g' [<-|[]] [<-|[]] _. auto. }
  destruct (uniform_bands argsort eigh inv Hs He Hv _ L 1 0 1 0 None ks "te" 1 HL Hi ltac:(lra) ltac:(lra) ltac:(discriminate) (or_introl eq_refl) Sep) as (s1 & f1 & v1 & R1 & G1 & _ & Lf & _ & Sm).
  assert (UM := uniform_matrix L 1 0 1 [(0, 0)]).
  assert (ND : NoDup [(0, 0)]) by (constructor; [intros []|constructor]).
  specialize (UM ND ltac:(intros g g' [<-|[]] [<-|[]] _; auto)).
  destruct (maxwell argsort eigh inv Hs He Hv _ L (slab_of 1) 0 None ks "te" 1 HL Hi ltac:(lra) (uniform_conj L 1 0 1) ltac:(discriminate) (or_introl eq_refl)) as (s2 & f2 & B & R2 & G2 & IB & Mx).
  { rewrite Hg. eexists. apply (delta_inverse 1 1); [lra|]. exact UM. }
  { rewrite Hg. intros v. unfold cdot, mvec. cbn [List.length csum]. 
    pose proof (UM 0%nat 0%nat ltac:(simpl; lia) ltac:(simpl; lia)) as U0. unfold slab_of. rewrite U0. simpl. nra. }
  change (slab_of 1) with (shapes_layer 0 1 1) in R2. rewrite R1 in R2. injection R2 as <-. rewrite G1 in G2. injection G2 as <-.
  exists s1, f1. split; [exact R1|]. split; [exact G1|]. intros dl Hdl c.
  rewrite Hg in Mx, Sm. cbn [List.length] in Mx.
  (* frequencies *)
  assert (Fq : forall i k, nth_error ks i = Some k -> 0 < fst k -> snd k = 0 -> 2 * PI * nth 0 (nth i f1 []) 0 = fst k).
  { intros i k Ei Hk Hk2. destruct (Sm i k Ei) as (sl & P & _ & ->). cbn [map] in P. apply Permutation_sym, Permutation_length_1_inv in P. subst sl. cbn [firstn nth].
    rewrite sqrt_1, Rmult_1_r. unfold len, shifted, LatticeSpec.inner. cbn [fst snd]. rewrite Hk2, !Rplus_0_r.
    replace (fst k * fst k + 0 * 0) with (fst k * fst k) by ring. rewrite sqrt_square by lra. field. apply PI_neq0. }
  (* what comes out at each k *)
  assert (Out : forall i k, nth_error ks i = Some k -> 0 < fst k -> snd k = 0 -> exists H D e, e <> RtoC 0 /\
     pwe_ft_field dl s1 "H" i 0 = Ok (Some H) /\ pwe_ft_field dl s1 "D" i 0 = Ok (Some D) /\ at3 H 0 = (RtoC 0, RtoC 0, e) /\
     snd (fst (at3 D 0)) = (- (Ci / RtoC (fst k) * e))%C /\ rc_g (pw_rc s1) = [(0, 0)]).
  { intros i k Ei Hk Hk2. destruct (Mx dl i k 0%nat Ei ltac:(simpl; lia) (or_introl eq_refl)) as (H & E1 & (j & Hj & Nz) & _).
    assert (j = 0%nat) by lia. subst j.
    destruct (bands argsort eigh inv Hs He Hv _ L (shapes_layer 0 1 1) 0 None ks "te" 1 HL Hi ltac:(lra) (uniform_conj L 1 0 1) ltac:(discriminate) (or_introl eq_refl)) as (s3 & f3 & v3 & B3 & R3 & _ & F1 & F2 & L1 & L2 & N & A1 & A2 & A3 & A4).
    { rewrite Hg. eexists. apply (delta_inverse 1 1); [lra|]. exact UM. }
    { rewrite Hg. intros v. unfold cdot, mvec. cbn [List.length csum]. 
      pose proof (UM 0%nat 0%nat ltac:(simpl; lia) ltac:(simpl; lia)) as U0. rewrite U0. simpl. nra. }
    rewrite R1 in R3. injection R3 as <-. rewrite G1 in F1. injection F1 as <-. specialize (N i k Ei). rewrite Hg in N.
    destruct N as (ls & V & (V1 & _) & _ & _ & Fe & Lv & Cols). cbn [List.length Nat.min] in *. destruct (Cols 0%nat ltac:(lia)) as [C1 C2].
    set (p := nth 0 (nth i v3 []) (0%nat, fun _ => RtoC 0)) in *.
    assert (Ev : nth_error (nth i v3 []) 0 = Some (fst p, snd p)) by (rewrite <- surjective_pairing; apply nth_error_nth'; lia).
    assert (Ef : nth_error (nth i f1 []) 0 = Some (nth 0 (nth i f1 []) 0)).
    { apply nth_error_nth'. rewrite Fe, map_length, firstn_length, V1. simpl. lia. }
    destruct (te_fields s1 ks f1 v3 F2 G1 A4 i 0%nat k _ (fst p) (snd p) Ei Ef Ev L1 L2 dl A3) as [T1 (D & T2 & T3)].
    rewrite E1 in T1. injection T1 as ->. eexists. exists D, (snd p 0%nat). split; [|split; [exact E1|split; [exact T2|split; [reflexivity|split]]]].
    - intros Z. apply Nz. unfold at3. rewrite Z. reflexivity.
    - rewrite T3. unfold scale3, q_at. cbn [fst snd]. rewrite A1, Hg. unfold nthg. cbn [nth fst snd]. rewrite Hk2.
      replace (nth 0 (nth i f1 []) 0 * 2 * PI) with (fst k) by (rewrite <- (Fq i k Ei Hk Hk2); ring).
      assert (E0 : len (0 + fst k + dl, 0 + 0) = fst k + dl).
      { unfold len, LatticeSpec.inner. cbn [fst snd]. rewrite !Rplus_0_l, Rmult_0_l, Rplus_0_r. apply sqrt_square. lra. }
      rewrite E0. replace ((0 + fst k + dl) / (fst k + dl)) with 1 by (field; lra). ring.
    - rewrite A1. exact Hg. }
  destruct (Out 0%nat (2, 0) eq_refl ltac:(simpl; lra) eq_refl) as (Ha & Da & ea & Na & A1 & A2 & A3 & A4 & Gs).
  destruct (Out 1%nat (3, 0) eq_refl ltac:(simpl; lra) eq_refl) as (Hb & Db & eb & Nb & B1 & B2 & B3 & B4 & _).
  pose proof (Fq 0%nat (2, 0) eq_refl ltac:(simpl; lra) eq_refl) as Fa. pose proof (Fq 1%nat (3, 0) eq_refl ltac:(simpl; lra) eq_refl) as Fb. cbn [fst] in Fa, Fb, A4, B4.
  (* with constant c: c = 1/2 at the first k, 1/3 at the second *)
  assert (Key : forall x e, x <> 0 -> e <> RtoC 0 -> (- (Ci / RtoC x * e))%C = (c / RtoC x * - (Ci * RtoC (x + 0) * e))%C -> (c * RtoC x)%C = RtoC 1).
  { intros x e Hx Ne Q. rewrite Rplus_0_r in Q. assert (Cx : RtoC x <> RtoC 0) by (apply RtoC_neq0; auto). pose proof Ci_neq0 as Ni.
    transitivity (((c / RtoC x * - (Ci * RtoC x * e)) * (- RtoC x / (Ci * e)))%C); [field; auto|]. rewrite <- Q. field. auto. }
  destruct (Ceq_dec (c * RtoC 2)%C (RtoC 1)) as [Q|Q].
  - exists 1%nat, (3, 0), Hb, Db. split; [reflexivity|]. split; [exact B1|]. split; [exact B2|]. intros X. apply (f_equal (fun t => snd (fst t))) in X.
    rewrite B4, B3, Fb, Gs in X. unfold scale3, curl_at, shifted, gat in X. cbn [nth fst snd] in X.
    apply (Key 3 eb ltac:(lra) Nb) in X. assert (Y : (c * RtoC 3 * RtoC 2)%C = RtoC 3) by (rewrite <- Cmult_assoc, (Cmult_comm (RtoC 3)), Cmult_assoc, Q; ring).
    rewrite X in Y. apply (f_equal fst) in Y. simpl in Y. lra.
  - exists 0%nat, (2, 0), Ha, Da. split; [reflexivity|]. split; [exact A1|]. split; [exact A2|]. intros X. apply (f_equal (fun t => snd (fst t))) in X.
    rewrite A4, A3, Fa, Gs in X. unfold scale3, curl_at, shifted, gat in X. cbn [nth fst snd] in X.
    apply (Key 2 ea ltac:(lra) Na) in X. tauto.
Qed.
