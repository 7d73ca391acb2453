(** Modes solve Maxwell's equations (C84), refutation of C51. *)
From Coq Require Import Permutation List.
From Verif Require Import Py CBase LatticeModel LatticeSpec LatticeProofs PhcModel PhcSpec PhcProofs3 RecipModel RecipSpec RecipProofs RecipProofs3 RecipProofs5 MatElModel FieldsSpec FieldsModel FieldsProofs2 RunModel RunSpec RunProofs PweSpec PweModel PweProofs PweProofs2 PweProofs3 PweProofs4.
Open Scope R_scope.
Open Scope list_scope.

Lemma q_shift s k i : q_at s k 0 i = shifted k (gat (rc_g (pw_rc s)) i).
Proof. unfold q_at, shifted, gat, nthg. f_equal; ring. Qed.

Lemma te_mode n gs k B l om (h : cvec) : om * om = l -> om <> 0 ->
  (forall i, (i < n)%nat -> mvec n (te_form gs k B) h i = (RtoC l * h i)%C) ->
  mode_of n gs k B om (fun i => (RtoC 0, RtoC 0, h i)).
Proof.
  intros Hl Ho He i Hi. specialize (He i Hi). unfold mode_of, apply3, curl_at, scale3. cbn [fst snd].
  set (q j := shifted k (gat gs j)). fold (q i).
  assert (Ow : (Ci / RtoC om * (RtoC l * h i))%C = (Ci * RtoC om * h i)%C).
  { rewrite <- Hl, RtoC_mult. field. apply RtoC_neq0; auto. }
  assert (Z : csum n (fun j => (B i j * (Ci / RtoC om * (Ci * RtoC (fst (q j)) * RtoC 0 - Ci * RtoC (snd (q j)) * RtoC 0)))%C) = RtoC 0).
  { apply csum_0. intros j _. ring. }
  unfold q in Z. rewrite Z. fold (q i).
  apply f_equal2; [apply f_equal2; ring|].
  rewrite <- Ow, <- He. unfold mvec. rewrite <- !csum_scal_l. rewrite <- csum_minus. apply csum_ext. intros j _.
  unfold te_form. fold (q i) (q j). unfold inner. rewrite RtoC_plus, !RtoC_mult.
  set (w := (Ci / RtoC om)%C).
  transitivity ((Ci * Ci) * w * B i j * h j * (- (RtoC (fst (q i)) * RtoC (fst (q j)) + RtoC (snd (q i)) * RtoC (snd (q j)))))%C; [ring|].
  rewrite Ci_sq. ring.
Qed.

Lemma tm_mode n gs k B l om (h : cvec) : om * om = l -> om <> 0 -> (forall i, (i < n)%nat -> shifted k (gat gs i) <> (0, 0)) ->
  (forall i, (i < n)%nat -> mvec n (tm_form gs k B) h i = (RtoC l * h i)%C) ->
  mode_of n gs k B om (fun i => scale3 (h i) (RtoC (snd (shifted k (gat gs i)) / len (shifted k (gat gs i))), Copp (RtoC (fst (shifted k (gat gs i)) / len (shifted k (gat gs i)))), RtoC 0)).
Proof.
  intros Hl Ho Hq He i Hi. specialize (He i Hi). unfold mode_of, apply3, curl_at, scale3. cbn [fst snd].
  set (q j := shifted k (gat gs j)). fold (q i).
  assert (Lq : forall j, (j < n)%nat -> RtoC (len (q j)) <> RtoC 0) by (intros j Hj; apply RtoC_neq0, len_nz, Hq; auto).
  assert (Zx : csum n (fun j => (B i j * (Ci / RtoC om * (Ci * RtoC (snd (q j)) * (h j * RtoC 0))))%C) = RtoC 0) by (apply csum_0; intros j _; ring).
  assert (Zy : csum n (fun j => (B i j * (Ci / RtoC om * - (Ci * RtoC (fst (q j)) * (h j * RtoC 0))))%C) = RtoC 0) by (apply csum_0; intros j _; ring).
  set (Ez := csum n _).
  assert (EZ : (RtoC (len (q i)) * Ez)%C = (RtoC om * h i)%C).
  { assert (Ow : (/ RtoC om * (RtoC l * h i))%C = (RtoC om * h i)%C) by (rewrite <- Hl, RtoC_mult; field; apply RtoC_neq0; auto).
    rewrite <- Ow, <- He. unfold Ez, mvec. rewrite <- !csum_scal_l. apply csum_ext. intros j Hj. unfold tm_form. fold (q i) (q j). rewrite RtoC_mult.
    specialize (Lq j Hj). unfold Rdiv. rewrite !RtoC_mult.
    assert (LL : (RtoC (fst (q j)) * RtoC (fst (q j)) + RtoC (snd (q j)) * RtoC (snd (q j)))%C = (RtoC (len (q j)) * RtoC (len (q j)))%C).
    { rewrite <- !RtoC_mult, <- RtoC_plus. f_equal. symmetry. apply len_sq. }
    assert (In' : (RtoC (len (q j)) * RtoC (/ len (q j)))%C = RtoC 1).
    { rewrite <- RtoC_mult. f_equal. field. intros Z. apply Lq. rewrite Z. auto. }
    transitivity ((Ci * Ci) * - (RtoC (fst (q j)) * RtoC (fst (q j)) + RtoC (snd (q j)) * RtoC (snd (q j))) * RtoC (/ len (q j)) * / RtoC om * RtoC (len (q i)) * B i j * h j)%C; [unfold Cdiv; ring|].
    rewrite LL, Ci_sq.
    transitivity ((RtoC (len (q j)) * RtoC (/ len (q j))) * RtoC (len (q j)) * / RtoC om * RtoC (len (q i)) * B i j * h j)%C; [ring|].
    rewrite In'. ring. }
  assert (EZ' : Ez = (RtoC om * h i * RtoC (/ len (q i)))%C).
  { rewrite <- EZ. assert (X : (RtoC (len (q i)) * RtoC (/ len (q i)))%C = RtoC 1).
    { rewrite <- RtoC_mult. f_equal. field. intros Z. apply (Lq i Hi). rewrite Z. auto. }
    transitivity (Ez * (RtoC (len (q i)) * RtoC (/ len (q i))))%C; [rewrite X; ring|ring]. }
  unfold q in Zx, Zy. rewrite Zx, Zy, EZ'. fold (q i). unfold Rdiv. rewrite !RtoC_mult.
  apply f_equal2; [apply f_equal2|]; ring.
Qed.

Lemma mode_ext n gs k B om F F' : (forall i, (i < n)%nat -> F i = F' i) -> mode_of n gs k B om F -> mode_of n gs k B om F'.
Proof.
  intros E H i Hi. rewrite <- E by auto. rewrite <- (H i Hi). f_equal. unfold apply3.
  apply f_equal2; [apply f_equal2|]; apply csum_ext; intros j Hj; rewrite E; auto.
Qed.

Lemma maxwell argsort eigh inv : sorts argsort -> diagonalises eigh -> inverts inv ->
  forall args L ly gmax e ks pol m, lattice_init args = Ok L -> independent (lt_a1 L) (lt_a2 L) -> 0 <= gmax -> conj_symmetric (lft L ly) ->
  ks <> [] -> lower pol = "te"%string \/ lower pol = "tm"%string ->
  let gs := rc_g (recip_tbt L gmax) in let n := List.length gs in
  (exists B, is_inverse n (ft_matrix (lft L ly) gs) B) -> psd n (ft_matrix (lft L ly) gs) ->
  exists s' fs B, pwe_run argsort eigh inv (pwe_init L ly gmax e) ks pol m = (s', Ok tt) /\ pw_freqs s' = Some fs /\
    is_inverse n (ft_matrix (lft L ly) gs) B /\
    forall dl i k b, nth_error ks i = Some k -> (b < Nat.min m n)%nat ->
      (lower pol = "te"%string \/ (dl = 0 /\ forall j, (j < n)%nat -> shifted k (gat gs j) <> (0, 0))) ->
      let om := 2 * PI * nth b (nth i fs []) 0 in
      exists H, pwe_ft_field dl s' "H" i b = Ok (Some H) /\ (exists j, (j < n)%nat /\ at3 H j <> (RtoC 0, RtoC 0, RtoC 0)) /\
        (om <> 0 -> mode_of n gs k B om (at3 H)).
Proof.
  intros Hs He Hi args L ly gmax e ks pol m HL Hind Hg Hc Hk Hpol gs n HB HP.
  destruct (bands argsort eigh inv Hs He Hi args L ly gmax e ks pol m HL Hind Hg Hc Hk Hpol HB HP) as (s1 & fs & vs & B & E & I1 & F1 & F2 & L1 & L2 & N & A1 & A2 & A3 & A4).
  exists s1, fs, B. split; [exact E|]. split; [exact F1|]. split; [exact I1|].
  intros dl i k b Eik Hb Hd om. specialize (N i k Eik).
  destruct N as (ls & V & (V1 & V2 & V3) & Asc & Pos & Fe & Lv & Cols). fold gs in V1, V2, V3, Lv, Cols. fold n in V1, V2, V3, Lv, Cols.
  specialize (Cols b Hb). destruct Cols as [C1 C2].
  set (p := nth b (nth i vs []) (0%nat, fun _ => RtoC 0)) in *.
  assert (Ev : nth_error (nth i vs []) b = Some (fst p, snd p)).
  { rewrite <- surjective_pairing. apply nth_error_nth'. lia. }
  assert (Lf : List.length (nth i fs []) = Nat.min m n) by (rewrite Fe, map_length, firstn_length; lia).
  set (f := nth b (nth i fs []) 0) in *.
  assert (Ef : nth_error (nth i fs []) b = Some f) by (apply nth_error_nth'; lia).
  assert (Fv : f = sqrt (nth b ls 0) / (2 * PI)).
  { unfold f. rewrite Fe. rewrite (nth_map_lt _ _ _ 0) by (rewrite firstn_length; lia). f_equal. f_equal.
    rewrite <- (firstn_skipn m ls) at 2. rewrite app_nth1; auto. rewrite firstn_length. lia. }
  assert (Ol : om * om = nth b ls 0).
  { unfold om. rewrite Fv. replace (2 * PI * (sqrt (nth b ls 0) / (2 * PI))) with (sqrt (nth b ls 0)) by (field; apply PI_neq0).
    apply sqrt_sqrt. apply Pos, nth_In. lia. }
  assert (Bn : (b < n)%nat) by lia.
  assert (Hh : forall j, (j < n)%nat -> mvec n (form_of (lower pol) gs k B) (snd p) j = (RtoC (nth b ls 0) * snd p j)%C).
  { intros j Hj. rewrite (C2 j Hj), <- V3 by auto. unfold mvec. apply csum_ext. intros a Ha. rewrite C2 by auto. auto. }
  assert (NZ : exists j, (j < n)%nat /\ snd p j <> RtoC 0).
  { assert (X : ~ forall j, (j < n)%nat -> V j b = RtoC 0).
    { intros Z. pose proof (V2 b b Bn Bn) as O. rewrite Nat.eqb_refl in O.
      rewrite csum_0 in O by (intros j Hj; rewrite Z by auto; ring). apply (f_equal fst) in O. simpl in O. lra. }
    assert (Y : forall m0, (forall j, (j < m0)%nat -> V j b = RtoC 0) \/ exists j, (j < m0)%nat /\ V j b <> RtoC 0).
    { induction m0 as [|m0 [IH|(j & J1 & J2)]]; [left; intros; lia| |right; exists j; split; auto; lia].
      destruct (Ceq_dec (V m0 b) (RtoC 0)) as [Z|Z]; [left|right; exists m0; split; auto; lia].
      intros j Hj. destruct (Nat.eq_dec j m0) as [->|]; auto. apply IH. lia. }
    destruct (Y n) as [Z|(j & J1 & J2)]; [tauto|]. exists j. split; auto. rewrite C2; auto. }
  pose proof (te_fields s1 ks fs vs F2 F1 A4 i b k f (fst p) (snd p) Eik Ef Ev L1 L2 dl) as TE.
  pose proof (tm_fields s1 ks fs vs F2 F1 A4 i b k f (fst p) (snd p) Eik Ef Ev L1 L2 dl) as TM.
  destruct Hpol as [Hte|Htm].
  - rewrite Hte in A3, Hh. destruct (TE A3) as [T _]. eexists. split; [exact T|]. split.
    + destruct NZ as (j & J1 & J2). exists j. split; auto. unfold at3. intros X. apply J2. congruence.
    + intros Ho. apply (te_mode n gs k B (nth b ls 0) om (snd p)); auto.
  - rewrite Htm in A3, Hh, Hd. destruct (TM A3) as [(H & T & Hv) _]. destruct Hd as [Hd|[-> Hq]]; [discriminate|].
    exists H. split; [exact T|].
    assert (Hat : forall j, at3 H j = scale3 (snd p j) (RtoC (snd (shifted k (gat gs j)) / len (shifted k (gat gs j))), Copp (RtoC (fst (shifted k (gat gs j)) / len (shifted k (gat gs j)))), RtoC 0)).
    { intros j. rewrite Hv, q_shift, A1. reflexivity. }
    split.
    + destruct NZ as (j & J1 & J2). exists j. split; auto. rewrite Hat. unfold scale3. intros X.
      set (q := shifted k (gat gs j)) in *. assert (Lq : len q <> 0) by (apply len_nz, Hq; auto).
      pose proof (f_equal (fun t => fst (fst t)) X) as X1. pose proof (f_equal (fun t => snd (fst t)) X) as X2. cbv beta in X1, X2. cbn [fst snd] in X1, X2.
      pose proof (len_sq q) as LS. apply J2. set (h := snd p j) in *.
      assert (One : RtoC ((snd q / len q) * (snd q / len q) + (fst q / len q) * (fst q / len q)) = RtoC 1).
      { f_equal. apply Rmult_eq_reg_r with (len q * len q); [|nra]. rewrite Rmult_1_l. rewrite LS at 2. field. auto. }
      transitivity (h * RtoC 1)%C; [ring|]. rewrite <- One, RtoC_plus, !RtoC_mult.
      transitivity ((h * RtoC (snd q / len q)) * RtoC (snd q / len q) - (h * - RtoC (fst q / len q)) * RtoC (fst q / len q))%C; [ring|].
      rewrite X1, X2. ring.
    + intros Ho. eapply mode_ext; [intros j Hj; symmetry; apply Hat|]. apply (tm_mode n gs k B (nth b ls 0) om (snd p)); auto.
Qed.
