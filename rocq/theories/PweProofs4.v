(** Scaling, independence of the solver, the permittivity map, fields
    (C49, C51, C84, C85, C86). *)
From Coq Require Import Permutation List.
From Verif Require Import Py CBase LatticeModel LatticeSpec LatticeProofs PhcModel PhcSpec PhcProofs3 RecipModel RecipSpec RecipProofs RecipProofs3 RecipProofs5 MatElModel FieldsSpec FieldsModel FieldsProofs2 RunModel RunSpec RunProofs PweSpec PweModel PweProofs PweProofs2 PweProofs3.
Open Scope R_scope.
Open Scope list_scope.

Lemma form_scale pol gs k B c i j : form_of pol gs k (fun i j => Cmult (RtoC c) (B i j)) i j = Cmult (RtoC c) (form_of pol gs k B i j).
Proof. unfold form_of. destruct (String.eqb pol "te"); unfold te_form, tm_form; ring. Qed.
Lemma form_ext pol gs k B B' i j : B i j = B' i j -> form_of pol gs k B i j = form_of pol gs k B' i j.
Proof. intros E. unfold form_of. destruct (String.eqb pol "te"); unfold te_form, tm_form; rewrite E; auto. Qed.

(** the frequencies do not depend on the routines used *)
Lemma solver_free argsort eigh inv argsort' eigh' inv' : sorts argsort -> diagonalises eigh -> inverts inv -> sorts argsort' -> diagonalises eigh' -> inverts inv' ->
  forall args L ly gmax e ks pol m, lattice_init args = Ok L -> independent (lt_a1 L) (lt_a2 L) -> 0 <= gmax -> conj_symmetric (lft L ly) ->
  lower pol = "te"%string \/ lower pol = "tm"%string ->
  let gs := rc_g (recip_tbt L gmax) in let n := List.length gs in
  (exists B, is_inverse n (ft_matrix (lft L ly) gs) B) -> psd n (ft_matrix (lft L ly) gs) ->
  pw_freqs (fst (pwe_run argsort eigh inv (pwe_init L ly gmax e) ks pol m)) = pw_freqs (fst (pwe_run argsort' eigh' inv' (pwe_init L ly gmax e) ks pol m)).
Proof.
  intros Hs He Hi Hs' He' Hi' args L ly gmax e ks pol m HL Hind Hg Hc Hpol gs n HB HP.
  assert (Hk0 : ks = [] \/ ks <> []) by (destruct ks; [left; auto|right; discriminate]). destruct Hk0 as [->|Hk]; [reflexivity|].
  destruct (bands argsort eigh inv Hs He Hi args L ly gmax e ks pol m HL Hind Hg Hc Hk Hpol HB HP) as (s1 & f1 & v1 & B1 & -> & I1 & F1 & _ & L1 & _ & N1 & _).
  destruct (bands argsort' eigh' inv' Hs' He' Hi' args L ly gmax e ks pol m HL Hind Hg Hc Hk Hpol HB HP) as (s2 & f2 & v2 & B2 & -> & I2 & F2 & _ & L2 & _ & N2 & _).
  cbn [fst]. rewrite F1, F2. f_equal. apply (nth_ext _ _ [] []); [congruence|]. intros i Hi0. rewrite L1 in Hi0.
  destruct (nth_error ks i) as [k|] eqn:E; [|apply nth_error_None in E; lia].
  eapply lowest_unique; [apply N1; exact E|]. apply (lowest_ext n m (form_of (lower pol) gs k B2)); [|apply N2; exact E].
  intros a b Ha Hb. apply form_ext. apply (inverse_unique n _ _ _ I2 I1); auto.
Qed.

(** a permittivity c times larger: frequencies sqrt c times smaller *)
Lemma scaled_layer argsort eigh inv : sorts argsort -> diagonalises eigh -> inverts inv ->
  forall args L ly ly' c gmax e ks pol m, lattice_init args = Ok L -> independent (lt_a1 L) (lt_a2 L) -> 0 <= gmax -> conj_symmetric (lft L ly) ->
  ks <> [] -> lower pol = "te"%string \/ lower pol = "tm"%string -> 0 < c ->
  (forall g, lft L ly' g = (RtoC c * lft L ly g)%C) ->
  let gs := rc_g (recip_tbt L gmax) in let n := List.length gs in
  (exists B, is_inverse n (ft_matrix (lft L ly) gs) B) -> psd n (ft_matrix (lft L ly) gs) ->
  exists fs, pw_freqs (fst (pwe_run argsort eigh inv (pwe_init L ly gmax e) ks pol m)) = Some fs /\
    pw_freqs (fst (pwe_run argsort eigh inv (pwe_init L ly' gmax e) ks pol m)) = Some (map (map (fun f => f / sqrt c)) fs).
Proof.
  intros Hs He Hi args L ly ly' c gmax e ks pol m HL Hind Hg Hc Hk Hpol Hcp Hft gs n HB HP.
  assert (MM : forall i j, ft_matrix (lft L ly') gs i j = (RtoC c * ft_matrix (lft L ly) gs i j)%C) by (intros; apply Hft).
  assert (IV : forall B, is_inverse n (ft_matrix (lft L ly) gs) B -> is_inverse n (ft_matrix (lft L ly') gs) (fun i j => Cmult (RtoC (/ c)) (B i j))).
  { assert (X : (RtoC c * RtoC (/ c))%C = RtoC 1) by (rewrite <- RtoC_mult; f_equal; field; lra).
    intros B [A1 A2]. split; intros i j Hi' Hj.
    - rewrite <- A1 by auto. unfold mmul. apply csum_ext. intros k _. rewrite MM.
      transitivity ((RtoC c * RtoC (/ c)) * (ft_matrix (lft L ly) gs i k * B k j))%C; [ring|rewrite X; ring].
    - rewrite <- A2 by auto. unfold mmul. apply csum_ext. intros k _. rewrite MM.
      transitivity ((RtoC c * RtoC (/ c)) * (B i k * ft_matrix (lft L ly) gs k j))%C; [ring|rewrite X; ring]. }
  assert (Hc' : conj_symmetric (lft L ly')) by (intros g; rewrite !Hft, Hc, Cconj_mult, Cconj_R; auto).
  assert (HB' : exists B, is_inverse n (ft_matrix (lft L ly') gs) B) by (destruct HB as [B HB]; eexists; apply IV; exact HB).
  assert (HP' : psd n (ft_matrix (lft L ly') gs)).
  { intros v. specialize (HP v).
    replace (cdot n v (mvec n (ft_matrix (lft L ly') gs) v)) with (Cmult (RtoC c) (cdot n v (mvec n (ft_matrix (lft L ly) gs) v))).
    - rewrite (surjective_pairing (cdot n v (mvec n (ft_matrix (lft L ly) gs) v))). simpl. nra.
    - unfold cdot, mvec. rewrite <- csum_scal_l. apply csum_ext. intros i _. rewrite <- !csum_scal_l. apply csum_ext. intros j _. rewrite MM. ring. }
  destruct (bands argsort eigh inv Hs He Hi args L ly gmax e ks pol m HL Hind Hg Hc Hk Hpol HB HP) as (s1 & f1 & v1 & B1 & -> & I1 & F1 & _ & L1 & _ & N1 & _).
  destruct (bands argsort eigh inv Hs He Hi args L ly' gmax e ks pol m HL Hind Hg Hc' Hk Hpol HB' HP') as (s2 & f2 & v2 & B2 & -> & I2 & F2 & _ & L2 & _ & N2 & _).
  cbn [fst]. exists f1. split; [exact F1|]. rewrite F2. f_equal. apply (nth_ext _ _ [] (map (fun f => f / sqrt c) [])); [rewrite map_length; congruence|].
  intros i Hi0. rewrite L2 in Hi0. rewrite (map_nth (map (fun f => f / sqrt c))).
  destruct (nth_error ks i) as [k|] eqn:E; [|apply nth_error_None in E; lia].
  eapply lowest_unique; [apply N2; exact E|].
  assert (Ic : 0 <= / c) by (left; apply Rinv_0_lt_compat; lra).
  pose proof (lowest_scale n m _ (/ c) _ _ Ic (N1 i k E)) as Sc.
  replace (map (fun f => f / sqrt c) (nth i f1 [])) with (map (Rmult (sqrt (/ c))) (nth i f1 [])).
  2:{ apply map_ext. intros f. rewrite sqrt_inv by lra. unfold Rdiv. ring. }
  eapply lowest_ext; [|exact Sc].
  intros a b Ha Hb. cbv beta. rewrite <- form_scale. apply form_ext. apply (inverse_unique n _ _ _ (IV _ I1) I2); auto.
Qed.

(** ** the permittivity map *)
Lemma pwe_eps_map args L ly gmax e x y : lattice_init args = Ok L -> independent (lt_a1 L) (lt_a2 L) -> 0 <= gmax -> conj_symmetric (lft L ly) ->
  let s := pwe_init L ly gmax e in let gs := rc_g (pw_rc s) in
  exists ds, NoDup ds /\ (forall D, In D ds <-> exists g g', In g gs /\ In g' gs /\ D = diff g g') /\
    pwe_get_eps s x y = series (map (fun D => (lft L ly D, D)) ds) x y /\ snd (pwe_get_eps s x y) = 0.
Proof.
  intros HL Hind Hg Hc. cbv zeta. unfold pwe_get_eps, pwe_init. cbn [pw_rc pw_T1 pw_T2]. unfold pwe_T1, pwe_T2. fold (lft L ly).
  set (rc := recip_tbt L gmax). set (G1 := G1_of (rc_g rc)). set (G2 := G2_of (rc_g rc) (Z.to_nat (rc_n1 rc)) (Z.to_nat (rc_n2 rc))).
  pose proof (diffs L args gmax HL Hind Hg) as DD. fold rc G1 G2 in DD.
  unfold get_eps_tbt. cbv zeta.
  set (gall := G1 ++ G2 ++ map neg_g G1 ++ map neg_g G2) in *.
  set (call := map (lft L ly) G1 ++ map (lft L ly) G2 ++ map Cconj (map (lft L ly) G1) ++ map Cconj (map (lft L ly) G2)).
  assert (CC : call = map (lft L ly) gall).
  { unfold call, gall. rewrite !map_app, !map_map. do 2 f_equal. f_equal; apply map_ext; intros g; symmetry; apply (Hc g). }
  destruct (ftinv_series (fun i => nth i call (RtoC 0)) gall x y) as [terms [E1 [E2 [E3 E4]]]].
  assert (Tm : terms = map (fun D => (lft L ly D, D)) (map snd terms)).
  { rewrite map_map. rewrite <- (map_id terms) at 1. apply map_ext_in. intros t Ht. rewrite Forall_forall in E4. destruct (E4 t Ht) as [i [Hi ->]].
    cbn [fst snd]. f_equal. rewrite CC. apply nth_map_lt. auto. }
  exists (map snd terms). split; [exact E2|]. split; [intros D; rewrite E3; apply DD|].
  assert (EQ : ftinv (fun i => nth i call (RtoC 0)) gall x y = series (map (fun D => (lft L ly D, D)) (map snd terms)) x y) by (rewrite E1, Tm at 1; reflexivity).
  split; [exact EQ|]. rewrite EQ. rewrite map_map. apply (series_real (lft L ly) terms x y Hc E2).
  intros D. rewrite !E3, !DD. intros (g & g' & A & B & ->). exists g', g. split; auto. split; auto. unfold neg_g, diff. simpl. f_equal; ring.
Qed.

(** ** fields *)
Section Field.
Variables (s : pwe) (ks : list (R * R)) (fs : list (list R)) (vs : list (list (nat * cvec))).
Hypotheses (Hv : pw_vecs s = Some vs) (Hf : pw_freqs s = Some fs) (Hk : pw_k s = Some ks).
Variables (kind mind : nat) (k : R * R) (f : R) (n : nat) (h : cvec).
Hypotheses (E1 : nth_error ks kind = Some k) (E2 : nth_error (nth kind fs []) mind = Some f) (E3 : nth_error (nth kind vs []) mind = Some (n, h)).
Hypotheses (L1 : List.length fs = List.length ks) (L2 : List.length vs = List.length ks).
Let gs := rc_g (pw_rc s).
Let om := f * 2 * PI.
(** k + G with the regularising shift *)
Definition q_at dl (i : nat) : R * R := (fst (nthg gs i) + fst k + dl, snd (nthg gs i) + snd k).

Lemma kind_lt : (kind < List.length ks)%nat.
Proof. apply nth_error_Some. congruence. Qed.
Lemma get_at {A} (d : A) l : (kind < List.length l)%nat -> SymModel.get l kind = Ok (nth kind l d).
Proof. intros. apply get_ok. auto. Qed.
Lemma get_nth {A} (l : list A) i x : nth_error l i = Some x -> SymModel.get l i = Ok x.
Proof. unfold SymModel.get. intros ->. reflexivity. Qed.

(** for 'te' *)
Lemma te_fields dl : pw_pol s = Some "te"%string ->
  pwe_ft_field dl s "H" kind mind = Ok (Some ((fun _ => RtoC 0), (fun _ => RtoC 0), h)) /\
  exists D, pwe_ft_field dl s "D" kind mind = Ok (Some D) /\
    forall i, at3 D i = scale3 (Ci / RtoC om * h i)%C (RtoC (snd (q_at dl i) / len (q_at dl i)), Copp (RtoC (fst (q_at dl i) / len (q_at dl i))), RtoC 0).
Proof.
  intros Hp. pose proof kind_lt as KL. unfold pwe_ft_field. rewrite Hv, Hf, Hk, Hp. cbn [attr bind].
  rewrite (get_at [] vs), (get_at [] fs) by lia. cbn [bind]. rewrite (get_nth _ _ _ E3), (get_nth _ _ _ E2), (get_nth _ _ _ E1). cbn [bind snd].
  split; [reflexivity|]. eexists. split; [reflexivity|]. intros i. unfold at3, scale3. fold gs om.
  change (sqrt ((fst (nthg gs i) + fst k + dl) * (fst (nthg gs i) + fst k + dl) + (snd (nthg gs i) + snd k) * (snd (nthg gs i) + snd k))) with (len (q_at dl i)).
  cbn [q_at fst snd]. apply f_equal2; [apply f_equal2|]; [ring|rewrite RtoC_opp; ring|ring].
Qed.
Lemma tm_fields dl : pw_pol s = Some "tm"%string ->
  (exists H, pwe_ft_field dl s "H" kind mind = Ok (Some H) /\
    forall i, at3 H i = scale3 (h i) (RtoC (snd (q_at dl i) / len (q_at dl i)), Copp (RtoC (fst (q_at dl i) / len (q_at dl i))), RtoC 0)) /\
  pwe_ft_field dl s "D" kind mind = Ok (Some ((fun _ => RtoC 0), (fun _ => RtoC 0), (fun i => Ci / RtoC om * h i)%C)).
Proof.
  intros Hp. pose proof kind_lt as KL. unfold pwe_ft_field. rewrite Hv, Hf, Hk, Hp. cbn [attr bind].
  rewrite (get_at [] vs), (get_at [] fs) by lia. cbn [bind]. rewrite (get_nth _ _ _ E3), (get_nth _ _ _ E2), (get_nth _ _ _ E1). cbn [bind snd].
  split; [|reflexivity]. eexists. split; [reflexivity|]. intros i. unfold at3, scale3. fold gs.
  change (sqrt ((fst (nthg gs i) + fst k + dl) * (fst (nthg gs i) + fst k + dl) + (snd (nthg gs i) + snd k) * (snd (nthg gs i) + snd k))) with (len (q_at dl i)).
  cbn [q_at fst snd]. apply f_equal2; [apply f_equal2|]; [ring|rewrite RtoC_opp; ring|ring].
Qed.

Lemma len_sq q : len q * len q = fst q * fst q + snd q * snd q.
Proof. unfold len. apply sqrt_sqrt. unfold inner. nra. Qed.
Lemma len_nz q : q <> (0, 0) -> len q <> 0.
Proof.
  intros H E. pose proof (len_sq q) as S. rewrite E in S. apply H. destruct q as [a b]. cbn [fst snd] in S.
  assert (a = 0) by nra. assert (b = 0) by nra. congruence.
Qed.

(** transverse fields; D differs from the curl of H by the factor |k+G| *)
Lemma relation dl pol : pw_pol s = Some pol -> pol = "te"%string \/ pol = "tm"%string ->
  exists H D, pwe_ft_field dl s "H" kind mind = Ok (Some H) /\ pwe_ft_field dl s "D" kind mind = Ok (Some D) /\
    forall i, q_at dl i <> (0, 0) -> dot_at (q_at dl i) (at3 H i) = RtoC 0 /\ dot_at (q_at dl i) (at3 D i) = RtoC 0 /\
      scale3 (RtoC (len (q_at dl i))) (at3 D i) =
      scale3 (RtoC (if String.eqb pol "te" then 1 else -1) / RtoC om)%C (curl_at (q_at dl i) (at3 H i)).
Proof.
  intros Hp [->| ->].
  - destruct (te_fields dl Hp) as [A (D & B & C)]. eexists. exists D. split; [exact A|]. split; [exact B|]. intros i Hq.
    rewrite C. set (q := q_at dl i) in *. pose proof (len_nz q Hq) as Lq. unfold at3, scale3, curl_at, dot_at.
    assert (X : forall a, (RtoC (len q) * RtoC (a / len q))%C = RtoC a) by (intros a; rewrite <- RtoC_mult; f_equal; field; auto).
    split; [ring|]. split.
    + transitivity (Ci / RtoC om * h i * RtoC (fst q * (snd q / len q) - snd q * (fst q / len q)))%C; [rewrite RtoC_minus, !RtoC_mult; ring|].
      replace (fst q * (snd q / len q) - snd q * (fst q / len q)) with 0 by (field; auto). ring.
    + cbn [String.eqb Ascii.eqb Bool.eqb]. apply f_equal2; [apply f_equal2|].
      * transitivity (Ci / RtoC om * h i * (RtoC (len q) * RtoC (snd q / len q)))%C; [ring|]. rewrite X. unfold Cdiv. ring.
      * transitivity (- (Ci / RtoC om * h i * (RtoC (len q) * RtoC (fst q / len q))))%C; [ring|]. rewrite X. unfold Cdiv. ring.
      * unfold Cdiv. ring.
  - destruct (tm_fields dl Hp) as [(H & B & C) A]. exists H. eexists. split; [exact B|]. split; [exact A|]. intros i Hq.
    rewrite C. set (q := q_at dl i) in *. pose proof (len_nz q Hq) as Lq. unfold at3, scale3, curl_at, dot_at.
    split.
    + transitivity (h i * RtoC (fst q * (snd q / len q) - snd q * (fst q / len q)))%C; [rewrite RtoC_minus, !RtoC_mult; ring|].
      replace (fst q * (snd q / len q) - snd q * (fst q / len q)) with 0 by (field; auto). ring.
    + split; [ring|]. cbn [String.eqb Ascii.eqb Bool.eqb].
      assert (X : RtoC (fst q * (fst q / len q) + snd q * (snd q / len q)) = RtoC (len q)).
      { f_equal. pose proof (len_sq q). apply Rmult_eq_reg_r with (len q); auto. rewrite H0. field. auto. }
      apply f_equal2; [apply f_equal2|]; [unfold Cdiv; ring|unfold Cdiv; ring|].
      transitivity (RtoC (-1) / RtoC om * (- (Ci * h i * RtoC (fst q * (fst q / len q) + snd q * (snd q / len q)))))%C.
      * rewrite X. replace (RtoC (-1)) with (Copp (RtoC 1)) by (rewrite <- RtoC_opp; f_equal; ring). unfold Cdiv. ring.
      * rewrite RtoC_plus, !RtoC_mult. unfold Cdiv. ring.
Qed.
End Field.
