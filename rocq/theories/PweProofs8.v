(** Fields of the plane-wave expansion in real space. *)
From Coq Require Import Permutation List Ascii.
From Verif Require Import Py CBase LatticeModel LatticeSpec PhcModel PhcSpec RecipModel RecipSpec RecipProofs MatElModel FieldsSpec FieldsModel FieldsProofs2 RunModel RunSpec PweSpec PweModel PweProofs PweProofs2 PweProofs3 PweProofs4 PweProofs5.
From Verif Require Import CellSpec CellProofs CellProofs2.
Open Scope R_scope.
Open Scope list_scope.

Lemma xy_default L Nx Ny : exists xg yg, xy_grid L Nx Ny PerNone = Ok (xg, yg).
Proof. unfold xy_grid. destruct (lt_type L); cbn [bind]; eauto. Qed.

(** which arrays get_field_xy returns *)
Lemma get_field_ok dl s field kind mind component Nx Ny Fx Fy Fz : NoDup (rc_g (pw_rc s)) ->
  pwe_ft_field dl s field kind mind = Ok (Some (Fx, Fy, Fz)) ->
  exists xg yg, xy_grid (pw_lat s) Nx Ny PerNone = Ok (xg, yg) /\
  ((forall c, letter c component -> c = "x"%char \/ c = "y"%char \/ c = "z"%char) ->
    exists fi, pwe_get_field dl s field kind mind component Nx Ny = Ok (fi, xg, yg) /\ NoDup (map fst fi) /\ (forall c, In c (map fst fi) <-> letter c component) /\
      forall c a, In (c, a) fi -> exists F, ((c = "x"%char /\ F = Fx) \/ (c = "y"%char /\ F = Fy) \/ (c = "z"%char /\ F = Fz)) /\
        a = map (fun y => map (fun x => wave (rc_g (pw_rc s)) F x y) xg) yg) /\
  ((exists c, letter c component /\ ~ (c = "x"%char \/ c = "y"%char \/ c = "z"%char)) -> pwe_get_field dl s field kind mind component Nx Ny = Raise ValueError).
Proof.
  intros ND E. destruct (xy_default (pw_lat s) Nx Ny) as (xg & yg & G). exists xg, yg. split; [exact G|].
  unfold pwe_get_field. rewrite G. cbn [bind]. rewrite E. cbn [bind unpack].
  set (one := fun f : nat -> C => map (fun y => map (fun x => ftinv f (rc_g (pw_rc s)) x y) xg) yg). split.
  - intros H. destruct (FieldsProofs2.loop_ok (nat -> C) (list (list C)) one (Fx, Fy, Fz) component []) as [fi [E1 [E2 [E3 E4]]]]; auto; [constructor|].
    exists fi. rewrite E1. cbn [bind]. split; [reflexivity|]. split; [exact E2|]. split; [intros c; rewrite E3; simpl; tauto|].
    intros c a Hc. rewrite Forall_forall in E4. apply (E4 (c, a)) in Hc. destruct Hc as (F & A & B). exists F. split; [exact A|]. cbn [snd] in B. rewrite B.
    unfold one. apply map_ext. intros y. apply map_ext. intros x. apply ftinv_wave. exact ND.
  - intros [c [H1 H2]]. rewrite (FieldsProofs2.loop_bad (nat -> C) (list (list C)) one (Fx, Fy, Fz) component [] c H1 H2). reflexivity.
Qed.
Lemma get_field_name dl s field kind mind component Nx Ny D : pwe_ft_field dl s "D" kind mind = Ok D ->
  lower field <> "h"%string -> lower field <> "d"%string -> lower field <> "e"%string ->
  pwe_get_field dl s field kind mind component Nx Ny = Raise TypeError.
Proof.
  intros HD H1 H2 H3. destruct (xy_default (pw_lat s) Nx Ny) as (xg & yg & G). unfold pwe_get_field. rewrite G. cbn [bind].
  assert (E : pwe_ft_field dl s field kind mind = Ok None); [|rewrite E; reflexivity].
  revert HD. unfold pwe_ft_field. destruct (attr (pw_vecs s)); cbn [bind]; [|discriminate]. destruct (SymModel.get a kind); cbn [bind]; [|discriminate].
  destruct (SymModel.get a0 mind); cbn [bind]; [|discriminate]. destruct (attr (pw_freqs s)); cbn [bind]; [|discriminate].
  destruct (SymModel.get a2 kind); cbn [bind]; [|discriminate]. destruct (SymModel.get a3 mind); cbn [bind]; [|discriminate].
  destruct (attr (pw_k s)); cbn [bind]; [|discriminate]. destruct (SymModel.get a5 kind); cbn [bind]; [|discriminate].
  destruct (attr (pw_pol s)); cbn [bind]; [|discriminate]. intros _.
  rewrite (proj2 (String.eqb_neq _ _) H1), (proj2 (String.eqb_neq _ _) H2), (proj2 (String.eqb_neq _ _) H3). reflexivity.
Qed.

(** E = B D with B the stored inverse *)
Lemma e_field dl s kind mind B D : pw_einv s = Some B -> pwe_ft_field dl s "D" kind mind = Ok (Some D) ->
  exists E, pwe_ft_field dl s "E" kind mind = Ok (Some E) /\ forall i, at3 E i = apply3 (List.length (rc_g (pw_rc s))) B (at3 D) i.
Proof.
  intros HB. unfold pwe_ft_field. destruct (attr (pw_vecs s)); cbn [bind]; [|discriminate]. destruct (SymModel.get a kind); cbn [bind]; [|discriminate].
  destruct (SymModel.get a0 mind); cbn [bind]; [|discriminate]. destruct (attr (pw_freqs s)); cbn [bind]; [|discriminate].
  destruct (SymModel.get a2 kind); cbn [bind]; [|discriminate]. destruct (SymModel.get a3 mind); cbn [bind]; [|discriminate].
  destruct (attr (pw_k s)); cbn [bind]; [|discriminate]. destruct (SymModel.get a5 kind); cbn [bind]; [|discriminate].
  destruct (attr (pw_pol s)); cbn [bind]; [|discriminate]. rewrite HB. cbn [lower lower_ascii String.eqb Ascii.eqb Bool.eqb orb attr bind].
  change (String.eqb (lower "D") "h") with false. change (String.eqb (lower "E") "h") with false.
  change (String.eqb (lower "D") "d") with true. change (String.eqb (lower "E") "d") with false. change (String.eqb (lower "E") "e") with true.
  cbn [orb]. destruct (String.eqb a7 "te"); [|destruct (String.eqb a7 "tm"); [|discriminate]]; cbn [bind]; intros [= <-];
    (eexists; split; [reflexivity|]); intros i; reflexivity.
Qed.

Section O.
Variable argsort : list R -> list nat.
Variable eigh : nat -> cmat -> list R * cmat.
Variable inv : nat -> cmat -> cmat.
Hypothesis Hs : sorts argsort.
Hypothesis He : diagonalises eigh.
Hypothesis Hi : inverts inv.

Lemma fields_orthonormal args L ly gmax e ks pol m : lattice_init args = Ok L -> independent (lt_a1 L) (lt_a2 L) -> 0 <= gmax -> conj_symmetric (lft L ly) ->
  ks <> [] -> lower pol = "te"%string \/ lower pol = "tm"%string ->
  let gs := rc_g (recip_tbt L gmax) in let n := List.length gs in
  (exists B, is_inverse n (ft_matrix (lft L ly) gs) B) -> psd n (ft_matrix (lft L ly) gs) ->
  exists s', pwe_run argsort eigh inv (pwe_init L ly gmax e) ks pol m = (s', Ok tt) /\
    forall dl i k, nth_error ks i = Some k ->
      (lower pol = "te"%string \/ forall g, In g gs -> (fst g + fst k + dl, snd g + snd k) <> (0, 0)) ->
      exists H : nat -> (nat -> C) * (nat -> C) * (nat -> C), forall b, (b < Nat.min m n)%nat ->
        pwe_ft_field dl s' "H" i b = Ok (Some (H b)) /\
        let at_ b x y := (wave gs (fst (fst (H b))) x y, wave gs (snd (fst (H b))) x y, wave gs (snd (H b)) x y) in
        (forall r x y, in_lattice (lt_a1 L) (lt_a2 L) r -> at_ b (x + fst r) (y + snd r) = at_ b x y) /\
        forall b', (b' < Nat.min m n)%nat ->
          cell_mean (lt_a1 L) (lt_a2 L) (fun x y => dot3 (at_ b x y) (at_ b' x y)) (if Nat.eqb b b' then RtoC 1 else RtoC 0).
Proof.
  intros HL Hind Hg Hc Hk Hpol gs n HB HP.
  destruct (bands argsort eigh inv Hs He Hi args L ly gmax e ks pol m HL Hind Hg Hc Hk Hpol HB HP) as (s1 & fs & vs & B & E & I1 & F1 & F2 & L1 & L2 & N & A1 & A2 & A3 & A4).
  exists s1. split; [exact E|]. intros dl i k Eik Hq.
  assert (ND : NoDup gs) by (destruct (tbt_set args L gmax HL Hind Hg) as (n1 & n2 & _ & _ & _ & _ & _ & ND & _); exact ND).
  assert (HR : forall g, In g gs -> reciprocal_to (lt_a1 L) (lt_a2 L) g) by (intros g; apply (tbt_reciprocal args L gmax g HL Hind Hg)).
  specialize (N i k Eik). destruct N as (ls & V & (V1 & V2 & V3) & Asc & Pos & Fe & Lv & Cols). fold gs in V1, V2, V3, Lv, Cols. fold n in V1, V2, V3, Lv, Cols.
  assert (Lf : List.length (nth i fs []) = Nat.min m n) by (rewrite Fe, map_length, firstn_length; lia).
  set (p := fun b => nth b (nth i vs []) (0%nat, fun _ => RtoC 0)) in *.
  assert (Ev : forall b, (b < Nat.min m n)%nat -> nth_error (nth i vs []) b = Some (fst (p b), snd (p b))).
  { intros b Hb. rewrite <- surjective_pairing. apply nth_error_nth'. lia. }
  assert (Ef : forall b, (b < Nat.min m n)%nat -> nth_error (nth i fs []) b = Some (nth b (nth i fs []) 0)).
  { intros b Hb. apply nth_error_nth'. lia. }
  assert (On : forall b b', (b < Nat.min m n)%nat -> (b' < Nat.min m n)%nat -> csum n (fun j => (Cconj (snd (p b) j) * snd (p b') j)%C) = if Nat.eqb b b' then RtoC 1 else RtoC 0).
  { intros b b' Hb Hb'. rewrite <- (V2 b b') by lia. apply csum_ext. intros j Hj. destruct (Cols b Hb) as [_ C]. destruct (Cols b' Hb') as [_ C']. apply (f_equal2 Cmult); [apply (f_equal Cconj); apply (C j Hj)|apply (C' j Hj)]. }
  assert (HH : exists H : nat -> (nat -> C) * (nat -> C) * (nat -> C), (forall b, (b < Nat.min m n)%nat -> pwe_ft_field dl s1 "H" i b = Ok (Some (H b))) /\
     forall b b', (b < Nat.min m n)%nat -> (b' < Nat.min m n)%nat -> forall j, (j < n)%nat ->
       (Cconj (fst (fst (H b)) j) * fst (fst (H b')) j + Cconj (snd (fst (H b)) j) * snd (fst (H b')) j + Cconj (snd (H b) j) * snd (H b') j = Cconj (snd (p b) j) * snd (p b') j)%C).
  { destruct Hpol as [Hp|Hp]; rewrite Hp in A3.
    - exists (fun b => ((fun _ => RtoC 0), (fun _ => RtoC 0), snd (p b))). split.
      + intros b Hb. apply (te_fields s1 ks fs vs F2 F1 A4 i b k _ _ _ Eik (Ef b Hb) (Ev b Hb) L1 L2 dl A3).
      + intros b b' Hb Hb' j Hj. cbn [fst snd]. ring.
    - assert (Q : forall j, (j < n)%nat -> len (fst (nthg gs j) + fst k + dl, snd (nthg gs j) + snd k) <> 0).
      { intros j Hj. apply len_nz. destruct Hq as [Hq|Hq]; [rewrite Hq in Hp; discriminate|]. apply Hq. apply nth_In. auto. }
      set (q := fun j => (fst (nthg gs j) + fst k + dl, snd (nthg gs j) + snd k)) in *.
      exists (fun b => ((fun j => (snd (p b) j * RtoC (snd (q j) / len (q j)))%C), (fun j => (snd (p b) j * RtoC (- (fst (q j) / len (q j))))%C), (fun _ => RtoC 0))). split.
      + intros b Hb. pose proof (kind_lt ks i k Eik) as KL. unfold pwe_ft_field. rewrite F1, F2, A4, A3. cbn [attr bind].
        rewrite (get_at i [] vs), (get_at i [] fs) by lia. cbn [bind]. rewrite (get_nth _ _ _ (Ev b Hb)), (get_nth _ _ _ (Ef b Hb)), (get_nth _ _ _ Eik). cbn [bind snd].
        rewrite A1. reflexivity.
      + intros b b' Hb Hb' j Hj. cbn [fst snd]. rewrite !Cconj_mult, !Cconj_R.
        transitivity ((Cconj (snd (p b) j) * snd (p b') j) * RtoC ((snd (q j) * snd (q j) + fst (q j) * fst (q j)) / (len (q j) * len (q j))))%C.
        * replace ((snd (q j) * snd (q j) + fst (q j) * fst (q j)) / (len (q j) * len (q j))) with (snd (q j) / len (q j) * (snd (q j) / len (q j)) + - (fst (q j) / len (q j)) * - (fst (q j) / len (q j))) by (field; apply (Q j Hj)).
          rewrite RtoC_plus, !RtoC_mult. ring.
        * pose proof (len_sq (q j)) as LS. pose proof (Q j Hj) as Qj. fold (q j) in Qj. replace ((snd (q j) * snd (q j) + fst (q j) * fst (q j)) / (len (q j) * len (q j))) with 1; [ring|]. rewrite LS.
          field. intros Z0. apply Qj. assert (len (q j) * len (q j) = 0) by lra. apply Rmult_integral in H. tauto. }
  destruct HH as (H & HF & HD). exists H. intros b Hb. split; [apply HF; exact Hb|]. cbv zeta. split.
  - intros r x y Hr. rewrite !(wave_periodic (lt_a1 L) (lt_a2 L) gs _ HR r x y Hr). reflexivity.
  - intros b' Hb'. apply (mean_ext (lt_a1 L) (lt_a2 L) (fun x y => csum 3 (fun c => let comp h := nth c [fst (fst h); snd (fst h); snd h] (fun _ => RtoC 0) in
         (Cconj (wave gs (comp (H b)) x y) * wave gs (comp (H b')) x y)%C)) _
       (csum 3 (fun c => let comp h := nth c [fst (fst h); snd (fst h); snd h] (fun _ => RtoC 0) in csum n (fun j => (Cconj (comp (H b) j) * comp (H b') j)%C)))).
    + intros x y. unfold dot3. cbn [csum nth fst snd]. ring.
    + cbn [csum nth]. rewrite Cplus_0_l, <- !csum_plus, <- (On b b' Hb Hb'). apply csum_ext. intros j Hj. apply HD; auto.
    + apply (mean_csum (lt_a1 L) (lt_a2 L) 3 (fun c x y => _)). intros c _. cbv zeta. apply (parseval (lt_a1 L) (lt_a2 L) Hind gs); auto.
Qed.
End O.
