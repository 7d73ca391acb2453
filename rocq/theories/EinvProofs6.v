(** Discs: the hypotheses of the exciton invariances. *)
From Coq Require Import Permutation List.
From Verif Require Import Py CBase LatticeModel PhcModel PhcSpec ShapesModel ShapesSpec ShapesProofs2 ShapesProofs9 RecipModel RecipSpec RecipProofs RecipProofs2 RecipProofs3 RecipProofs5 MatElModel RunModel RunSpec PweSpec PweModel ExcSpec ExcModel ExcProofs ExcProofs2 ExcProofs3 LatticeSpec.
From Verif Require Import LatticeProofs InvSpec InvProofs InvProofs2 InvProofs3 InvProofs7 EinvSpec EinvProofs EinvProofs2 EinvProofs3 EinvProofs4 EinvProofs5.
Open Scope R_scope.
Open Scope list_scope.

(** the transform of a circle is within 1e-10 pi r^3 of the integral *)
Lemma circle_near eps xc yc r gs : 0 < r -> near_integral (circle_shape bessel_J1 eps xc yc r) (1 / 10 ^ 10 * (PI * r ^ 3)) gs.
Proof.
  intros Hr. exists (Rabs xc + Rabs yc + r + 1). pose proof (Rabs_pos xc). pose proof (Rabs_pos yc). split; [lra|]. intros D _.
  apply (circle_fourier xc yc r D); [exact Hr|]. intros x y H'. unfold circle_inside in H'. apply Rleb_true in H'.
  assert (X : Rabs (x - xc) <= r) by (apply Rabs_le; pose proof (pow2_ge_0 (y - yc)); split; nra).
  assert (Y : Rabs (y - yc) <= r) by (apply Rabs_le; pose proof (pow2_ge_0 (x - xc)); split; nra).
  pose proof (Rabs_triang (x - xc) xc) as T1. pose proof (Rabs_triang (y - yc) yc) as T2.
  replace (x - xc + xc) with x in T1 by ring. replace (y - yc + yc) with y in T2 by ring. lra.
Qed.
Lemma circle_moved j1 eps xc yc r t gs : moved_on (difference_of gs) t (sh_ft (circle_shape j1 eps xc yc r)) (sh_ft (circle_shape j1 eps (xc + fst t) (yc + snd t) r)).
Proof.
  intros g _. unfold circle_shape, circle_ft. cbn [sh_ft]. cbv zeta.
  replace (- fst g * (xc + fst t) - snd g * (yc + snd t)) with (- LatticeSpec.inner g t + (- fst g * xc - snd g * yc)) by (unfold LatticeSpec.inner; ring).
  rewrite expi_plus. ring.
Qed.

(** a disc of radius 1/20 anywhere in a slab on the square lattice *)
Definition dot_phc (c : R * R) (L : lattice) : phc :=
  run_ops (phc_init L 1 1) [OpLayer 1 12 "shapes"; OpShape (ShOne (circle_shape bessel_J1 1 (fst c) (snd c) (1/20))) 0 CladNone].
Definition dot_layer (c : R * R) (L : lattice) : layer := append_shape (lt_ec_area L) (shapes_layer 0 (0 + 1) 12) (circle_shape bessel_J1 1 (fst c) (snd c) (1/20)).
Lemma dot_form c L : pc_lattice (dot_phc c L) = L /\ pc_layers (dot_phc c L) = [dot_layer c L] /\ z_to_lind (dot_phc c L) (1/2) = 1%nat.
Proof.
  assert (E : dot_phc c L = mkPhc L (shapes_layer (- 10 ^ 10) 0 1) (set_zmin (shapes_layer 0 (10 ^ 10) 1) (0 + 1)) [dot_layer c L] []) by reflexivity.
  rewrite E. cbn [pc_lattice pc_layers]. split; auto. split; auto. unfold z_to_lind. cbn [pc_layers pc_clad_l].
  assert (T : ly_zmax (dot_layer c L) = 0 + 1) by reflexivity. assert (T0 : ly_zmax (shapes_layer (- 10 ^ 10) 0 1) = 0) by reflexivity.
  rewrite T0. cbn [z_loop]. rewrite (proj2 (Rltb_true 0 (1/2))) by lra. rewrite T.
  rewrite (proj2 (Rltb_false (0 + 1) (1/2))) by lra. cbn [fst snd]. try rewrite (proj2 (Rltb_false (0 + 1) (1/2))) by lra. reflexivity.
Qed.
Lemma dot_init c L V a M E0 loss gmax : lattice_init (LatName "square") = Ok L -> 0 <= gmax ->
  exists s, exc_init 0 (dot_phc c L) (1/2) V a M E0 loss OscNone gmax "tbt" = Some (Ok s) /\ ex_layer s = dot_layer c L /\ separated (rc_g (ex_rc s)) /\ rc_g (ex_rc s) = rc_g (recip_tbt L gmax).
Proof.
  intros HL Hg. destruct (dot_form c L) as (F1 & F2 & F3).
  destruct (init_ok 0 (dot_phc c L) (1/2) V a M E0 loss OscNone None gmax "tbt" (dot_layer c L) (LatName "square")) as (s & HI & A & B); rewrite ?F1, ?F2, ?F3; auto; try discriminate.
  - apply (named_independent _ _ HL).
  - intros gs. apply square_separated. auto.
  - intros s [<-|[]]. intros g. apply circle_conj.
  - exists s. split; [exact HI|]. split; [exact A|]. split; [exact B|]. destruct (init_fields _ _ _ _ _ _ _ _ _ _ _ HI) as (_ & ->). rewrite F1. reflexivity.
Qed.
Lemma dot_zero c : exists c0, 0 < c0 /\ sh_ft (circle_shape bessel_J1 1 (fst c) (snd c) (1/20)) (0, 0) = RtoC c0.
Proof.
  assert (L0 : len (0, 0) <= 18) by (unfold len, LatticeSpec.inner; cbn [fst snd]; replace (0 * 0 + 0 * 0) with 0 by ring; rewrite sqrt_0; lra).
  destruct (circle_small (0, 0)) as (c0 & Hc0 & E); [exact L0|]. exists c0. split; auto. unfold circle_shape. cbn [sh_ft]. rewrite E. cbn [fst snd].
  replace (- 0 * fst c - 0 * snd c) with 0 by ring. rewrite expi_0. ring.
Qed.
(** ** the potential of the disc *)
Definition dot_pot (c : R * R) (L : lattice) (V : R) (g : R * R) : C := Cdiv (Cmult (RtoC V) (sh_ft (circle_shape bessel_J1 1 (fst c) (snd c) (1/20)) g)) (RtoC (lt_ec_area L)).
Lemma dot_conj c L V : conj_symmetric (dot_pot c L V).
Proof. intros g. unfold dot_pot. rewrite Cconj_div, Cconj_mult, !Cconj_R. do 2 f_equal. apply circle_conj. Qed.
Lemma dot_transform c L V gs : lattice_init (LatName "square") = Ok L -> 0 < V -> separated gs -> transform_of (lt_ec_area L) (dot_layer c L) V gs (dot_pot c L V).
Proof.
  intros HL HV Sp. destruct (square_area L HL) as (EA & _). destruct (dot_zero c) as (c0 & H0 & Z0).
  apply one_transform; auto; try (rewrite Z0; cbn; lra). rewrite EA. lra.
Qed.
Section Two.
Variable argsort : list R -> list nat.
Variable eigh : nat -> cmat -> list R * cmat.
Hypothesis Hs : sorts argsort.
Hypothesis He : diagonalises eigh.
Lemma dot_moved L c t V a M E0 loss gmax ks m : lattice_init (LatName "square") = Ok L -> 0 <= gmax -> 0 < V -> ks <> [] ->
  exists s s', exc_init 0 (dot_phc c L) (1/2) V a M E0 loss OscNone gmax "tbt" = Some (Ok s) /\
    exc_init 0 (dot_phc (fst c + fst t, snd c + snd t) L) (1/2) V a M E0 loss OscNone gmax "tbt" = Some (Ok s') /\ twice argsort eigh s ks s' ks m.
Proof.
  intros HL Hg HV Ne. destruct (dot_init c L V a M E0 loss gmax HL Hg) as (s & HI & EL & Sp & EG). set (c' := (fst c + fst t, snd c + snd t)).
  destruct (dot_init c' L V a M E0 loss gmax HL Hg) as (s' & HI' & EL' & Sp' & EG'). exists s, s'. split; [exact HI|]. split; [exact HI'|].
  pose proof (proj1 (dot_form c L)) as P1. pose proof (proj1 (dot_form c' L)) as P2.
  apply (moved_exc argsort eigh Hs He 0 (dot_phc c L) (dot_phc c' L) (1/2) (1/2) V V a M E0 loss OscNone OscNone gmax "tbt" (LatName "square") (dot_pot c L V) (dot_pot c' L V) s s' t ks m); auto; rewrite ?P1, ?P2, ?EL, ?EL'; auto.
  - apply (named_independent _ _ HL).
  - apply dot_conj.
  - apply dot_transform; auto.
  - apply dot_conj.
  - apply dot_transform; auto.
  - intros g Hd. unfold dot_pot. unfold c' at 1 2. cbn [fst snd]. rewrite (circle_moved bessel_J1 1 (fst c) (snd c) (1/20) t _ g Hd). unfold Cdiv. ring.
Qed.
Lemma dot_more L c V a M E0 loss gmax gmax' ks m : lattice_init (LatName "square") = Ok L -> 0 <= gmax <= gmax' -> 0 < V -> ks <> [] ->
  exists s s' es es', exc_init 0 (dot_phc c L) (1/2) V a M E0 loss OscNone gmax "tbt" = Some (Ok s) /\ exc_init 0 (dot_phc c L) (1/2) V a M E0 loss OscNone gmax' "tbt" = Some (Ok s') /\
    ex_eners (fst (exc_run argsort eigh s ks m)) = Some es /\ ex_eners (fst (exc_run argsort eigh s' ks m)) = Some es' /\ List.length es = List.length ks /\ nowhere_above_c es' es.
Proof.
  intros HL Hg HV Ne. destruct (dot_init c L V a M E0 loss gmax HL ltac:(lra)) as (s & HI & EL & Sp & EG). destruct (dot_init c L V a M E0 loss gmax' HL ltac:(lra)) as (s' & HI' & EL' & Sp' & EG').
  pose proof (proj1 (dot_form c L)) as P1.
  destruct (more_exc argsort eigh Hs He 0 0 (dot_phc c L) (1/2) V a M E0 loss OscNone gmax gmax' "tbt" (LatName "square") (dot_pot c L V) s s' ks m) as (es & es' & A1 & A2 & A3 & A4 & A5 & A6); auto; rewrite ?P1, ?EL; auto; try lra.
  - apply (named_independent _ _ HL).
  - apply dot_conj.
  - apply dot_transform; auto.
  - rewrite EG, EG'. apply (tbt_incl (LatName "square")); auto. apply (named_independent _ _ HL).
  - exists s, s', es, es'. auto 8.
Qed.
Lemma dot_hyps L c V a M E0 loss gmax : lattice_init (LatName "square") = Ok L -> 0 <= gmax ->
  exists s, exc_init 0 (dot_phc c L) (1/2) V a M E0 loss OscNone gmax "tbt" = Some (Ok s) /\ pc_lattice (dot_phc c L) = L /\ independent (lt_a1 L) (lt_a2 L) /\ 0 < lt_ec_area L /\
    exists sh, ly_shapes (ex_layer s) = [sh] /\ conj_symmetric (sh_ft sh) /\ 0 < fst (sh_ft sh (0, 0)) /\ separated (rc_g (ex_rc s)) /\ near_integral sh (PI / 8 / 10 ^ 13) (rc_g (ex_rc s)).
Proof.
  intros HL Hg. destruct (dot_init c L V a M E0 loss gmax HL Hg) as (s & HI & EL & Sp & EG). exists s. split; [exact HI|]. split; [apply dot_form|]. split; [apply (named_independent _ _ HL)|].
  destruct (square_area L HL) as (EA & _). split; [rewrite EA; lra|]. exists (circle_shape bessel_J1 1 (fst c) (snd c) (1/20)).
  split; [rewrite EL; reflexivity|]. split; [intros g; apply circle_conj|]. destruct (dot_zero c) as (c0 & H0 & Z0). split; [rewrite Z0; exact H0|]. split; [exact Sp|].
  replace (PI / 8 / 10 ^ 13) with (1 / 10 ^ 10 * (PI * (1/20) ^ 3)) by field. apply circle_near. lra.
Qed.
Lemma dot_turned L V a M E0 loss ks m : lattice_init (LatName "square") = Ok L -> 0 < V -> ks <> [] ->
  exists s, exc_init 0 (dot_phc (0, 0) L) (1/2) V a M E0 loss OscNone 1 "tbt" = Some (Ok s) /\ twice argsort eigh s ks s (map quarter ks) m.
Proof.
  intros HL HV Ne. destruct (dot_init (0, 0) L V a M E0 loss 1 HL ltac:(lra)) as (s & HI & EL & Sp & EG). exists s. split; [exact HI|].
  pose proof (proj1 (dot_form (0, 0) L)) as P1.
  apply (sym_exc argsort eigh Hs He 0 (dot_phc (0, 0) L) (1/2) V a M E0 loss OscNone 1 "tbt" (LatName "square") (dot_pot (0, 0) L V) s quarter ks m); auto; rewrite ?P1, ?EL, ?EG; auto; try lra.
  - apply (named_independent _ _ HL).
  - apply dot_conj.
  - apply dot_transform; auto. rewrite <- EG. exact Sp.
  - apply quarter_iso.
  - apply quarter_closed; auto.
  - left. intros g _. unfold dot_pot, circle_shape, circle_ft, quarter. cbn [sh_ft fst snd]. cbv zeta.
    replace (Rabs ((- snd g) ^ 2) + Rabs (fst g ^ 2)) with (Rabs (fst g ^ 2) + Rabs (snd g ^ 2)) by (rewrite (Rplus_comm (Rabs (fst g ^ 2))); do 2 f_equal; ring).
    replace (- - snd g * 0 - fst g * 0) with (- fst g * 0 - snd g * 0) by ring. reflexivity.
Qed.
Lemma dot_units L c V E0 loss gmax ks m : lattice_init (LatName "square") = Ok L -> 0 <= gmax -> 0 < V -> ks <> [] ->
  exists s s', exc_init 0 (dot_phc c L) (1/2) V 2 1 E0 loss OscNone gmax "tbt" = Some (Ok s) /\ exc_init 0 (dot_phc c L) (1/2) V 1 4 E0 loss OscNone gmax "tbt" = Some (Ok s') /\ twice argsort eigh s ks s' ks m.
Proof.
  intros HL Hg HV Ne. destruct (dot_init c L V 2 1 E0 loss gmax HL Hg) as (s & HI & EL & Sp & EG).
  destruct (dot_init c L V 1 4 E0 loss gmax HL Hg) as (s' & HI' & EL' & Sp' & EG'). exists s, s'. split; [exact HI|]. split; [exact HI'|].
  pose proof (proj1 (dot_form c L)) as P1.
  apply (units_exc argsort eigh Hs He 0 (dot_phc c L) (1/2) V 2 1 1 4 E0 loss OscNone OscNone gmax "tbt" (LatName "square") (dot_pot c L V) s s' ks m); auto; rewrite ?P1, ?EL, ?EL'; auto; try lra.
  - apply (named_independent _ _ HL).
  - apply dot_conj.
  - apply dot_transform; auto.
Qed.
End Two.
