(** A reachable family of examples: wells without shapes, one plane wave. *)
From Coq Require Import Permutation List.
From Verif Require Import Py CBase LatticeModel LatticeSpec LatticeProofs PhcModel PhcSpec RecipModel RecipSpec RecipProofs RecipProofs3 RecipProofs5 MatElModel SymModel SymSpec FieldsModel RunModel RunSpec RunProofs RunProofs3 PweSpec PweModel PweProofs PweProofs2 PweProofs7 ExcSpec ExcModel ExcProofs ExcProofs2 ExcProofs3 PolSpec PolModel PolProofs PolProofs2.
Open Scope R_scope.
Open Scope list_scope.

Lemma init_osc fuel P z V a M E0 loss osc gmax tr s : exc_init fuel P z V a M E0 loss osc gmax tr = Some (Ok s) -> check_osc osc = Ok (ex_osc s).
Proof.
  unfold exc_init. cbv zeta. destruct (_ || _)%bool; [discriminate|].
  destruct (nth_error _ _) as [ly|]; [|discriminate]. destruct (check_osc osc) as [os|]; [|discriminate].
  destruct (String.eqb tr "tbt").
  - destruct (pot_tbt _ _ _ _) as [[t1 t2]|]; [|discriminate]. cbn [bind]. intros H. injection H as <-. reflexivity.
  - destruct (String.eqb tr "abs"); [|discriminate]. destruct (recip_abs _ _ _) as [[rc|]|]; [|discriminate..]. cbn [bind].
    destruct (pot_abs _ _ _ _) as [[t1 t2]|]; [|discriminate]. cbn [bind]. intros H. injection H as <-. reflexivity.
Qed.

Definition toy_qw (E0 : R) (o : R) : qw := mkQW (1/2) 0 1 1 E0 0 [o; 0; 0].
Definition toy_phc (L : lattice) (E0 : R) (os : list R) : phc :=
  run_ops (phc_init L 1 1) (OpLayer 1 12 "shapes" :: map (fun o => OpQW (toy_qw E0 o)) os).
Definition toy_base (L : lattice) (qs : list qw) : phc :=
  mkPhc L (shapes_layer (- 10 ^ 10) 0 1) (set_zmin (shapes_layer 0 (10 ^ 10) 1) (0 + 1)) [shapes_layer 0 (0 + 1) 12] qs.
Lemma toy_form L E0 os : toy_phc L E0 os = toy_base L (map (toy_qw E0) os).
Proof.
  unfold toy_phc. cbn [run_ops fold_left].
  assert (G : forall os qs, fold_left (fun P o => fst (step P o)) (map (fun o => OpQW (toy_qw E0 o)) os) (toy_base L qs) = toy_base L (qs ++ map (toy_qw E0) os)).
  { induction os0 as [|o t IH]; intros qs; [cbn; rewrite app_nil_r; reflexivity|]. cbn [map fold_left step].
    assert (S1 : fst (add_qw (toy_base L qs) (toy_qw E0 o)) = toy_base L (qs ++ [toy_qw E0 o])).
    { unfold add_qw, toy_base. cbn [pc_clad_l pc_clad_u pc_qws pc_lattice pc_layers].
      assert (T0 : ly_zmax (shapes_layer (- 10 ^ 10) 0 1) = 0) by reflexivity. assert (T1 : ly_zmin (set_zmin (shapes_layer 0 (10 ^ 10) 1) (0 + 1)) = 0 + 1) by reflexivity.
      rewrite T0, T1. cbn [toy_qw qw_z]. rewrite (proj2 (Rleb_false (1/2) 0)) by lra. rewrite (proj2 (Rleb_false (0 + 1) (1/2))) by lra. reflexivity. }
    rewrite S1, IH, <- app_assoc. reflexivity. }
  change (fold_left (fun P o => fst (step P o)) (map (fun o => OpQW (toy_qw E0 o)) os) (toy_base L []) = toy_base L (map (toy_qw E0) os)). apply G.
Qed.

Section Toy.
Variables (L : lattice) (E0 : R).
Hypothesis HL : lattice_init (LatName "square") = Ok L.

Lemma one_g : List.length (rc_g (recip_tbt L 0)) = 1%nat /\ nth 0 (rc_g (recip_tbt L 0)) (0, 0) = (0, 0).
Proof.
  destruct (square_area L HL) as (_ & Ha & B1 & B2 & _). pose proof (indep_recip _ _ HL Ha) as Hb.
  destruct (recip_tbt_form L 0 ltac:(lra) Hb) as (n1 & n2 & I1 & I2 & G & _).
  apply (int_part_unique _ _ 0) in I1; [|unfold Rdiv; rewrite Rmult_0_r, Rmult_0_l; simpl; lra].
  apply (int_part_unique _ _ 0) in I2; [|unfold Rdiv; rewrite Rmult_0_r, Rmult_0_l; simpl; lra]. subst n1 n2. rewrite G.
  split; [reflexivity|]. rewrite B1, B2. cbn. unfold cmb, comb. cbn [fst snd]. f_equal; ring.
Qed.
(** the wells after __init__ *)
Definition fresh (o : R) (s : exc) : Prop :=
  ex_osc s = Some [o; 0; 0] /\ ex_rc s = recip_tbt L 0 /\ ex_a s = 1 /\
  forall qs, exc_init 0 (toy_base L qs) (1/2) 0 1 1 E0 0 (OscList [o; 0; 0]) 0 "tbt" = Some (Ok s).
Lemma toy_well o qs : exists s, exc_init 0 (toy_base L qs) (1/2) 0 1 1 E0 0 (OscList [o; 0; 0]) 0 "tbt" = Some (Ok s) /\ fresh o s /\ ly_shapes (ex_layer s) = [].
Proof.
  assert (Z1 : z_to_lind (toy_base L qs) (1/2) = 1%nat).
  { unfold z_to_lind, toy_base. cbn [pc_layers pc_clad_l].
    assert (T : ly_zmax (shapes_layer 0 (0 + 1) 12) = 0 + 1) by reflexivity. assert (T0 : ly_zmax (shapes_layer (- 10 ^ 10) 0 1) = 0) by reflexivity.
    rewrite T0. cbn [z_loop]. rewrite (proj2 (Rltb_true 0 (1/2))) by lra. rewrite T.
    rewrite (proj2 (Rltb_false (0 + 1) (1/2))) by lra. cbn [fst snd]. try rewrite (proj2 (Rltb_false (0 + 1) (1/2))) by lra. reflexivity. }
  destruct (init_ok 0 (toy_base L qs) (1/2) 0 1 1 E0 0 (OscList [o; 0; 0]) (Some [o; 0; 0]) 0 "tbt" (shapes_layer 0 (0 + 1) 12) (LatName "square")) as (s & HI & Hly & Sp).
  - rewrite Z1. reflexivity.
  - rewrite Z1. discriminate.
  - rewrite Z1. discriminate.
  - reflexivity.
  - exact HL.
  - apply (named_independent _ _ HL).
  - lra.
  - intros gs. apply square_separated. exact HL.
  - intros sh [].
  - left. reflexivity.
  - exists s. split; [exact HI|]. split; [|rewrite Hly; reflexivity].
    pose proof (init_osc _ _ _ _ _ _ _ _ _ _ _ _ HI) as O. cbn [check_osc List.length Nat.eqb] in O.
    destruct (transform_exists _ _ _ _ _ _ _ _ _ _ _ _ HI) as (_ & _ & Ea & _).
    split; [congruence|]. split; [apply (init_fields _ _ _ _ _ _ _ _ _ _ _ HI)|]. split; [exact Ea|].
    intros qs'. rewrite <- HI. unfold exc_init. cbv zeta.
    assert (ZZ : z_to_lind (toy_base L qs') (1/2) = z_to_lind (toy_base L qs) (1/2)) by reflexivity. rewrite ZZ. reflexivity.
Qed.
Lemma toy_wells qs os : exists ws, init_wells 0 (toy_base L qs) 0 "tbt" (map (toy_qw E0) os) = Some (Ok ws) /\
  Forall2 (fun o s => fresh o s /\ ly_shapes (ex_layer s) = []) os ws.
Proof.
  induction os as [|o t IH]; [exists []; split; [reflexivity|constructor]|].
  destruct (toy_well o qs) as (s & HI & Hf). destruct IH as (ws & E & F). exists (s :: ws). split; [|constructor; auto].
  cbn [map init_wells]. cbn [toy_qw qw_z qw_V qw_a qw_M qw_E0 qw_loss qw_osc]. rewrite HI, E. reflexivity.
Qed.
Lemma toy_init o os : exists ws, pol_init 0 (toy_phc L E0 (o :: os)) 0 "tbt" = Some (Ok (Pol ws 1)) /\
  Forall2 (fun o s => fresh o s /\ ly_shapes (ex_layer s) = []) (o :: os) ws.
Proof.
  destruct (toy_wells (map (toy_qw E0) (o :: os)) (o :: os)) as (ws & E & F). exists ws. split; auto.
  unfold pol_init. rewrite toy_form. cbn [pc_qws toy_base map]. cbn [map] in E. rewrite E. cbn [bind]. do 2 f_equal.
  assert (A1 : forall s, In s ws -> ex_a s = 1).
  { clear -F. induction F as [|x y l l' [(_ & _ & Ea & _) _] _ IH]; [intros s []|]. intros s [<-|Hs]; auto. }
  destruct ws as [|s ws]; [inversion F|]. cbn [map nth]. rewrite (A1 s (or_introl eq_refl)).
  assert (FB : forallb (fun s0 => Rltb (Rabs (ex_a s0 - 1)) (1 / 10 ^ 15)) (s :: ws) = true).
  { apply forallb_forall. intros x Hx. rewrite (A1 x Hx). apply Rltb_true. rewrite Rminus_diag_eq, Rabs_R0 by auto.
    unfold Rdiv. rewrite Rmult_1_l. apply Rinv_0_lt_compat, pow_lt. lra. }
  rewrite FB. reflexivity.
Qed.

(** ... and after a run *)
Variables (argsort : list R -> list nat) (eigh : nat -> cmat -> list R * cmat).
Hypothesis Hs : sorts argsort.
Hypothesis He : diagonalises eigh.
Definition ready (o : R) (s : exc) : Prop :=
  ex_osc s = Some [o; 0; 0] /\ List.length (rc_g (ex_rc s)) = 1%nat /\
  ex_eners s = Some [[(E0, 0)]] /\ exists v, ft_wavef s 0 0 = Ok v /\ Cmod (v 0%nat) = 1.
Lemma toy_run o s : fresh o s -> ly_shapes (ex_layer s) = [] -> exists s', exc_run argsort eigh s [(0, 0)] 1 = (s', Ok tt) /\ ready o s'.
Proof.
  intros (HO & HR & _ & HI) Hno. specialize (HI []). destruct one_g as [G1 G0].
  assert (Hi : independent (lt_a1 (pc_lattice (toy_base L []))) (lt_a2 (pc_lattice (toy_base L [])))) by apply (named_independent _ _ HL).
  destruct (exc_free argsort eigh Hs He _ _ _ _ _ _ _ _ _ _ _ s (LatName "square") [(0, 0)] 1%nat HI (or_introl eq_refl) HL Hi ltac:(lra) Hno ltac:(discriminate))
    as (s' & es & E & EN & Ln & SM).
  pose proof (zero_transform (lt_ec_area L) (ex_layer s) 0 (rc_g (ex_rc s)) Hno) as Ht.
  assert (Hc : conj_symmetric (fun _ : R * R => RtoC 0)) by (intros g; symmetry; apply Cconj_R).
  destruct (exc_whole argsort eigh Hs He _ _ _ _ _ _ _ _ _ _ _ _ _ _ HI (or_introl eq_refl) HL Hi ltac:(lra) Hc Ht [(0, 0)] 1%nat ltac:(discriminate))
    as (s2 & es2 & vs & E2 & _ & EV & _ & _ & Lv & Nv).
  rewrite E in E2. injection E2 as <-. exists s'. split; [exact E|].
  pose proof (run_static argsort eigh s [(0, 0)] 1) as ST. rewrite E in ST. cbn [fst] in ST. destruct ST as (_ & _ & _ & _ & _ & _ & _ & _ & A9 & _ & A11 & _).
  split; [congruence|]. split; [rewrite A11, HR; exact G1|]. split.
  - specialize (SM 0%nat (0, 0) eq_refl). destruct es as [|es [|]]; [discriminate| |discriminate]. cbn [nth] in SM.
    rewrite HR in SM. destruct (rc_g (recip_tbt L 0)) as [|g [|]]; [discriminate| |discriminate]. cbn [nth] in G0. subst g.
    destruct SM as (all & PA & AS & ->). cbn [map] in PA. apply Permutation_length_1_inv in PA || apply Permutation_sym, Permutation_length_1_inv in PA. subst all.
    rewrite EN. cbn [map firstn]. do 4 f_equal. unfold free_energy, shifted, len, inner. cbn [fst snd].
    replace (sqrt _) with 0; [unfold Rdiv; ring|]. symmetry. replace ((0 + 0) * (0 + 0) + (0 + 0) * (0 + 0)) with 0 by ring. apply sqrt_0.
  - specialize (Nv 0%nat (0, 0) eq_refl). destruct vs as [|vs0 [|]]; [discriminate| |discriminate]. cbn [nth] in Nv. rewrite HR, G1 in Nv.
    destruct Nv as (ls & V & (_ & HN & _) & _ & _ & Lvs & HV). cbn [Nat.min] in Lvs. destruct vs0 as [|v0 [|]]; [discriminate| |discriminate].
    exists (snd v0). split; [unfold ft_wavef; rewrite EV; reflexivity|]. destruct (HV 0%nat ltac:(simpl; lia)) as [_ HV0]. cbn [nth] in HV0. rewrite HV0 by lia.
    specialize (HN 0%nat 0%nat ltac:(lia) ltac:(lia)). cbn [csum Nat.eqb] in HN.
    assert (M1 : (Cmod (V 0%nat 0%nat) ^ 2 = 1)%R).
    { apply RtoC_inj. rewrite <- HN. apply Ceq; cbn [fst snd Cmult Cconj RtoC Cplus]; [|ring].
      unfold Cmod. rewrite pow2_sqrt; [ring|]. pose proof (pow2_ge_0 (fst (V 0%nat 0%nat))); pose proof (pow2_ge_0 (snd (V 0%nat 0%nat))); lra. }
    pose proof (Cmod_ge_0 (V 0%nat 0%nat)). nra.
Qed.
Lemma toy_runs os ws : Forall2 (fun o s => fresh o s /\ ly_shapes (ex_layer s) = []) os ws ->
  exists ws', run_wells argsort eigh ws [(0, 0)] 1 = (ws', Ok tt) /\ Forall2 ready os ws'.
Proof.
  induction 1 as [|o s os ws [Hf Hn] F IH]; [exists []; split; [reflexivity|constructor]|].
  destruct (toy_run o s Hf Hn) as (s' & E & R1). destruct IH as (ws' & E' & F'). exists (s' :: ws'). split; [|constructor; auto].
  cbn [run_wells]. rewrite E, E'. reflexivity.
Qed.
End Toy.
