(** One bright well: a case for the theorems about one well. *)
From Coq Require Import Permutation List.
From Verif Require Import Py CBase LatticeModel PhcModel RecipModel MatElModel SymModel SymSpec FieldsModel RunModel RunSpec RunProofs RunProofs3 PweModel ExcModel PolSpec PolModel PolSpec2 PolProofs PolProofs2 PolProofs3 PolProofs4 PolProofs5 PolProofs6 PolProofs7 PolProofs8 PolProofs9.
Open Scope R_scope.
Open Scope list_scope.
Lemma one_well argsort eigh L : sorts argsort -> diagonalises eigh -> lattice_init (LatName "square") = Ok L ->
  let p := light [7 / 16] [RtoC 1] in
  exists q ws H, pol_init 0 (toy_phc L 2 [25 / 16]) 0 "tbt" = Some (Ok q) /\ run_wells argsort eigh (po_exc q) [(0, 0)] 1 = (ws, Ok tt) /\ construct (po_a q) p 1 ws 0 = Ok H /\
  List.length ws = 1%nat /\ filled 1 0 ws /\ ph_N p = 1%nat /\ SymModel.get (ph_freqs p) 0 = Ok [7 / 16 / conversion 1] /\ SymModel.get (ph_ims p) 0 = Ok [0] /\ 0 < 7 / 16 / conversion 1 /\
  exciton_of 1 H 0 = RtoC 2 /\ Cmod (coupling_of 1 H 0 0) = 5 / 4 /\ dia_of 1 1 H 0 0 = RtoC (25 / 32).
Proof.
  intros Hs He HL p. destruct (toy_system argsort eigh Hs He L HL 2 [7 / 16] [RtoC 1] [] bright ltac:(lra) eq_refl) as (q & ws & us & H & EI & _ & ER & Lw & F & Lu & HU & EC & EM).
  { intros o [<-|[]]; unfold bright; lra. }
  cbn [List.length] in *. exists q, ws, H. split; [exact EI|]. split; [exact ER|]. split; [exact EC|]. split; [exact Lw|]. split; [apply (toy_filled 2 [bright]); auto|]. split; [reflexivity|]. split; [reflexivity|]. split; [reflexivity|].
  split; [apply Rdiv_lt_0_compat; [lra|apply conv_pos; lra]|].
  destruct us as [|u [|]]; [discriminate| |discriminate]. pose proof (HU u (or_introl eq_refl)) as U1.
  set (H0 := hopfield _ _ _ _ _ _) in EM.
  assert (Ex : exciton_of 1 H 0 = exciton_of 1 H0 0) by (unfold exciton_of; apply EM; simpl; lia).
  assert (Cp : coupling_of 1 H 0 0 = coupling_of 1 H0 0 0) by (unfold coupling_of; f_equal; apply EM; simpl; lia).
  unfold H0 in Ex, Cp. rewrite read_exciton in Ex by lia. rewrite read_coupling in Cp by lia. unfold coupl in Cp. cbn [nth] in Cp. rewrite sqrt_bright in Cp.
  assert (Ab : Cmod (coupling_of 1 H 0 0) = 5 / 4).
  { assert (Hc : Cmod (Cconj u) = Cmod u) by (unfold Cmod, Cconj; cbn [fst snd]; f_equal; ring). rewrite Cp, !Cmod_mult, !Cmod_R, Hc, U1. rewrite Rabs_R1, Rabs_right by lra. lra. }
  split; [exact Ex|]. split; [exact Ab|]. unfold dia_of. rewrite csum1. rewrite mod2, Ab, Ex; cbn [fst RtoC]. rewrite <- RtoC_div by lra. f_equal. field.
Qed.
