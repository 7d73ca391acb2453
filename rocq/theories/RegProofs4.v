(** Runs with different regularisers end alike (C147). *)
From Coq Require Import Lra Lia Permutation List.
From Verif Require Import Py CBase PhcModel SymModel SlabModel SlabSpec MatElModel MatElSpec MatElProofs MatElProofs2 MatElProofs3 RunModel RunSpec RunSpec2 GinvSpec RunProofs RunProofs2 RunProofs5
  GinvProofs3 RegSpec RegProofs2 RegProofs3.
Open Scope R_scope.
Open Scope list_scope.

(** same outcome, whatever is stored *)
Definition alike (e : nat -> cmat) {A} (m m' : act A) : Prop := forall s s', agree e e s s' -> snd (m' s') = snd (m s).
Lemma alike_then e {A B} (RA : A -> A -> Prop) (m m' : act A) (f f' : A -> act B) : sim e e RA m m' -> (forall a a', RA a a' -> alike e (f a) (f' a')) -> alike e (andthen m f) (andthen m' f').
Proof.
  intros H K s s' I. unfold andthen. pose proof (H s s' I) as (I1 & R). destruct (m s) as [s1 [a|x]], (m' s') as [s2 [a'|x']]; cbn [fst snd] in *; try contradiction.
  - apply (K a a' R); auto.
  - congruence.
Qed.
Lemma construct_alike dl dl' gvec k dgx inds garr te tm eps ds einv :
  match construct_mat dl gvec k dgx inds garr te tm eps ds einv, construct_mat dl' gvec k dgx inds garr te tm eps ds einv with
  | Ok a, Ok b => nr b = nr a /\ herm a /\ herm b
  | Raise x, Raise y => x = y
  | _, _ => False
  end.
Proof.
  destruct (construct_mat dl gvec k dgx inds garr te tm eps ds einv) as [a|x] eqn:E; destruct (construct_mat dl' gvec k dgx inds garr te tm eps ds einv) as [b|y] eqn:E'.
  1: assert (Ha := construct_herm _ _ _ _ _ _ _ _ _ _ _ _ E); assert (Hb := construct_herm _ _ _ _ _ _ _ _ _ _ _ _ E'); split; [|auto]; clear Ha Hb.
  all: unfold construct_mat in *; set (d := gk_data gvec k dgx) in *; destruct (gmode_include inds te tm) as [|m0 l]; [try discriminate; try congruence|].
  all: destruct (mapM _ (m0 :: l)) as [ms|] eqn:Em; cbn [bind] in *; [|try discriminate; try congruence].
  all: assert (Ne : ms <> []) by (cbn [mapM] in Em; intros ->; destruct (get_guided _ _ _ _ _ _ m0); [|discriminate]; cbn [bind] in Em; destruct (mapM _ l); discriminate).
  all: destruct (assembled (mat_block dl eps ds einv d) (bl_nr dl eps ds einv d) (bl_nc dl eps ds einv d) dgm ms Ne) as (A & F1 & F2 & _).
  all: destruct (assembled (mat_block dl' eps ds einv d) (bl_nr dl' eps ds einv d) (bl_nc dl' eps ds einv d) dgm ms Ne) as (A' & F1' & F2' & _).
  all: congruence.
Qed.
Section Alike.
Variables (argsort : list R -> list nat) (eigh : nat -> cmat -> list R * cmat) (eigsh : nat -> cmat -> nat -> R -> result (list R * cmat)) (inv : nat -> cmat -> cmat) (root : (R -> R) -> R -> R -> R).
Hypothesis Hs : sorts argsort.
Hypothesis He : diagonalises eigh.
Variables (d : dev) (o : opts) (dl dl' : R) (e : nat -> cmat).

Lemma construct_sim eps ds ik k : sim e e (fun a b => nr b = nr a /\ herm a /\ herm b) (construct root dl d o eps ds e ik k) (construct root dl' d o eps ds e ik k).
Proof.
  unfold construct. eapply (sim_then e e eq).
  { destruct (exact_modes o); [|apply sim_ret; auto].
    eapply (sim_then e e eq); [apply sim_same|]. intros t _ <-. apply sim_mod. intros s s' (A1 & A2 & A3). repeat split; cbn; auto. rewrite A2. reflexivity. }
  intros _ _ _. eapply (sim_then e e eq).
  { intros s s' A. split; [exact A|]. destruct A as (_ & A2 & _). unfold lift, tab_at. rewrite A2. cbn. destruct (SymModel.get _ _); auto. }
  intros [[garr te] tm] _ <-. eapply sim_then; [apply sim_lift, construct_alike|].
  intros a b S. eapply (sim_then e e eq); [apply sim_same|]. intros ms _ <-. eapply (sim_then e e eq); [apply sim_mod; intros s s' (A1 & A2 & A3); repeat split; cbn; auto|].
  intros _ _ _. apply sim_ret. exact S.
Qed.
Lemma one_k_sim eps ds refl an x : o_solver o = "eigh"%string -> o_symm o = None ->
  sim e e (fun _ _ => True) (one_k argsort eigh eigsh root dl d o eps ds e refl an x) (one_k argsort eigh eigsh root dl' d o eps ds e refl an x).
Proof.
  intros So Sy. destruct x as [ik k]. unfold one_k. eapply sim_then; [apply construct_sim|].
  intros a b (N & Ha & Hb). cbn beta. rewrite N. destruct (Nat.ltb_spec (nr a) (o_numeig o)) as [L|L]; [apply sim_fail|]. rewrite So, Sy. cbn [String.eqb Ascii.eqb Bool.eqb].
  eapply (sim_then e e (fun _ _ => True)).
  { apply sim_lift. destruct (plain_ok argsort eigh Hs He o a Ha L) as (ls & V & idx & fs & vs & -> & _).
    destruct (plain_ok argsort eigh Hs He o b Hb ltac:(rewrite N; exact L)) as (ls' & V' & idx' & fs' & vs' & -> & _). exact I. }
  intros r r' _. eapply (sim_then e e eq); [apply sim_mod; intros s s' (A1 & A2 & A3); repeat split; cbn; auto|]. intros _ _ _. apply sim_ret. exact I.
Qed.
End Alike.

Lemma run_alike argsort eigh eigsh inv root d o dl dl' ks an s : sorts argsort -> diagonalises eigh -> o_solver o = "eigh"%string -> o_symm o = None -> o_im o = false -> g_einv s = None ->
  snd (run argsort eigh eigsh inv root dl' d o ks an s) = snd (run argsort eigh eigsh inv root dl d o ks an s).
Proof.
  intros Hs He So Sy Im Ni. set (e := build_einv inv d (o_only o)).
  assert (Mo : forall f : gst -> gst, (forall s s', agree e e s s' -> agree e e (f s) (f s')) -> sim e e eq (modify f) (modify f)) by (intros; apply sim_mod; auto).
  cut (alike e (run argsort eigh eigsh inv root dl d o ks an) (run argsort eigh eigsh inv root dl' d o ks an)); [intros W; apply W; repeat split; auto|].
  unfold run.
  eapply (alike_then e eq); [apply sim_mod; intros x y (A1 & A2 & A3); repeat split; cbn; auto|]. intros _ _ _.
  eapply (alike_then e eq); [apply sim_same|]. intros refl _ <-.
  eapply (alike_then e eq); [apply sim_same|]. intros eps _ <-.
  eapply (alike_then e eq); [apply Mo; intros x y (A1 & A2 & A3); repeat split; cbn; auto|]. intros _ _ _.
  eapply (alike_then e eq).
  { destruct (interp_modes o); [|apply sim_ret; auto].
    destruct ks as [|k0 ks0]; [apply sim_fail|]. destruct (dv_gvec d) as [|g gs]; [apply sim_fail|].
    eapply (sim_then e e eq); [apply sim_same|]. intros t _ <-. apply Mo. intros x y (A1 & A2 & A3). repeat split; cbn; auto. rewrite A2. reflexivity. }
  intros _ _ _. eapply (alike_then e (fun a a' => a = e /\ a' = e)).
  { intros x y (A1 & A2 & A3). unfold compute_eps_inv. fold e. destruct A3 as [(-> & ->)|(B1 & B2)].
    - cbn. repeat split; cbn; auto.
    - rewrite B1, B2. cbn. repeat split; cbn; auto. }
  intros a a' (-> & ->). eapply (alike_then e eq); [apply Mo; intros x y (A1 & A2 & A3); repeat split; cbn; auto|]. intros _ _ _.
  eapply (alike_then e (Forall2 (fun _ _ => True))); [apply sim_each; intros x; apply one_k_sim; auto|].
  intros rows rows' _ x y _. rewrite Im. reflexivity.
Qed.

Lemma regularised_run argsort eigh eigsh inv root d o ks an s : sorts argsort -> diagonalises eigh ->
  o_solver o = "eigh"%string -> o_symm o = None -> o_sigma o = 0 -> dv_gvec d <> [] -> Forall (fun x => 0 <= x) (d_list d) ->
  (forall eps garr te tm k, In k ks -> eps_for d o eps -> RunProofs11.tables_for root d o ks k eps garr te tm -> decaying_at (dv_gvec d) k (o_dgx o) (o_inds o) garr te tm eps) ->
  exists K, 0 <= K /\ forall dl, 0 <= dl <= 1 ->
    let r0 := run argsort eigh eigsh inv root 0 d o ks an s in let r := run argsort eigh eigsh inv root dl d o ks an s in
    (o_im o = false -> g_einv s = None -> snd r = snd r0) /\
    (snd r0 = Ok tt -> snd r = Ok tt -> forall ik, (ik < List.length ks)%nat ->
     List.length (nth ik (g_freqs (fst r0)) []) = o_numeig o /\ List.length (nth ik (g_freqs (fst r)) []) = o_numeig o /\
     forall b, (b < o_numeig o)%nat -> let f := nth b (nth ik (g_freqs (fst r)) []) 0 in let f0 := nth b (nth ik (g_freqs (fst r0)) []) 0 in
       Rabs (f * f - f0 * f0) <= K * dl /\ Rabs (f - f0) <= sqrt (K * dl)).
Proof.
  intros Hs He E1 E2 E3 Hg Hd Dc. destruct (reg_run argsort eigh eigsh inv root Hs He d o ks an s E1 E2 E3 Hg Hd Dc) as (K & K0 & HK).
  exists K. split; [auto|]. intros dl Hdl. cbv zeta. split; [intros; apply run_alike; auto|]. intros R0 R1 ik Hik.
  destruct (run argsort eigh eigsh inv root 0 d o ks an s) as [s0 [[]|]] eqn:Q0; [|discriminate]. destruct (run argsort eigh eigsh inv root dl d o ks an s) as [s1 [[]|]] eqn:Q1; [|discriminate].
  cbn [fst]. destruct (HK dl s0 s1 Hdl eq_refl Q1 ik Hik) as (H1 & H2 & H3). split; [exact H1|]. split; [exact H2|]. intros b Hb. specialize (H3 b Hb). split; [exact H3|].
  destruct (nth_error ks ik) as [k|] eqn:Ek; [|apply nth_error_None in Ek; lia].
  assert (Ps : forall dl s', run argsort eigh eigsh inv root dl d o ks an s = (s', Ok tt) -> List.length (nth ik (g_freqs s') []) = o_numeig o -> 0 <= nth b (nth ik (g_freqs s') []) 0).
  { intros dl0 s' Q L. destruct (C38_run argsort eigh eigsh inv root dl0 Hs d o ks an s s' He E1 E2 Q) as (_ & _ & X).
    destruct (X ik k Ek) as (eps & einv & te & tm & mat & ls & V & idx & _ & _ & (_ & F & _) & _). rewrite F in L |- *. rewrite map_length in L. rewrite (nth_map_in _ idx _ 0 0%nat) by lia. apply freq_pos. }
  assert (P0 := Ps _ _ Q0 H1). assert (P1 := Ps _ _ Q1 H2). set (f := nth b (nth ik (g_freqs s1) []) 0) in *. set (f0 := nth b (nth ik (g_freqs s0) []) 0) in *.
  apply Rsqr_incr_0; [|apply Rabs_pos|apply sqrt_pos]. rewrite Rsqr_sqrt by (apply Rmult_le_pos; lra). eapply Rle_trans; [|exact H3].
  unfold Rsqr. replace (f * f - f0 * f0) with ((f - f0) * (f + f0)) by ring. rewrite (Rabs_mult (f - f0)). apply Rmult_le_compat_l; [apply Rabs_pos|].
  rewrite (Rabs_pos_eq (f + f0)) by lra. apply Rabs_le. lra.
Qed.
