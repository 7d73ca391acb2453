(** Proofs about structure and reciprocal. *)
From Verif Require Import Py CBase LatticeModel PhcModel RecipModel ExcModel PweModel PolModel VizModel Viz3Model LatticeSpec PhcSpec VizSpec Viz3Spec
  PhcProofs PhcProofs3 VizProofs2 VizProofs3.
Open Scope R_scope.
Open Scope list_scope.

(** ** wells lie in the stack *)
Lemma total_nonneg ds : Forall (fun d => 0 <= d) ds -> 0 <= total ds.
Proof. induction 1; cbn [total]; lra. Qed.
Lemma shape_qws P a li c : pc_qws (fst (phc_add_shape P a li c)) = pc_qws P.
Proof. unfold phc_add_shape. repeat match goal with |- context [match ?x with _ => _ end] => destruct x end; reflexivity. Qed.
Lemma wells_inside L el eu ops : Forall (fun d => 0 <= d) (thicknesses ops) ->
  forall q, In q (pc_qws (run_ops (phc_init L el eu) ops)) -> 0 < qw_z q < total (thicknesses ops).
Proof.
  induction ops as [|o ops IH] using rev_ind; intros Hd q Hq; [contradiction|].
  rewrite thick_app in *. apply Forall_app in Hd. destruct Hd as [Hd Ho]. specialize (IH Hd). rewrite total_app.
  pose proof (total_nonneg _ Ho) as T0. pose proof (Geo_reach L el eu ops) as G.
  rewrite run_ops_app in Hq. set (P := run_ops (phc_init L el eu) ops) in *. cbn [run_ops fold_left] in Hq.
  destruct o as [d e ty|q'|a li c]; cbn [step] in Hq.
  - assert (In q (pc_qws P)) as H; [|specialize (IH q H); lra].
    unfold add_layer in Hq. destruct (String.eqb (lower ty) "shapes"); [exact Hq|]. destruct (String.eqb (lower ty) "freeform"); exact Hq.
  - unfold add_qw in Hq. destruct G as (_ & G2 & G3 & _). unfold zinfo in G2. injection G2 as _ G2 _. rewrite G2, G3 in Hq.
    destruct (Rleb (qw_z q') 0) eqn:E1; cbn [orb fst] in Hq; [specialize (IH q Hq); lra|].
    destruct (Rleb (total (thicknesses ops)) (qw_z q')) eqn:E2; cbn [fst] in Hq; [specialize (IH q Hq); lra|].
    apply Rleb_false in E1, E2. cbn [pc_qws] in Hq. apply in_app_iff in Hq. destruct Hq as [Hq|[<-|[]]]; [specialize (IH q Hq)|]; lra.
  - rewrite shape_qws in Hq. specialize (IH q Hq). lra.
Qed.

(** ** values within the colour limits *)
Lemma entry_in {A} (n m : nat) (l : list A) j i e : entry (rows n m l) j i = Some e -> In e l.
Proof.
  unfold entry. revert j l. induction m as [|m IH]; intros j l H; cbn [rows] in H; [destruct j; discriminate|].
  destruct j as [|j]; cbn [nth_error] in H.
  - apply nth_error_In in H. rewrite <- (firstn_skipn n l). apply in_app_iff. left; exact H.
  - specialize (IH j (skipn n l) H). rewrite <- (firstn_skipn n l). apply in_app_iff. right; exact IH.
Qed.
Lemma mesh_in g1 g2 p : In p (meshgrid g1 g2) -> In (snd p) g2.
Proof.
  unfold meshgrid. induction g2 as [|v t IH]; cbn [map List.concat]; [contradiction|]. rewrite in_app_iff. intros [H|H]; [|right; auto].
  apply in_map_iff in H. destruct H as (u & <- & _). left; reflexivity.
Qed.
Lemma linspace_range lo hi n v : lo <= hi -> In v (linspace lo hi n) -> lo <= v <= hi.
Proof.
  intros H Hv. apply In_nth_error in Hv. destruct Hv as [i Hi]. assert (Hin : (i < n)%nat) by (rewrite <- (linspace_len lo hi n); apply nth_error_Some; congruence).
  rewrite linspace_nth in Hi by exact Hin. inversion Hi; subst v; clear Hi.
  assert (0 <= INR i / INR (n - 1) <= 1) as [A B].
  { destruct (Nat.eq_dec n 1) as [->|]; [replace i with 0%nat by lia; cbn; unfold Rdiv; rewrite Rmult_0_l; lra|].
    assert (0 < INR (n - 1)) by (apply lt_0_INR; lia). assert (INR i <= INR (n - 1)) by (apply le_INR; lia). pose proof (pos_INR i).
    split; [apply Rmult_le_pos; [lra|left; now apply Rinv_0_lt_compat]|]. apply Rmult_le_reg_r with (INR (n - 1)); [lra|]. unfold Rdiv. rewrite Rmult_assoc, Rinv_l by lra. lra. }
  nra.
Qed.
Lemma section_bounds L el eu ops pt g1 g2 a im : let P := run_ops (phc_init L el eu) ops in
  section_image P pt g1 g2 = Ok (a, im) -> (forall p, In p (meshgrid g1 g2) -> - 10 ^ 10 <= snd (pt p) < 10 ^ 10) ->
  Forall (fun d => 0 <= d) (thicknesses ops) ->
  forall j i e, entry (im_rows im) j i = Some e -> fst (get_eps_bounds P) <= e <= snd (get_eps_bounds P).
Proof.
  intros P H Hz Hd j i e He. unfold section_image in H. apply bind_ok in H. destruct H as (res & Hg & H).
  destruct (get_eps_regions L el eu ops (map pt (meshgrid g1 g2)) Hd) as (res' & Hg' & Hl & _). fold P in Hg'. rewrite Hg in Hg'. inversion Hg'; subst res'; clear Hg'.
  apply bind_ok in H. destruct H as ([l r] & _ & H). apply bind_ok in H. destruct H as ([b t] & _ & H). inversion H; subst a im; clear H. cbn [im_rows] in He.
  apply entry_in in He. apply In_nth_error in He. destruct He as [k Hk].
  assert (Hk' : (k < List.length (map pt (meshgrid g1 g2)))%nat) by (rewrite <- Hl; apply nth_error_Some; congruence).
  destruct (nth_error (map pt (meshgrid g1 g2)) k) as [p|] eqn:Hp; [|apply nth_error_None in Hp; lia].
  apply (get_eps_in_bounds_reach L el eu ops _ _ _ _ _ Hg Hp Hk). apply nth_error_In in Hp. apply in_map_iff in Hp. destruct Hp as (q & <- & Hq). apply Hz. exact Hq.
Qed.

(** ** the sections *)
Lemma lines_wells P zs (l r b t : R) im ti lim : zs = map qw_z (pc_qws P) -> im_extent im = (l, r, b, t) -> (forall q, In q (pc_qws P) -> b < qw_z q < t) ->
  draws_wells P (Panel ti im (map (fun z => (z, (l, r))) zs) lim).
Proof.
  intros -> E Hz. unfold draws_wells. cbn [pn_im pn_lines]. rewrite E. rewrite map_map. split.
  - intros q Hq. split; [|exact (Hz q Hq)]. apply in_map_iff. exists q. auto.
  - intros x Hx. apply in_map_iff in Hx. destruct Hx as (q & <- & Hq). eauto.
Qed.
Section Good.
Context (L : lattice) (el eu : R) (ops : list op).
Let P := run_ops (phc_init L el eu) ops.
Hypotheses (Hd : Forall (fun d => 0 <= d) (thicknesses ops)) (Ht : total (thicknesses ops) + 1 < 10 ^ 10) (Hne : thicknesses ops <> [])
  (Hi : independent (lt_a1 L) (lt_a2 L)).
Lemma lattice_is : pc_lattice P = L.
Proof. unfold P. rewrite run_lattice. reflexivity. Qed.
Lemma two x y : linspace (- x) x 2 = [- x; x] /\ linspace (- y) y 2 = [- y; y].
Proof. unfold linspace. cbn. split; f_equal; [field|f_equal; field|field|f_equal; field]. Qed.
Lemma xz_good Nx Nz xb yb : (2 <= Nx)%nat -> (2 <= Nz)%nat -> xy_grid L 2 2 PerNone = Ok (xb, yb) -> exists a im, eps_xz P 0 Nx Nz = Ok (a, im) /\
  good_section P (fun p => (fst p, 0, snd p)) Nx Nz (Panel PTxz im (map (fun z => (z, (nth 0 xb 0, nth 1 xb 0))) (map qw_z (pc_qws P))) (get_eps_bounds P)).
Proof.
  intros Hx Hz HB. destruct (xz_shows L el eu ops 0 Nx Nz Hd Hi ltac:(lia) ltac:(lia) Hne) as (a & im & E & Hs & HE). fold P in E, Hs.
  exists a, im. split; [exact E|]. destruct (HE Hx Hz) as (X & Y & HB' & HX). rewrite HB' in HB. inversion HB; subst xb yb. cbn [nth].
  pose proof (total_nonneg _ Hd) as T0. assert (T10 : 0 < 10 ^ 10) by (apply pow_lt; lra). assert (T1 : 1 <= 10 ^ 10) by lra.
  split; [eauto|]. split.
  - eapply lines_wells; [reflexivity|exact HX|]. intros q Hq. pose proof (wells_inside L el eu ops Hd q Hq). lra.
  - unfold in_colours. cbn [pn_im pn_clim]. destruct (window L Nx 100) as (X' & Y' & _ & _ & HG & _). destruct (zgrid_ok L el eu ops Nz Hd Hne) as [HZ _]. fold P in HZ.
    unfold eps_xz in E. rewrite lattice_is, HG in E. cbn [bind] in E. rewrite HZ in E. cbn [bind] in E.
    apply (section_bounds L el eu ops _ _ _ _ _ E); [|exact Hd]. intros p Hp. cbn [snd]. apply mesh_in in Hp. apply linspace_range in Hp; lra.
Qed.
Lemma yz_good Ny Nz xb yb : (2 <= Ny)%nat -> (2 <= Nz)%nat -> xy_grid L 2 2 PerNone = Ok (xb, yb) -> exists a im, eps_yz P 0 Ny Nz = Ok (a, im) /\
  good_section P (fun p => (0, fst p, snd p)) Ny Nz (Panel PTyz im (map (fun z => (z, (nth 0 yb 0, nth 1 yb 0))) (map qw_z (pc_qws P))) (get_eps_bounds P)).
Proof.
  intros Hx Hz HB. destruct (yz_shows L el eu ops 0 Ny Nz Hd Hi ltac:(lia) ltac:(lia) Hne) as (a & im & E & Hs & HE). fold P in E, Hs.
  exists a, im. split; [exact E|]. destruct (HE Hx Hz) as (X & Y & HB' & HX). rewrite HB' in HB. inversion HB; subst xb yb. cbn [nth].
  pose proof (total_nonneg _ Hd) as T0. assert (T10 : 0 < 10 ^ 10) by (apply pow_lt; lra). assert (T1 : 1 <= 10 ^ 10) by lra.
  split; [eauto|]. split.
  - eapply lines_wells; [reflexivity|exact HX|]. intros q Hq. pose proof (wells_inside L el eu ops Hd q Hq). lra.
  - unfold in_colours. cbn [pn_im pn_clim]. destruct (window L 100 Ny) as (X' & Y' & _ & _ & HG & _). destruct (zgrid_ok L el eu ops Nz Hd Hne) as [HZ _]. fold P in HZ.
    unfold eps_yz in E. rewrite lattice_is, HG in E. cbn [bind] in E. rewrite HZ in E. cbn [bind] in E.
    apply (section_bounds L el eu ops _ _ _ _ _ E); [|exact Hd]. intros p Hp. cbn [snd]. apply mesh_in in Hp. apply linspace_range in Hp; lra.
Qed.
End Good.
