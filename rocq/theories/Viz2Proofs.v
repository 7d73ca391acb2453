(** Proofs about viz.eps, viz.pot_ft and viz.pol_bands. *)
From Coq Require Import Ascii.
From Verif Require Import Py LatticeModel LatticeSpec CBase PhcModel PhcSpec PhcProofs PhcProofs3 PhcProofs4 FieldsModel ExcModel PolModel PolSpec MiscModel MiscSpec MiscProofs MiscProofs3 VizModel VizSpec VizProofs2 VizProofs4 VizProofs5 Viz2Model Viz2Spec.
Open Scope R_scope.

(** ** eps *)
Lemma eps_layer L ly Nx Ny : independent (lt_a1 L) (lt_a2 L) -> (0 < Nx)%nat -> (0 < Ny)%nat ->
  exists im, viz_eps L ly Nx Ny = Ok im /\ shows_layer L ly Nx Ny im /\
    ((2 <= Nx)%nat -> (2 <= Ny)%nat -> exists X Y, xy_grid L 2 2 PerNone = Ok ([- X; X], [- Y; Y]) /\ im_extent im = (- X, X, - Y, Y)).
Proof.
  intros Hi Hn Hm. destruct (window L Nx Ny) as (X & Y & HX & HY & HG & HM). unfold viz_eps. rewrite HG. cbn [bind].
  set (g1 := linspace (- X) X Nx). set (g2 := linspace (- Y) Y Ny).
  assert (L1 : List.length g1 = Nx) by apply linspace_len. assert (L2 : List.length g2 = Ny) by apply linspace_len.
  assert (Hne : meshgrid g1 g2 <> []) by (intros H; apply (f_equal (@List.length _)) in H; rewrite mesh_len, L1, L2 in H; cbn in H; nia).
  destruct (layer_get_eps_ok L ly _ Hne) as (res & Hg & Hl). rewrite Hg. cbn [bind]. rewrite mesh_len, L1, L2 in Hl.
  assert (E1 := linspace_ends (- X) X Nx Hn). assert (E2 := linspace_ends (- Y) Y Ny Hm). fold g1 in E1. fold g2 in E2. rewrite E1, E2. cbn [bind].
  eexists. split; [reflexivity|]. rewrite L1, L2. split.
  - split; [apply rows_len|]. split; [now apply rows_width|].
    intros i j Hi' Hj'. destruct (linspace_pixel (- X) X Nx i ltac:(lra) Hi') as (u & l & r & Hu & Hends & Hpu). fold g1 in Hu, Hends. rewrite E1 in Hends. inversion Hends; subst l r; clear Hends.
    destruct (linspace_pixel (- Y) Y Ny j ltac:(lra) Hj') as (v & b & t & Hv & Hends & Hpv). fold g2 in Hv, Hends. rewrite E2 in Hends. inversion Hends; subst b t; clear Hends.
    pose proof (mesh_nth g1 g2 i j u v Hu Hv) as Hq. rewrite L1 in Hq.
    assert (Hk : (j * Nx + i < List.length res)%nat) by (rewrite Hl; nia).
    destruct (nth_error res (j * Nx + i)) as [e|] eqn:He; [|apply nth_error_None in He; lia].
    exists u, v, e. split; [cbn [im_rows]; now rewrite rows_entry by assumption|]. split; [split; assumption|]. split.
    + eexists. split; [|eapply layer_value; [exact Hg|exact Hq|exact He]]. apply (nmax_reaches L (meshgrid g1 g2) (u, v) Hi). eapply nth_error_In; exact Hq.
    + intros Ho Hw. eapply orth_value; eauto.
  - intros Hx2 Hy2. exists X, Y. split; [|cbn [im_extent]; destruct (Nat.eqb_spec Nx 1), (Nat.eqb_spec Ny 1); try lia; reflexivity].
    rewrite HM. unfold linspace. cbn [seq map Nat.sub INR]. f_equal. f_equal; f_equal; try field; f_equal; field.
Qed.
Lemma eps_empty L ly Nx Ny : (Nx = 0 \/ Ny = 0)%nat -> viz_eps L ly Nx Ny = Raise ValueError.
Proof.
  intros H. destruct (window L Nx Ny) as (X & Y & _ & _ & HG & _). unfold viz_eps. rewrite HG. cbn [bind].
  assert (E : meshgrid (linspace (- X) X Nx) (linspace (- Y) Y Ny) = []).
  { apply length_zero_iff_nil. rewrite mesh_len, !linspace_len. destruct H; subst; lia. }
  now rewrite E.
Qed.

(** ** pol_bands *)
Lemma dots_placed X0 en : dots X0 en = placed X0 1 en.
Proof. unfold dots, placed. apply flat_map_ext. intros [x r]. cbn [fst snd]. apply map_ext. intros e. now rewrite Rmult_1_l. Qed.
Lemma combine_dots X0 m en : Forall (fun r => List.length r = m) en -> List.length X0 = List.length en ->
  combine (List.concat (map (fun x => List.repeat x m) X0)) (List.concat en) = dots X0 en.
Proof.
  intros H Hl. rewrite dots_placed, <- (markers_val 1 X0 m en H Hl). unfold markers. f_equal. rewrite <- (map_id (List.concat en)) at 1. apply map_ext. intros; lra.
Qed.
Lemma cumsum_nonneg l : forall acc, 0 <= acc -> (forall x, In x l -> 0 <= x) -> forall y, In y (cumsum acc l) -> 0 <= y.
Proof.
  induction l as [|x l IH]; intros acc Ha Hl y Hy; [contradiction|]. cbn [cumsum] in Hy. assert (0 <= acc + x) by (specialize (Hl x (or_introl eq_refl)); lra).
  destruct Hy as [<-|Hy]; [assumption|]. eapply IH; [exact H| |exact Hy]. intros; apply Hl; now right.
Qed.
Lemma rsuml_nonneg l : (forall x, In x l -> 0 <= x) -> 0 <= rsuml l /\ forall x, In x l -> x <= rsuml l.
Proof.
  induction l as [|a l IH]; intros H; [split; [unfold rsuml; cbn; lra|contradiction]|].
  destruct IH as [I1 I2]; [intros; apply H; now right|]. pose proof (H a (or_introl eq_refl)). unfold rsuml in *. cbn [fold_right]. split; [lra|].
  intros x [<-|Hx]; [lra|]. specialize (I2 x Hx). lra.
Qed.
Lemma calc_x_nonneg ks m u x : In x (fst (calculate_x ks m u)) -> 0 <= x.
Proof.
  unfold calculate_x. cbn [fst]. destruct u.
  - set (l := map _ (diffs ks)). assert (Hl : forall x, In x l -> 0 <= x) by (intros y Hy; apply in_map_iff in Hy; destruct Hy as (d & <- & _); apply sqrt_pos).
    destruct (rsuml_nonneg l Hl) as [H0 H1]. intros [<-|Hx]; [lra|]. eapply cumsum_nonneg; [apply Rle_refl| |exact Hx].
    intros y Hy. apply in_map_iff in Hy. destruct Hy as (z & <- & Hz). destruct H0 as [H0|H0].
    + apply Rmult_le_pos; [now apply Hl|]. left. now apply Rinv_0_lt_compat.
    + assert (z = 0) by (specialize (H1 z Hz); specialize (Hl z Hz); lra). subst z. unfold Rdiv. lra.
  - intros H. apply in_map_iff in H. destruct H as (i & <- & _). apply pos_INR.
Qed.
Lemma dots_in X0 en p : In p (dots X0 en) -> In (fst p) X0 /\ In (snd p) (List.concat en).
Proof.
  unfold dots. intros H. apply in_flat_map in H. destruct H as ((x & r) & Hc & Hp). cbn [fst snd] in Hp. apply in_map_iff in Hp. destruct Hp as (e & <- & He). cbn [fst snd].
  split; [now apply in_combine_l in Hc|]. apply in_combine_r in Hc. apply in_concat. eauto.
Qed.
Lemma hc_pos : 0 < h_eV_Hz * c_light.
Proof. unfold h_eV_Hz, c_light. apply Rmult_lt_0_compat; lra. Qed.

Section Bands.
Variable P : phc.
Variable a : R.
Variable ks : list (R * R).
Variable en eim fr : list (list R).
Variable m : nat.
Hypothesis Hks : ks <> [].
Hypothesis Hlen : List.length en = List.length ks.
Hypothesis Hm : (0 < m)%nat.
Hypothesis Hrow : Forall (fun r => List.length r = m) en.

Notation drawn := (drawn en eim fr).
Lemma axes_ok ku x t : (forall e, In e (List.concat en) -> 0 <= e) -> (forall y, In y (fst (calculate_x ks m ku)) -> y <= x) -> (forall y, In y (List.concat en) -> y <= t) ->
  in_axes x t (dots (fst (calculate_x ks m ku)) en).
Proof.
  intros H0 Hx Ht p Hp. apply dots_in in Hp. destruct Hp as [H1 H2]. split; split; auto. eapply calc_x_nonneg; exact H1.
Qed.
Lemma energies_ok : en <> [].
Proof. intros ->. destruct ks; [contradiction|discriminate]. Qed.
Lemma pol_nocone q fraction Qc Qmin Qmax ku : let X0 := fst (calculate_x ks m ku) in
  exists x t, pol_bands P a ks (Some en) eim fr q fraction Qc false Qmin Qmax ku = Ok [drawn q fraction Qmin Qmax (dots X0 en); PLimits x t] /\
    ((forall e, In e (List.concat en) -> 0 <= e) -> in_axes x t (dots X0 en)).
Proof.
  intros X0. unfold pol_bands. rewrite (len_hd _ m energies_ok Hrow). rewrite calc_x_val. fold X0. rewrite (combine_dots X0 m) by (auto; unfold X0; rewrite calc_x_len; auto).
  cbn [bind]. destruct (amax_ok X0) as (x & Ex & Hx); [intros H; apply (f_equal (@List.length R)) in H; unfold X0 in H; rewrite calc_x_len in H by exact Hks; destruct ks; [contradiction|discriminate]|].
  rewrite Ex. cbn [bind]. destruct (amax_ok _ (concat_ne en m energies_ok Hm Hrow)) as (t & Et & Ht). rewrite Et. cbn [bind app].
  exists x, t. split; [|intros H; now apply axes_ok]. rewrite quality_zip. unfold drawn. now destruct q, fraction.
Qed.
Lemma pol_cone q fraction Qc Qmin Qmax ku : let X0 := fst (calculate_x ks m ku) in
  0 < a -> 0 < ly_epsavg (pc_clad_l P) -> 0 < ly_epsavg (pc_clad_u P) ->
  exists low top x t, pol_bands P a ks (Some en) eim fr q fraction Qc true Qmin Qmax ku = Ok [drawn q fraction Qmin Qmax (dots X0 en); PCone low top; PLimits x t] /\
    100 <= top /\ cone_of_energies P a ks X0 en low top /\ ((forall e, In e (List.concat en) -> 0 <= e) -> in_axes x t (dots X0 en)).
Proof.
  intros X0 Ha Hl Hu. unfold pol_bands. rewrite (len_hd _ m energies_ok Hrow). rewrite calc_x_val. fold X0. rewrite (combine_dots X0 m) by (auto; unfold X0; rewrite calc_x_len; auto).
  assert (Hc : exists w, from_freq_to_e true a = Ok (h_eV_Hz * c_light / a, w)).
  { unfold from_freq_to_e. cbn [negb andb]. replace (Rleb a 0) with false; [eauto|]. symmetry. unfold Rleb. destruct (Rle_dec a 0); [lra|reflexivity]. }
  destruct Hc as (w & Ec). rewrite Ec. cbn [bind fst]. set (conv := h_eV_Hz * c_light / a).
  assert (Hcv : 0 < conv) by (apply Rdiv_lt_0_compat; [apply hc_pos|exact Ha]).
  destruct (amax_ok (calculate_LL ks P conv)) as (l & El & _); [unfold calculate_LL; destruct ks; [contradiction|discriminate]|]. rewrite El. cbn [bind].
  destruct (amax_ok _ (concat_ne en m energies_ok Hm Hrow)) as (t & Et & Ht). rewrite Et. cbn [bind].
  destruct (amax_ok X0) as (x & Ex & Hx); [intros H; apply (f_equal (@List.length R)) in H; unfold X0 in H; rewrite calc_x_len in H by exact Hks; destruct ks; [contradiction|discriminate]|].
  rewrite Ex. cbn [bind app]. do 4 eexists. split; [rewrite quality_zip; unfold drawn; now destruct q, fraction|].
  split; [eapply Rle_trans; [|apply Rmax_l]; apply Rmax_l|]. split; [|intros H; now apply axes_ok].
  intros i j k e Hk He He0.
  assert (Hrel : forall y, e = conv * y <-> y = e * a / (h_eV_Hz * c_light)).
  { intros y. pose proof hc_pos as Hp. unfold conv. revert Hp. generalize (h_eV_Hz * c_light). intros hc Hp. split; [intros ->|intros ->]; field; lra. }
  set (f := e * a / (h_eV_Hz * c_light)). assert (Hf : e = conv * f) by (now apply Hrel).
  assert (Hf0 : 0 <= f) by (apply Rmult_le_reg_l with conv; [exact Hcv|lra]).
  assert (HX : List.length X0 = List.length ks) by (unfold X0; now apply calc_x_len).
  assert (HB : forall y, In y (map (Rmult conv) (List.concat (map (map (fun e => e / conv)) en))) -> y <= t).
  { intros y Hy. apply in_map_iff in Hy. destruct Hy as (z & <- & Hz). rewrite <- concat_map in Hz. apply in_map_iff in Hz. destruct Hz as (e' & <- & He').
    replace (conv * (e' / conv)) with e' by (field; lra). now apply Ht. }
  pose proof (cone_ok P ks X0 conv (map (map (fun e => e / conv)) en) l t Hl Hu Hcv HX HB i j k f Hk) as HC.
  destruct HC as (x0 & l0 & H1 & H2 & H3); [|exact Hf0|].
  { rewrite entry_map, He. cbn [option_map]. f_equal. rewrite Hf. field. lra. }
  exists x0, l0. split; [exact H1|]. split; [exact H2|]. rewrite <- Hf in H3. exact H3.
Qed.
End Bands.
Lemma pol_before_run P a ks eim fr q fraction Qc cone Qmin Qmax ku : pol_bands P a ks None eim fr q fraction Qc cone Qmin Qmax ku = Raise AttributeError.
Proof. reflexivity. Qed.
Lemma clip_unused P a ks en eim fr q fraction Qc Qc' cone Qmin Qmax ku :
  pol_bands P a ks en eim fr q fraction Qc cone Qmin Qmax ku = pol_bands P a ks en eim fr q fraction Qc' cone Qmin Qmax ku.
Proof. reflexivity. Qed.
Lemma clip_ignored : forall P a ks en eim fr m Q_clip ku, ks <> [] -> List.length en = List.length ks -> (0 < m)%nat -> Forall (fun r => List.length r = m) en -> Q_clip <> 10 ^ 4 ->
  exists pts col vmax rest, pol_bands P a ks (Some en) eim fr true false Q_clip false (10 ^ 2) (10 ^ 4) ku = Ok (PQuality pts col (10 ^ 2) vmax :: rest) /\ vmax <> Q_clip.
Proof.
  intros P a ks en eim fr m Qc ku H1 H2 H3 H4 H5. destruct (pol_nocone P a ks en eim fr m H1 H2 H3 H4 true false Qc (10 ^ 2) (10 ^ 4) ku) as (x & t & E & _). rewrite E. do 4 eexists. split; [reflexivity|]. congruence.
Qed.
