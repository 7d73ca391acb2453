(** Proofs about viz.bands. *)
From Coq Require Import Ascii.
From Verif Require Import Py LatticeModel CBase PhcModel PolModel MiscModel MiscSpec MiscProofs MiscProofs3 VizModel VizSpec VizProofs4.
Open Scope R_scope.

Lemma conv_unit eV a conv : axis_unit eV a conv ->
  (if eV then match a with None => Raise ValueError | Some a => let* r := from_freq_to_e false a in Ok (fst r) end else Ok 1) = Ok conv /\ 0 < conv.
Proof. unfold axis_unit. destruct eV; [intros (a0 & w & -> & E & H); rewrite E; split; [reflexivity|exact H]|intros ->; split; [reflexivity|lra]]. Qed.
Lemma unit_exists a : 0 < a -> exists conv, axis_unit true (Some a) conv.
Proof.
  intros H. destruct conv_positive as (c & Hc & Hp). destruct (Hp false a H) as (w & E & _). exists (c / a). exists a, w. split; [reflexivity|]. split; [exact E|].
  apply Rdiv_lt_0_compat; assumption.
Qed.
Lemma calc_x_val ks m u : calculate_x ks m u = (fst (calculate_x ks m u), map (fun x => List.repeat x m) (fst (calculate_x ks m u))).
Proof. reflexivity. Qed.
Lemma calc_x_len ks m u : ks <> [] -> List.length (fst (calculate_x ks m u)) = List.length ks.
Proof.
  intros H. unfold calculate_x. cbn [fst]. destruct u; [|now rewrite map_length, seq_length].
  cbn [List.length]. rewrite cumsum_length, !map_length, diffs_length. destruct ks; [contradiction|cbn; lia].
Qed.
Lemma calc_x_m ks m m' u : fst (calculate_x ks m u) = fst (calculate_x ks m' u).
Proof. reflexivity. Qed.

Lemma combine_app {A B} (a a' : list A) (b b' : list B) : List.length a = List.length b -> combine (a ++ a') (b ++ b') = combine a b ++ combine a' b'.
Proof. revert b; induction a as [|x a IH]; intros [|y b] H; cbn in *; try lia; [reflexivity|]. now rewrite IH by lia. Qed.
Lemma combine_repeat (x conv : R) row : combine (List.repeat x (List.length row)) (map (Rmult conv) row) = map (fun f => (x, conv * f)) row.
Proof. induction row as [|f row IH]; cbn; [reflexivity|now rewrite IH]. Qed.
Lemma markers_val conv X0 m freqs : Forall (fun r => List.length r = m) freqs -> List.length X0 = List.length freqs ->
  markers conv (map (fun x => List.repeat x m) X0) freqs = placed X0 conv freqs.
Proof.
  unfold markers, placed. intros H. revert X0. induction H as [|row freqs Hr H IH]; intros [|x X0] Hl; cbn in Hl; try lia; [reflexivity|].
  cbn [map List.concat combine flat_map fst snd]. rewrite map_app, combine_app by (now rewrite repeat_length, map_length).
  rewrite IH by lia. f_equal. rewrite <- Hr. apply combine_repeat.
Qed.
Lemma len_hd (freqs : list (list R)) m : freqs <> [] -> Forall (fun r => List.length r = m) freqs -> List.length (nth 0 freqs []) = m.
Proof. intros H HF. destruct freqs; [contradiction|]. now inversion HF. Qed.

Lemma kz_flags kz : kz_known kz ->
  let vl := match kz with None => None | Some s => Some (lower s) end in
  (match vl with None => true | Some s => String.eqb s "odd" || String.eqb s "even" end) || (match vl with None => false | Some s => String.eqb s "both" end) = true.
Proof. destruct kz as [s|]; [|reflexivity]. cbn. intros [->|[->| ->]]; reflexivity. Qed.
Lemma concat_ne {A} (f : list (list A)) m : f <> [] -> (0 < m)%nat -> Forall (fun r => List.length r = m) f -> List.concat f <> [].
Proof. intros H Hm HF. destruct f as [|r f]; [contradiction|]. inversion HF; subst. destruct r; [cbn in Hm; lia|discriminate]. Qed.
Lemma entry_concat {A} (f : list (list A)) i j x : entry f i j = Some x -> In x (List.concat f).
Proof. apply entry_in. Qed.

(** the cone *)
Lemma LL_ok P ks conv i k : nth_error ks i = Some k -> exists l, calculate_LL [k] P conv = [l] /\ nth_error (calculate_LL ks P conv) i = Some l.
Proof.
  intros H. unfold calculate_LL. rewrite nth_error_map, H. cbn [map option_map]. eauto.
Qed.
Lemma comb_nth {A B} (a : list A) (b : list B) i x y : nth_error a i = Some x -> nth_error b i = Some y -> nth_error (combine a b) i = Some (x, y).
Proof. revert b i; induction a as [|u a IH]; intros [|v b] [|i] Hx Hy; cbn in *; try discriminate; [congruence|now apply IH]. Qed.
Lemma cone_ok P ks X0 conv freqs m f : 0 < ly_epsavg (pc_clad_l P) -> 0 < ly_epsavg (pc_clad_u P) -> 0 < conv -> List.length X0 = List.length ks ->
  (forall y, In y (map (Rmult conv) (List.concat freqs)) -> y <= f) ->
  cone_is_lossy P ks X0 conv freqs (combine X0 (calculate_LL ks P conv)) (Rmax (Rmax 100 m) f).
Proof.
  intros Hl Hu Hc HX Hf i j k w Hk Hw Hw0.
  assert (Hi : (i < List.length ks)%nat) by (apply nth_error_Some; congruence).
  destruct (nth_error X0 i) as [x|] eqn:Ex; [|apply nth_error_None in Ex; lia].
  destruct (LL_ok P ks conv i k Hk) as (l & El & Hn). exists x, l. split; [reflexivity|]. split; [now apply comb_nth|].
  destruct (LL_least P k Hl Hu) as (w0 & E & _ & _ & HR). specialize (E conv). rewrite El in E. inversion E as [E']. rewrite (HR w Hw0).
  pose proof (Hf (conv * w) (in_map _ _ _ (entry_in _ _ _ _ Hw))) as Ht. pose proof (Rmax_r (Rmax 100 m) f).
  split; [intros [H1 _]|intros H1; split; [|lra]].
  - apply Rmult_le_reg_l with conv; assumption.
  - apply Rmult_le_compat_l; lra.
Qed.

Lemma quality_zip a b : zip_with calculate_Q a b = quality_row a b.
Proof. revert b; induction a as [|x a IH]; intros [|y b]; cbn; try reflexivity. now rewrite IH. Qed.

Section Bands.
Variable P : phc.
Variable ks : list (R * R).
Variable freqs fim : list (list R).
Variable ir : result (list (list R)).
Variable m : nat.
Hypothesis Hks : ks <> [].
Hypothesis Hlen : List.length freqs = List.length ks.
Hypothesis Hm : (0 < m)%nat.
Hypothesis Hrow : Forall (fun r => List.length r = m) freqs.

Lemma f_ne : freqs <> [].
Proof. intros ->. destruct ks; [contradiction|discriminate]. Qed.
Lemma x0_ok ku : exists x, amax (fst (calculate_x ks m ku)) = Ok x.
Proof. destruct (amax_ok (fst (calculate_x ks m ku))) as (x & E & _); [|eauto]. intros H. apply (f_equal (@List.length R)) in H. rewrite calc_x_len in H by exact Hks. destruct ks; [contradiction|discriminate]. Qed.

Lemma marked_model (kz : option string) (sym : bool) (pts : list (R * R)) : kz_known kz ->
  let vl := match kz with None => None | Some s => Some (lower s) end in
  (if match vl with None => true | Some s => String.eqb s "odd" || String.eqb s "even" end then Ok [DMarkers pts]
   else if match vl with None => false | Some s => String.eqb s "both" end then Ok [if sym then DScatter pts None None else DMarkers pts]
   else Ok []) = Ok [if sym && match kz with Some s => String.eqb (lower s) "both" | None => false end then DScatter pts None None else DMarkers pts].
Proof. destruct kz as [s|]; cbn; [|intros _; now rewrite andb_false_r]. intros [->|[->| ->]]; cbn; rewrite ?andb_false_r, ?andb_true_r; reflexivity. Qed.

Notation x_of ku := (fst (calculate_x ks m ku)).
Lemma bands_gme kz Qc sym eV a ku conv : kz_known kz -> axis_unit eV a conv -> 0 < ly_epsavg (pc_clad_l P) -> 0 < ly_epsavg (pc_clad_u P) ->
  exists d low top, bands (BGme kz) P ks freqs fim ir false Qc true sym eV a ku = Ok [d; DCone low top] /\
    marked kz sym (placed (x_of ku) conv freqs) d /\ 100 <= top /\ cone_is_lossy P ks (x_of ku) conv freqs low top.
Proof.
  intros Hkz Hu Hl Hup. destruct (conv_unit _ _ _ Hu) as [Ec Hc]. unfold bands. rewrite Ec. cbn [bind]. rewrite (len_hd _ m f_ne Hrow).
  rewrite calc_x_val. rewrite (markers_val conv _ m) by (auto; rewrite calc_x_len; auto).
  rewrite marked_model by exact Hkz. cbn [bind]. rewrite kz_flags by exact Hkz.
  pose proof (concat_ne freqs m f_ne Hm Hrow) as Hcc. destruct (amax_ok _ Hcc) as (fm & Ef & _). rewrite Ef. cbn [bind].
  destruct (amax_ok (calculate_LL ks P conv)) as (l & El & _); [unfold calculate_LL; destruct ks; [contradiction|discriminate]|]. rewrite El. cbn [bind].
  destruct (amax_ok (map (Rmult conv) (List.concat freqs))) as (t & Et & Ht); [destruct (List.concat freqs); [contradiction|discriminate]|]. rewrite Et. cbn [bind].
  destruct (x0_ok ku) as (x & Ex). rewrite Ex. cbn [bind app]. do 3 eexists. split; [reflexivity|]. split; [reflexivity|].
  split; [eapply Rle_trans; [|apply Rmax_l]; apply Rmax_l|]. apply cone_ok; auto. now rewrite calc_x_len.
Qed.
Lemma bands_nocone cls kz Qc sym eV a ku conv : (cls = BGme kz /\ kz_known kz \/ cls = BPwe /\ kz = None) -> axis_unit eV a conv ->
  exists d, bands cls P ks freqs fim ir false Qc false sym eV a ku = Ok [d] /\ marked kz sym (placed (x_of ku) conv freqs) d.
Proof.
  intros Hcls Hu. destruct (conv_unit _ _ _ Hu) as [Ec Hc]. unfold bands. rewrite Ec. cbn [bind]. rewrite (len_hd _ m f_ne Hrow).
  rewrite calc_x_val. rewrite (markers_val conv _ m) by (auto; rewrite calc_x_len; auto).
  assert (Hk : match cls with BGme kz => Ok kz | BPwe => Ok None | BOther => Raise UnboundLocalError end = Ok kz /\ kz_known kz) by (destruct Hcls as [[-> H]|[-> ->]]; split; auto; reflexivity).
  destruct Hk as [-> Hkz]. cbn [bind]. rewrite marked_model by exact Hkz. cbn [bind]. rewrite kz_flags by exact Hkz.
  pose proof (concat_ne freqs m f_ne Hm Hrow) as Hcc. destruct (amax_ok _ Hcc) as (fm & Ef & _). rewrite Ef. cbn [bind].
  destruct (x0_ok ku) as (x & Ex). rewrite Ex. cbn [bind app]. eexists. split; reflexivity.
Qed.
(** a plane-wave expansion: with the default cone, or with quality factors *)
Lemma bands_pwe_cone Qc sym eV a ku conv : axis_unit eV a conv -> bands BPwe P ks freqs fim ir false Qc true sym eV a ku = Raise AttributeError.
Proof.
  intros Hu. destruct (conv_unit _ _ _ Hu) as [Ec Hc]. unfold bands. rewrite Ec. cbn [bind]. destruct (calculate_x _ _ _) as [X0 X]. cbn [bind orb].
  pose proof (concat_ne freqs m f_ne Hm Hrow) as Hcc. destruct (amax_ok _ Hcc) as (fm & Ef & _). rewrite Ef. reflexivity.
Qed.
Lemma bands_pwe_Q Qc cone sym eV a ku conv : axis_unit eV a conv -> bands BPwe P ks freqs fim ir true Qc cone sym eV a ku = Raise AttributeError.
Proof. intros Hu. destruct (conv_unit _ _ _ Hu) as [Ec Hc]. unfold bands. rewrite Ec. cbn [bind]. destruct (calculate_x _ _ _) as [X0 X]. reflexivity. Qed.

(** quality factors *)
Lemma losses_val gim : losses fim ir gim -> (match fim with [] => ir | _ => Ok fim end) = Ok gim.
Proof. intros [[H ->]|[-> H]]; [destruct fim; [contradiction|reflexivity]|exact H]. Qed.
Lemma bands_Q gim kz Qc sym eV a ku conv : kz_known kz -> losses fim ir gim -> axis_unit eV a conv ->
  (exists x, In x (quality freqs gim) /\ x < Qc) ->
  exists vmax, bands (BGme kz) P ks freqs fim ir true Qc false sym eV a ku = Ok [DScatter (placed (x_of ku) conv freqs) (Some (quality freqs gim)) (Some vmax)] /\
    vmax < Qc /\ In vmax (quality freqs gim) /\ forall x, In x (quality freqs gim) -> x < Qc -> x <= vmax.
Proof.
  intros Hkz Hls Hu (x & Hx & Hxc). destruct (conv_unit _ _ _ Hu) as [Ec Hc]. unfold bands. rewrite Ec. cbn [bind]. rewrite (len_hd _ m f_ne Hrow).
  rewrite calc_x_val. rewrite (markers_val conv _ m) by (auto; rewrite calc_x_len; auto).
  rewrite kz_flags by exact Hkz. rewrite (losses_val gim Hls). cbn [bind].
  rewrite quality_zip. fold (quality freqs gim).
  assert (Hin : In x (filter (fun x => Rltb x Qc) (quality freqs gim))) by (apply filter_In; split; [exact Hx|now apply Rltb_true]).
  assert (HM : exists v, amax (filter (fun x => Rltb x Qc) (quality freqs gim)) = Ok v /\ In v (filter (fun x => Rltb x Qc) (quality freqs gim)) /\ forall y, In y (filter (fun x => Rltb x Qc) (quality freqs gim)) -> y <= v).
  { destruct (amax_ok (filter (fun x => Rltb x Qc) (quality freqs gim))) as (v & E & Hv); [intros H; now rewrite H in Hin|]. exists v. split; [exact E|]. split; [|exact Hv].
    assert (HF : forall l y, In (fold_left Rmax l y) (y :: l)).
    { clear. induction l as [|b l IH]; intros y; cbn [fold_left]; [now left|]. destruct (IH (Rmax y b)) as [H|H]; [|right; now right].
      unfold Rmax in *. destruct (Rle_dec y b); [right; left|left]; exact H. }
    destruct (filter _ _) as [|y l]; [contradiction|]. cbn [amax] in E. inversion E as [E']. apply HF. }
  destruct HM as (v & E & Hv & Hmax). rewrite E. cbn [bind].
  pose proof (concat_ne freqs m f_ne Hm Hrow) as Hcc. destruct (amax_ok _ Hcc) as (fm & Ef & _). rewrite Ef. cbn [bind].
  destruct (x0_ok ku) as (x' & Ex). rewrite Ex. cbn [bind app]. apply filter_In in Hv. destruct Hv as [Hv1 Hv2]. apply Rltb_true in Hv2.
  exists v. split; [reflexivity|]. split; [exact Hv2|]. split; [exact Hv1|]. intros y Hy Hyc. apply Hmax, filter_In. split; [exact Hy|now apply Rltb_true].
Qed.
Lemma bands_Q_none gim kz Qc cone sym eV a ku conv : kz_known kz -> losses fim ir gim -> axis_unit eV a conv ->
  (forall x, In x (quality freqs gim) -> Qc <= x) -> bands (BGme kz) P ks freqs fim ir true Qc cone sym eV a ku = Raise ValueError.
Proof.
  intros Hkz Hls Hu Hx. destruct (conv_unit _ _ _ Hu) as [Ec Hc]. unfold bands. rewrite Ec. cbn [bind]. destruct (calculate_x _ _ _) as [X0 X].
  rewrite kz_flags by exact Hkz. rewrite (losses_val gim Hls). cbn [bind].
  rewrite quality_zip. fold (quality freqs gim).
  assert (E : filter (fun x => Rltb x Qc) (quality freqs gim) = []).
  { destruct (filter (fun x => Rltb x Qc) (quality freqs gim)) as [|y l] eqn:E; [reflexivity|]. assert (Hy : In y (filter (fun x => Rltb x Qc) (quality freqs gim))) by (rewrite E; now left).
    apply filter_In in Hy. destruct Hy as [H1 H2]. apply Rltb_true in H2. apply Hx in H1. lra. }
  rewrite E. reflexivity.
Qed.
End Bands.

(** without eV units no lattice constant is needed; with them it is *)
Lemma bands_no_a cls P ks freqs fim ir q Qc cone sym ku : bands cls P ks freqs fim ir q Qc cone sym true None ku = Raise ValueError.
Proof. reflexivity. Qed.
