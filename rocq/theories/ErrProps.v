(** Property C125: wrong arguments are refused, each with a fixed kind of error. *)
From Verif Require Import Py CBase LatticeModel PhcModel PhcSpec RecipModel SlabModel MatElModel SymModel RunModel RunSpec RunProofs9
  FieldsModel PweModel PweProofs7 ErrSpec ErrProofs.
Open Scope R_scope.
Open Scope list_scope.

(** C125.  Exactly the edits listed in [edit_error] raise, and with that error. *)
Theorem C125_edits : forall P o e, snd (step P o) = Some e <-> edit_error P o e.
Proof. exact edit_errors. Qed.
Print Assumptions C125_edits.
Example C125_edits_example : forall s,
  edit_error slab_phc (OpShape ShNotIterable (-1) CladNone) TypeError /\
  edit_error slab_phc (OpShape (ShMany [Some s; None]) 0 (CladStr "u")) ValueError /\
  edit_error slab_phc (OpShape (ShOne s) (-2) CladNone) IndexError /\
  forall e, ~ edit_error slab_phc (OpShape (ShOne s) 0 CladNone) e.
Proof.
  intros s. split; [apply (EE_no_list slab_phc (-1) CladNone 0); reflexivity|].
  split; [apply (EE_no_shape slab_phc 0 (CladStr "u") 2); [reflexivity|right; left; reflexivity]|].
  split; [apply EE_below; reflexivity|]. intros e H. apply edit_errors in H. cbn in H. discriminate.
Qed.

(** A layer's map cannot be taken on an empty mesh, that of a crystal can. *)
Theorem C125_empty_mesh : forall L ly pts P,
  (layer_get_eps L ly pts = Raise ValueError <-> pts = []) /\ phc_get_eps P [] = Ok [].
Proof. exact (fun L ly pts P => conj (map_errors L ly pts) (empty_map P)). Qed.
Print Assumptions C125_empty_mesh.

(** A negative cut-off with 'abs': ValueError, after any number of passes of the loop. *)
Theorem C125_negative_gmax : forall fuel L gmax, gmax < 0 -> recip_abs fuel L gmax = Some (Raise ValueError).
Proof. exact negative_gmax. Qed.
Print Assumptions C125_negative_gmax.
Example C125_negative_gmax_example : - (1) < 0.
Proof. lra. Qed.

(** Options that cannot be used: ValueError whatever happened before.  The results
    of the earlier run stay, but the k-points are already the new ones. *)
Theorem C125_bad_options : forall argsort eigh eigsh inv root dl d o ks an s, bad_options d o an ->
  snd (run argsort eigh eigsh inv root dl d o ks an s) = Raise ValueError /\
  results (fst (run argsort eigh eigsh inv root dl d o ks an s)) = results s /\
  g_k (fst (run argsort eigh eigsh inv root dl d o ks an s)) = ks.
Proof. exact bad_options_run. Qed.
Print Assumptions C125_bad_options.
Example C125_bad_options_example :
  bad_options slab_dev (Opts "exact" [0%nat] 100 1 (1 / 10) 1 true "eigh" 0 "average" (Some "Even"%string) (1 / 10 ^ 8) 0 0 false false) [] /\
  bad_options slab_dev (Opts "exact" [0%nat] 100 1 (1 / 10) 1 true "eigh" 0 "custom" None (1 / 10 ^ 8) 0 0 false false) [].
Proof. split; [eapply BO_angles; reflexivity|apply BO_custom; reflexivity]. Qed.

(** A crystal without layers cannot be computed. *)
Theorem C125_no_layers : forall argsort eigh eigsh inv root dl d o ks an s, pc_layers (dv_phc d) = [] ->
  (forall l, dv_custom d = Some l -> List.length l = 2%nat) ->
  ks <> [] -> dv_gvec d <> [] -> o_inds o <> [] ->
  (lower (o_compute o) = "exact"%string \/ lower (o_compute o) = "interp"%string /\ o_npts o <> 0%nat) ->
  snd (run argsort eigh eigsh inv root dl d o ks an s) = Raise ValueError.
Proof. exact no_layers_run. Qed.
Print Assumptions C125_no_layers.
Example C125_no_layers_example : let d := Dev (phc_init slab_lat 1 1) true (recip_tbt slab_lat (3 / 10)) None in
  pc_layers (dv_phc d) = [] /\ dv_gvec d <> [] /\ o_inds (slab_opts true) <> [] /\ lower (o_compute (slab_opts true)) = "exact"%string.
Proof.
  split; [reflexivity|]. split; [|split; [discriminate|reflexivity]].
  change (dv_gvec slab_dev <> []). rewrite slab_g. discriminate.
Qed.

(** A gmode_compute that is neither 'exact' nor 'interp' is not checked; it ends in
    an IndexError at the first k-point. *)
Theorem C125_unknown_compute : forall argsort eigh eigsh inv root dl d o ks an s,
  lower (o_compute o) <> "exact"%string -> lower (o_compute o) <> "interp"%string ->
  ~ bad_options d o an -> o_symm o = None -> ks <> [] -> o_inds o <> [] ->
  snd (run argsort eigh eigsh inv root dl d o ks an s) = Raise IndexError.
Proof. exact unknown_compute. Qed.
Print Assumptions C125_unknown_compute.
Example C125_unknown_compute_example :
  let o := Opts "fast" [0%nat] 100 1 (1 / 10) 1 true "eigh" 0 "average" None (1 / 10 ^ 8) 0 0 false false in
  lower (o_compute o) <> "exact"%string /\ lower (o_compute o) <> "interp"%string /\ ~ bad_options slab_dev o [] /\ o_inds o <> [].
Proof.
  cbv zeta. split; [discriminate|]. split; [discriminate|]. split; [|discriminate].
  intros [y H|y H|H1 H2|H|H]; cbn in *; congruence.
Qed.

(** Every run that is accepted had usable arguments. *)
Theorem C125_accepted : forall argsort eigh eigsh inv root dl d o ks an s,
  snd (run argsort eigh eigsh inv root dl d o ks an s) = Ok tt -> ks <> [] ->
  dv_gvec d <> [] -> (forall l, dv_custom d = Some l -> List.length l = List.length (all_layers (dv_phc d))) ->
  (lower (o_compute o) = "exact"%string \/ lower (o_compute o) = "interp"%string) /\
  (o_solver o = "eigh"%string \/ o_solver o = "eigsh"%string /\ o_symm o = None) /\
  ~ bad_options d o an /\ o_inds o <> [] /\ pc_layers (dv_phc d) <> [].
Proof. exact accepted_run. Qed.
Print Assumptions C125_accepted.
Example C125_accepted_example argsort eigh eigsh inv root dl : sorts argsort -> diagonalises eigh ->
  snd (run argsort eigh eigsh inv root dl slab_dev (slab_opts false) slab_k [] fresh) = Ok tt /\ dv_gvec slab_dev <> [].
Proof.
  intros Hs He. destruct (slab_run argsort eigh eigsh inv root dl Hs He fresh) as [s' ->].
  split; [reflexivity|rewrite slab_g; discriminate].
Qed.

(** A plane-wave object that has not been run has no field, whatever is asked for. *)
Theorem C125_field_before_run : forall L ly gmax e dl field kind mind, pwe_ft_field dl (pwe_init L ly gmax e) field kind mind = Raise AttributeError.
Proof. exact field_before_run. Qed.
Print Assumptions C125_field_before_run.
