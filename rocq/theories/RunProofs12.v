(** Runs without k-points. *)
From Coq Require Import List.
From Verif Require Import Py CBase LatticeModel PhcModel SymModel RecipModel SlabModel MatElModel RadModel RunModel RunSpec RunProofs RunProofs2 RunProofs8 RunProofs9.
Open Scope R_scope.
Open Scope list_scope.

(** no k-points: nothing to compute, but the losses then fail *)
Lemma no_kpoints argsort eigh eigsh inv root dl d o an s s' : o_im o = false -> run argsort eigh eigsh inv root dl d o [] an s = (s', Ok tt) ->
  g_freqs s' = [] /\ g_vecs s' = [] /\ run argsort eigh eigsh inv root dl d (with_im o true) [] an s = (s', Raise RuntimeError).
Proof.
  intros Hi H. destruct (run_then_im argsort eigh eigsh inv root dl d o [] an s s' Hi H) as (eps & einv & _ & _ & E).
  destruct (run_ok argsort eigh eigsh inv root dl d o [] an s s' H) as (refl & eps' & einv' & _ & _ & _ & _ & _ & H6 & H7 & _).
  destruct (g_freqs s') eqn:F; [|discriminate]. destruct (g_vecs s') eqn:G; [|discriminate]. split; [reflexivity|]. split; [reflexivity|].
  rewrite E. unfold run_im_m, andthen, lift. rewrite F. reflexivity.
Qed.
Lemma slab_nothing argsort eigh eigsh inv root dl s : exists s', run argsort eigh eigsh inv root dl slab_dev (slab_opts false) [] [] s = (s', Ok tt).
Proof.
  unfold run. change (interp_modes (slab_opts false)) with false. cbn iota. unfold andthen, modify, lift, ret. change (check slab_dev (slab_opts false) []) with (@Ok (list (R * mat2)) []). cbn iota.
  rewrite slab_eps. cbn iota. unfold compute_eps_inv. destruct (g_einv _); cbn [foreach enum List.length seq combine]; unfold ret; eexists; reflexivity.
Qed.
