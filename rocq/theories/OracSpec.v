(** Vocabulary of C116. *)
From Verif Require Import Py CBase RunModel.

(** the same options with another eig_solver *)
Definition with_solver (sv : string) (o : opts) : opts :=
  Opts (o_compute o) (o_inds o) (o_npts o) (o_step o) (o_tol o) (o_numeig o) (o_im o) sv (o_sigma o) (o_epseff o) (o_symm o) (o_thr o) (o_dgx o) (o_dgabs o) (o_sparse o) (o_only o).
