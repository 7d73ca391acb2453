(** Rounding to binary64 is a rounding in the sense of MiscSpec (Flocq). *)
From Coq Require Import Reals ZArith Lra Lia List.
From Flocq Require Import Core.
From Verif Require Import MiscSpec.
Import ListNotations.
Open Scope R_scope.
Definition rnd64 : R -> R := round radix2 (FLT_exp (-1074) 53) ZnearestE.
Lemma rnd64_rounding l : (forall z, In z l -> (Z.abs z < 2 ^ 53)%Z) -> rounding rnd64 l.
Proof.
  intros H. split; [intros x y Hxy; apply round_le; [apply FLT_exp_valid; reflexivity|apply valid_rnd_N|exact Hxy]|].
  intros z Hz. apply round_generic; [apply valid_rnd_N|]. apply generic_format_FLT. exists (Float radix2 z 0).
  - unfold F2R. cbn. lra.
  - cbn [Fnum]. exact (H z Hz).
  - cbn. lia.
Qed.
