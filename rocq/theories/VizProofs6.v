(** Units in the object texts. *)
From Verif Require Import Py LatticeModel CBase PhcModel VizModel VizSpec.
Open Scope R_scope.

Lemma loss_unit gmax a M E0 loss z V : loss <> 0 -> ~ prints (exc_fields gmax a M E0 loss z V) "loss" loss.
Proof.
  intros Hl (x & u & c & Hin & Hu & Hx). cbn in Hin.
  repeat (destruct Hin as [Hin|Hin]; [inversion Hin; subst; cbn in Hu; inversion Hu; subst; try discriminate; nra|]); contradiction.
Qed.
Lemma exc_units gmax a M E0 loss z V : let f := exc_fields gmax a M E0 loss z V in
  prints f "gmax" gmax /\ prints f "a" a /\ prints f "M" M /\ prints f "E0" E0 /\ prints f "z" z /\ prints f "V_shapes" V.
Proof.
  cbv zeta. unfold prints. repeat split; do 3 eexists; (split; [cbn; intuition reflexivity|split; [reflexivity|lra]]).
Qed.
Lemma qw_units q : let f := qw_fields q in
  prints f "z" (qw_z q) /\ prints f "V_shapes" (qw_V q) /\ prints f "a" (qw_a q) /\ prints f "M" (qw_M q) /\ prints f "E0" (qw_E0 q) /\ prints f "loss" (qw_loss q).
Proof.
  cbv zeta. unfold prints. repeat split; do 3 eexists; (split; [cbn; intuition reflexivity|split; [reflexivity|try lra]]).
Qed.
