(** Specification vocabulary for radiative losses, independent of the model. *)
From Verif Require Import Py CBase.
Open Scope R_scope.

(** y is the decay rate of a mode of squared frequency w^2 with total coupling r:
    y >= 0 and (x + i y)^2 = w^2 + i r for some x *)
Definition loss_rate (w r y : R) : Prop :=
  0 <= y /\ exists x, Cmult (x, y) (x, y) = (w * w, r).

(** sum of the squared moduli *)
Definition total (l : list C) : R := fold_right (fun z s => (fst z * fst z + snd z * snd z) + s) 0 l.

(** squared length of G + k with k shifted by dgx along x *)
Definition sq_len (G k : R * R) (dgx : R) : R :=
  (fst G + fst k + dgx) * (fst G + fst k + dgx) + (snd G + snd k) * (snd G + snd k).
(** plane wave G + k cannot radiate at frequency w into a medium of permittivity e *)
Definition below_light_line (e w dgx : R) (k G : R * R) : Prop := e * (w * w) < sq_len G k dgx.

(** the exponents of the products of a wave of vertical wave vector c1 (conjugated)
    with one of c2, shifted by the regulariser, do not vanish *)
Definition apart (dl : R) (c1 c2 : C) : Prop :=
  (c2 - Cconj c1 + RtoC dl)%C <> RtoC 0 /\ (- c2 + Cconj c1 + RtoC dl)%C <> RtoC 0 /\
  (- c2 - Cconj c1 + RtoC dl)%C <> RtoC 0 /\ (c2 + Cconj c1 + RtoC dl)%C <> RtoC 0.
