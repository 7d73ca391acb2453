(** Specification vocabulary for the fields, independent of the model. *)
From Verif Require Import Py CBase SlabSpec MatElSpec.
From Coquelicot Require Import Hierarchy Derive.
Open Scope R_scope.
Open Scope C_scope.

(** At height z the fields H(z) e^{i(kx x + ky y)}, D(z) e^{i(kx x + ky y)} are
    divergence-free and D = -(i/om) curl H. *)
Definition maxwell (kx ky om : R) (Hx Hy Hz Dx Dy Dz : R -> C) (z : R) : Prop :=
  exists hx hy hz dz,
    is_cderive Hx z hx /\ is_cderive Hy z hy /\ is_cderive Hz z hz /\ is_cderive Dz z dz /\
    Ci * RtoC kx * Hx z + Ci * RtoC ky * Hy z + hz = RtoC 0 /\
    Ci * RtoC kx * Dx z + Ci * RtoC ky * Dy z + dz = RtoC 0 /\
    Dx z = - (Ci / RtoC om) * (Ci * RtoC ky * Hz z - hy) /\
    Dy z = - (Ci / RtoC om) * (hx - Ci * RtoC kx * Hz z) /\
    Dz z = - (Ci / RtoC om) * (Ci * RtoC kx * Hy z - Ci * RtoC ky * Hx z).

(** (cx, cy, cz) is the curl of H(z) e^{i(kx x + ky y)} at height z *)
Definition is_curl (kx ky : R) (Hx Hy Hz : R -> C) (z : R) (F : C * C * C) : Prop :=
  exists hx hy, is_cderive Hx z hx /\ is_cderive Hy z hy /\
    F = (Ci * RtoC ky * Hz z - hy, hx - Ci * RtoC kx * Hz z, Ci * RtoC kx * Hy z - Ci * RtoC ky * Hx z).

(** the Fourier series with the given coefficients and vectors, at (x, y) *)
Definition series (l : list (C * (R * R))) (x y : R) : C :=
  fold_right (fun t s => fst t * expi (fst (snd t) * x + snd (snd t) * y) + s) 0 l.

(** a is one of the letters of s *)
Fixpoint letter (a : Ascii.ascii) (s : string) : Prop :=
  match s with EmptyString => False | String b t => a = b \/ letter a t end.
