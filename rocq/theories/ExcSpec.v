(** Vocabulary for the exciton Schroedinger equation. *)
From Coq Require Import Permutation List.
From Verif Require Import Py CBase LatticeSpec RecipSpec RunSpec PweSpec PhcModel PhcSpec.
Open Scope R_scope.

(** es and vs: the m lowest eigenvalues of A in ascending order, with their
    orthonormal eigenvectors *)
Definition levels (n m : nat) (A : cmat) (es : list R) (vs : list (nat * cvec)) : Prop :=
  exists ls V, eigensystem n A ls V /\ ascending ls /\ es = firstn m ls /\
    List.length vs = Nat.min m n /\
    forall b, (b < Nat.min m n)%nat -> fst (nth b vs (0%nat, fun _ => RtoC 0)) = n /\
      forall i, (i < n)%nat -> snd (nth b vs (0%nat, fun _ => RtoC 0)) i = V i b.

(** the kinetic energy hb^2 q^2/(2 M e) of the wave vector q = (k+g)/a *)
Definition free_energy (hb e M a : R) (k g : R * R) : R := hb ^ 2 * (len (shifted k g) / a) ^ 2 / (2 * M * e).
(** kinetic energy + V, V given by its Fourier coefficients pot *)
Definition schroedinger (hb e M a : R) (pot : R * R -> C) (gs : list (R * R)) (k : R * R) : cmat := fun i j =>
  ((if Nat.eqb i j then RtoC (free_energy hb e M a k (gat gs i)) else RtoC 0) + pot (diff (gat gs i) (gat gs j)))%C.

(** distinct vectors differ by more than the tolerance 1e-10 that the code uses to
    recognise G = 0 *)
Definition separated (gs : list (R * R)) : Prop := forall g g', In g gs -> In g' gs -> is_g0 (diff g g') -> g = g'.
Definition difference (gs : list (R * R)) (D : R * R) : Prop := exists g g', In g gs /\ In g' gs /\ D = diff g g'.

(** pot: the Fourier coefficients of the potential of the layer, as
    Layer.compute_exc_ft gives them at differences of the vectors gs; for a layer
    with one shape s and V > 0 they are V * (transform of s) / area, without shapes
    they are zero (ExcProofs.one_transform, zero_transform) *)
Definition transform_of (area : R) (ly : layer) (V : R) (gs : list (R * R)) (pot : R * R -> C) : Prop :=
  forall ds, In (0, 0) ds -> (forall D, In D ds -> difference gs D) -> layer_exc_ft area ly V ds = Ok (map pot ds).
(** pot, or the mirror image of pot *)
Definition flip (ab : bool) (pot : R * R -> C) : R * R -> C := if ab then fun g => pot (opp g) else pot.
