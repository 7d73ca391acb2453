(** Vocabulary for the plane-wave expansion: positive matrices, lowest bands,
    Maxwell's equations for one in-plane wave vector. *)
From Coq Require Import Permutation List.
From Verif Require Import Py CBase LatticeSpec RecipSpec RunSpec.
Open Scope R_scope.

Definition herm_on (n : nat) (A : cmat) : Prop := forall i j, (i < n)%nat -> (j < n)%nat -> A i j = Cconj (A j i).
(** v^* A v >= 0 for all v *)
Definition psd (n : nat) (A : cmat) : Prop := forall v : cvec, 0 <= fst (cdot n v (mvec n A v)).

(** fs and vs: the frequencies and eigenvectors that belong to the m lowest
    eigenvalues of A *)
Definition lowest (n m : nat) (A : cmat) (fs : list R) (vs : list (nat * cvec)) : Prop :=
  exists ls V, eigensystem n A ls V /\ ascending ls /\ (forall l, In l ls -> 0 <= l) /\
    fs = map (fun l => sqrt l / (2 * PI)) (firstn m ls) /\
    List.length vs = Nat.min m n /\
    forall b, (b < Nat.min m n)%nat -> fst (nth b vs (0%nat, fun _ => RtoC 0)) = n /\
      forall i, (i < n)%nat -> snd (nth b vs (0%nat, fun _ => RtoC 0)) i = V i b.

(** l lists the m smallest entries of the (multi)set all, in ascending order *)
Definition smallest (m : nat) (all l : list R) : Prop :=
  exists s, Permutation s all /\ ascending s /\ l = firstn m s.

(** ** plane waves e^{i q.r} with in-plane q *)
Definition shifted (k g : R * R) : R * R := (fst k + fst g, snd k + snd g).
(** i q x F *)
Definition curl_at (q : R * R) (F : C * C * C) : C * C * C :=
  let '(x, y, z) := F in
  ((Ci * RtoC (snd q) * z)%C, (- (Ci * RtoC (fst q) * z))%C, (Ci * RtoC (fst q) * y - Ci * RtoC (snd q) * x)%C).
Definition dot_at (q : R * R) (F : C * C * C) : C :=
  let '(x, y, z) := F in (RtoC (fst q) * x + RtoC (snd q) * y)%C.
Definition scale3 (c : C) (F : C * C * C) : C * C * C := let '(x, y, z) := F in ((c * x)%C, (c * y)%C, (c * z)%C).

(** ** the eigenproblems of a two-dimensional crystal, with B the inverse of the
    matrix of the transform of the permittivity *)
Definition gat (gs : list (R * R)) (i : nat) : R * R := nth i gs (0, 0).
Definition ft_matrix (ft : R * R -> C) (gs : list (R * R)) : cmat := fun i j => ft (diff (gat gs i) (gat gs j)).
Definition te_form (gs : list (R * R)) (k : R * R) (B : cmat) : cmat := fun i j =>
  (RtoC (inner (shifted k (gat gs i)) (shifted k (gat gs j))) * B i j)%C.
Definition tm_form (gs : list (R * R)) (k : R * R) (B : cmat) : cmat := fun i j =>
  (RtoC (len (shifted k (gat gs i)) * len (shifted k (gat gs j))) * B i j)%C.
Definition form_of (pol : string) (gs : list (R * R)) (k : R * R) (B : cmat) : cmat :=
  if String.eqb pol "te" then te_form gs k B else tm_form gs k B.

(** the components of a field at plane wave i *)
Definition at3 (F : (nat -> C) * (nat -> C) * (nat -> C)) (i : nat) : C * C * C := let '(x, y, z) := F in (x i, y i, z i).
Definition apply3 (n : nat) (B : cmat) (F : nat -> C * C * C) : nat -> C * C * C := fun i =>
  (csum n (fun j => (B i j * fst (fst (F j)))%C), csum n (fun j => (B i j * snd (fst (F j)))%C), csum n (fun j => (B i j * snd (F j))%C)).
(** curl (1/eps) (i/om) curl H = i om H, plane wave by plane wave: H is the
    magnetic field of a mode of frequency om (fields ~ e^{-i om t}, c = mu = 1) *)
Definition mode_of (n : nat) (gs : list (R * R)) (k : R * R) (B : cmat) (om : R) (H : nat -> C * C * C) : Prop :=
  forall i, (i < n)%nat ->
    curl_at (shifted k (gat gs i)) (apply3 n B (fun j => scale3 (Ci / RtoC om)%C (curl_at (shifted k (gat gs j)) (H j))) i) =
    scale3 (Ci * RtoC om)%C (H i).
