(** Vocabulary for the polaritons. *)
From Coq Require Import Permutation List.
From Verif Require Import Py CBase SymSpec RunSpec.
Open Scope R_scope.

(** the columns of V are a basis of eigenvectors of A *)
Definition eigenbasis (n : nat) (A : cmat) (ls : nat -> C) (V : cmat) : Prop :=
  (forall i b, (i < n)%nat -> (b < n)%nat -> mvec n A (fun i => V i b) i = (ls b * V i b)%C) /\
  exists W, meq n n (mmul n V W) mid /\ meq n n (mmul n W V) mid.
(** numpy.linalg.eig: columns of unit norm that satisfy the eigenvalue equation,
    no eigenvalue left out, and a basis if there is a basis of eigenvectors *)
Definition solves (eig : nat -> cmat -> list C * cmat) : Prop := forall n A,
  let ls := fst (eig n A) in let V := snd (eig n A) in
  List.length ls = n /\
  (forall b, (b < n)%nat -> cdot n (fun i => V i b) (fun i => V i b) = RtoC 1) /\
  (forall i b, (i < n)%nat -> (b < n)%nat -> mvec n A (fun i => V i b) i = (nth b ls (RtoC 0) * V i b)%C) /\
  (forall l, eigval n A l -> In l ls) /\
  ((exists ls' V', eigenbasis n A ls' V') -> exists W, meq n n (mmul n V W) mid /\ meq n n (mmul n W V) mid).

(** the order of numpy for complex numbers *)
Definition cle (x y : C) : Prop := fst x < fst y \/ (fst x = fst y /\ snd x <= snd y).
Definition cascending (l : list C) : Prop := forall i j, (i <= j < List.length l)%nat -> cle (nth i l (RtoC 0)) (nth j l (RtoC 0)).
Definition csorts (argsort : list C -> list nat) : Prop := forall l,
  Permutation (argsort l) (seq 0 (List.length l)) /\ cascending (map (fun i => nth i l (RtoC 0)) (argsort l)).

(** the modes of non-negative energy of A, in ascending order: eigenvalues with
    eigenvectors of unit norm.  None is missing; if A has a basis of eigenvectors
    multiple eigenvalues occur with their multiplicity. *)
Definition positive_modes (n : nat) (A : cmat) (ms : list (C * cvec)) : Prop :=
  (forall m, In m ms -> eigvec n A (fst m) (snd m) /\ cdot n (snd m) (snd m) = RtoC 1 /\ 0 <= fst (fst m)) /\
  cascending (map fst ms) /\
  (forall l, eigval n A l -> 0 <= fst l -> In l (map fst ms)) /\
  ((exists ls V, eigenbasis n A ls V) -> exists ls V idx, eigenbasis n A ls V /\ NoDup idx /\
     (forall b, In b idx <-> (b < n)%nat /\ 0 <= fst (ls b)) /\ ms = map (fun b => (ls b, fun i => V i b)) idx).

(** exchange the first and the second half of a vector (halves: N photons, then
    K excitons) and change the sign of the exciton amplitudes *)
Definition mirror (N K : nat) (v : cvec) : cvec := fun i =>
  let h := (N + K)%nat in
  let j := if Nat.ltb i h then (i + h)%nat else (i - h)%nat in
  let is_photon := Nat.ltb (if Nat.ltb i h then i else (i - h)%nat) N in
  if is_photon then v j else (- v j)%C.

(** Read off a matrix H of that form: the coupling of photon n to exciton j, the
    exciton energy, and the diamagnetic coefficient summed over all excitons of
    all wells *)
Definition coupling_of (N : nat) (H : cmat) (n j : nat) : C := (Ci * H n (N + j)%nat)%C.
Definition exciton_of (N : nat) (H : cmat) (j : nat) : C := H (N + j)%nat (N + j)%nat.
Definition dia_of (N K : nat) (H : cmat) (n1 n2 : nat) : C :=
  csum K (fun j => Cconj (coupling_of N H n1 j) * coupling_of N H n2 j / RtoC (fst (exciton_of N H j)))%C.
