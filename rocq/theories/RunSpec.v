(** Specification vocabulary for the band computation: what the external sorting
    and diagonalisation routines are assumed to deliver, and what a selection of
    bands has to be.  Independent of the model. *)
From Coq Require Import Permutation.
From Verif Require Import Py CBase SymSpec.
Open Scope R_scope.

Definition ascending (l : list R) : Prop :=
  forall i j, (i < j < List.length l)%nat -> nth i l 0 <= nth j l 0.

(** numpy.argsort: some permutation of the indices that sorts, with any
    tie-breaking *)
Definition sorts (argsort : list R -> list nat) : Prop := forall l,
  Permutation (argsort l) (seq 0 (List.length l)) /\ ascending (map (fun i => nth i l 0) (argsort l)).

(** idx lists k distinct members of 0..n-1, and nothing left out is nearer *)
Definition nearest (n k : nat) (dist : nat -> R) (idx : list nat) : Prop :=
  List.length idx = k /\ NoDup idx /\ (forall i, In i idx -> (i < n)%nat) /\
  forall i j, In i idx -> (j < n)%nat -> ~ In j idx -> dist i <= dist j.

(** ls and the columns of V are an orthonormal eigensystem of the n x n matrix A *)
Definition eigensystem (n : nat) (A : cmat) (ls : list R) (V : cmat) : Prop :=
  List.length ls = n /\
  (forall j k, (j < n)%nat -> (k < n)%nat ->
     csum n (fun i => (Cconj (V i j) * V i k)%C) = if Nat.eqb j k then RtoC 1 else RtoC 0) /\
  forall i j, (i < n)%nat -> (j < n)%nat -> mvec n A (fun i => V i j) i = (RtoC (nth j ls 0%R) * V i j)%C.

(** numpy.linalg.eigh *)
Definition diagonalises (eigh : nat -> cmat -> list R * cmat) : Prop := forall n A,
  (forall i j, (i < n)%nat -> (j < n)%nat -> A i j = Cconj (A j i)) ->
  eigensystem n A (fst (eigh n A)) (snd (eigh n A)).

(** scipy.sparse.linalg.eigsh with a shift sigma that is not itself an
    eigenvalue: k eigenpairs, the ones nearest to sigma *)
Definition diagonalises_near (eigsh : nat -> cmat -> nat -> R -> result (list R * cmat)) : Prop := forall n A k sigma,
  (forall i j, (i < n)%nat -> (j < n)%nat -> A i j = Cconj (A j i)) -> (0 < k <= n)%nat -> ~ eigval n A (RtoC sigma) ->
  exists ls V idx ks W, eigensystem n A ls V /\
    nearest n k (fun j => Rabs (nth j ls 0 - sigma)) idx /\
    eigsh n A k sigma = Ok (ks, W) /\ ks = map (fun j => nth j ls 0) idx /\
    forall c i, (c < k)%nat -> (i < n)%nat -> W i c = V i (nth c idx 0%nat).

(** the reduced frequency that belongs to an eigenvalue (omega/c)^2 *)
Definition freq_of (l : R) : R := sqrt (Rabs l) / (2 * PI).

(** fs and vs are the frequencies and eigenvectors of the matrix A (n x n) at the
    places idx of an eigensystem, in ascending order *)
Definition reports (n : nat) (A : cmat) (ls : list R) (V : cmat) (idx : list nat)
  (fs : list R) (vs : list (nat * (nat -> C))) : Prop :=
  eigensystem n A ls V /\ fs = map (fun j => freq_of (nth j ls 0)) idx /\ ascending fs /\
  List.length vs = List.length idx /\
  forall b, (b < List.length idx)%nat -> fst (nth b vs (0%nat, fun _ => RtoC 0)) = n /\
    forall i, (i < n)%nat -> snd (nth b vs (0%nat, fun _ => RtoC 0)) i = V i (nth b idx 0%nat).

(** the vector v (n entries) is unchanged by T and carries the label +1, or is
    negated by T and carries the label -1 *)
Definition has_parity (n : nat) (T : cvec -> cvec) (v : cvec) (sg : Z) : Prop :=
  (sg = 1%Z /\ forall i, (i < n)%nat -> T v i = v i) \/ (sg = (-1)%Z /\ forall i, (i < n)%nat -> T v i = Copp (v i)).

(** idx lists k of the columns of W with parity sg, and no other column of that
    parity is nearer *)
Definition nearest_of_parity (n k : nat) (T : cvec -> cvec) (sg : Z) (W : cmat) (dist : nat -> R) (idx : list nat) : Prop :=
  exists par : nat -> Z, (forall j, (j < n)%nat -> has_parity n T (fun i => W i j) (par j)) /\
    List.length idx = k /\ NoDup idx /\ (forall j, In j idx -> (j < n)%nat /\ par j = sg) /\
    forall i j, In i idx -> (j < n)%nat -> par j = sg -> ~ In j idx -> dist i <= dist j.
