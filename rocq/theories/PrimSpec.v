(** What a hand-written gradient has to satisfy.  Independent of the model.

    Autograd's convention for complex quantities: the cotangent g of a quantity z
    stands for the real loss whose differential is Re (sum of g_i dz_i), without
    conjugation.  A vector-Jacobian product is right when, along every
    differentiable curve of inputs, pairing it with the velocity of the input
    gives the derivative of the pairing of g with the output. *)
From Verif Require Import Py CBase.
Open Scope R_scope.

(** the pairing *)
Definition pair1 (n : nat) (g t : nat -> C) : R := fst (csum n (fun i => Cmult (g i) (t i))).
Definition pair2 (n m : nat) (g t : cmat) : R := fst (csum n (fun i => csum m (fun j => Cmult (g i j) (t i j)))).
Definition pairR (n : nat) (g t : nat -> R) : R := fst (csum n (fun i => RtoC (g i * t i))).

(** z moves with velocity dz at time 0 *)
Definition cderiv (z : R -> C) (dz : C) : Prop :=
  derivable_pt_lim (fun s => fst (z s)) 0 (fst dz) /\ derivable_pt_lim (fun s => snd (z s)) 0 (snd dz).
Definition curve1 (n : nat) (X : R -> nat -> C) (dX : nat -> C) : Prop :=
  forall i, (i < n)%nat -> cderiv (fun s => X s i) (dX i).
Definition curve2 (n m : nat) (X : R -> cmat) (dX : cmat) : Prop :=
  forall i j, (i < n)%nat -> (j < m)%nat -> cderiv (fun s => X s i j) (dX i j).
Definition curveR (n : nat) (X : R -> nat -> R) (dX : nat -> R) : Prop :=
  forall i, (i < n)%nat -> derivable_pt_lim (fun s => X s i) 0 (dX i).
(** something holds at all times close to 0 *)
Definition nearby (P : R -> Prop) : Prop := exists d, 0 < d /\ forall s, Rabs s < d -> P s.
(** z does not jump at time 0 *)
Definition ccont (z : R -> C) : Prop :=
  continuity_pt (fun s => fst (z s)) 0 /\ continuity_pt (fun s => snd (z s)) 0.

(** the entries of a list *)
Definition entries (l : list C) : nat -> C := fun i => nth i l (RtoC 0).
Definition lcurve (n : nat) (X : R -> list C) (dX : list C) : Prop :=
  (forall s, List.length (X s) = n) /\ List.length dX = n /\ curve1 n (fun s => entries (X s)) (entries dX).

(** first row and first column of the same Toeplitz blocks, blocks of size p: in
    every block they share the corner, and the first block is Hermitian *)
Definition consistent (n p : nat) (T1 T2 : list C) : Prop :=
  List.length T1 = (n * p)%nat /\ List.length T2 = (n * p)%nat /\
  (forall k, (k < n)%nat -> entries T1 (k * p)%nat = entries T2 (k * p)%nat) /\
  forall j, (0 < j < p)%nat -> entries T2 j = Cconj (entries T1 j).

(** B(s) undoes A(s) *)
Definition inverse_of (n : nat) (A B : cmat) : Prop := meq n n (mmul n A B) mid /\ meq n n (mmul n B A) mid.

(** the Hermitian matrix whose triangle is read from X *)
Definition herm_low (X : cmat) : cmat := fun i j =>
  if Nat.eqb i j then RtoC (fst (X i j)) else if Nat.ltb j i then X i j else Cconj (X j i).
Definition herm_up (X : cmat) : cmat := fun i j =>
  if Nat.eqb i j then RtoC (fst (X i j)) else if Nat.ltb i j then X i j else Cconj (X j i).
(** w and the columns of V are k orthonormal eigenpairs of H *)
Definition eigenpairs (n k : nat) (H : cmat) (w : nat -> R) (V : cmat) : Prop :=
  (forall j l, (j < k)%nat -> (l < k)%nat ->
     csum n (fun i => Cmult (Cconj (V i j)) (V i l)) = if Nat.eqb j l then RtoC 1 else RtoC 0) /\
  forall i j, (i < n)%nat -> (j < k)%nat -> mvec n H (fun a => V a j) i = Cmult (RtoC (w j)) (V i j).
(** an eigenvector is fixed up to its phase only: either the phase does not move
    to first order, or the loss does not see it *)
Definition phase_ok (n : nat) (v dv vg : nat -> C) : Prop :=
  csum n (fun i => Cmult (Cconj (v i)) (dv i)) = RtoC 0 \/ snd (csum n (fun i => Cmult (vg i) (v i))) = 0.

(** f, a function of x and of m further numbers, has at (x0, y0) the partial
    derivatives a and b (total differentiability) *)
Definition rsumf (m : nat) (f : nat -> R) : R := rsuml (map f (seq 0 m)).
Definition partials (m : nat) (f : R -> (nat -> R) -> R) (x0 : R) (y0 : nat -> R) (a : R) (b : nat -> R) : Prop :=
  forall eps, 0 < eps -> exists d, 0 < d /\ forall x y, Rabs (x - x0) < d -> (forall i, (i < m)%nat -> Rabs (y i - y0 i) < d) ->
    Rabs (f x y - f x0 y0 - a * (x - x0) - rsumf m (fun i => b i * (y i - y0 i))) <=
    eps * (Rabs (x - x0) + rsumf m (fun i => Rabs (y i - y0 i))).
(** g is the gradient of f at p0: it gives the derivative along every curve *)
Definition gradient (m : nat) (f : list R -> R) (p0 g : list R) : Prop :=
  List.length g = m /\ forall P dP, P 0 = p0 -> (forall s, List.length (P s) = m) ->
    (forall j, (j < m)%nat -> derivable_pt_lim (fun s => nth j (P s) 0) 0 (dP j)) ->
    derivable_pt_lim (fun s => f (P s)) 0 (rsumf m (fun j => nth j g 0 * dP j)).

(** strictly increasing nodes *)
Definition increasing (xp : list R) : Prop := forall i j, (i < j < List.length xp)%nat -> nth i xp 0 < nth j xp 0.
