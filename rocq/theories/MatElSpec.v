(** Specification vocabulary for the matrix elements, independent of the model. *)
From Verif Require Import Py CBase ShapesSpec SlabSpec.
From Coquelicot Require Import Hierarchy RInt Lim_seq Rbar.
Open Scope R_scope.

(** v is the integral of the complex function f from 0 to infinity *)
Definition is_ctail (f : R -> C) (v : C) : Prop :=
  is_tail_int (fun z => fst (f z)) (fst v) /\ is_tail_int (fun z => snd (f z)) (snd v).

(** number of basis functions in the first p modes *)
Definition offset (sizes : list nat) (p : nat) : nat := list_sum (firstn p sizes).

(** The (x, y, z) components of the curl of H at height z for the slab mode with
    in-plane wave vector (kx, ky), frequency om and amplitudes (A, B) in a layer
    of permittivity e and vertical wave vector c.  TE: along the transverse
    in-plane direction (ky, -kx)/g; TM: in the plane of (kx, ky) and z.  That it
    is the curl of the field H of ft_field_xy is proved with the fields (C37). *)
Definition curl_field (te : bool) (kx ky om e : R) (c A B : C) (z : R) : C * C * C :=
  let g := sqrt (kx * kx + ky * ky) in
  if te then (Cmult (RtoC (- (om * om * e * (ky / g)))) (wave c A B z),
              Cmult (RtoC (- (om * om * e * (- kx / g)))) (wave c A B z), RtoC 0)
  else (Cmult (RtoC (kx / g)) (dwave c A B z),
        Cmult (RtoC (ky / g)) (dwave c A B z),
        Cmult (Cmult (Copp Ci) (RtoC g)) (wave c A B z)).
(** conj(F1) . F2 *)
Definition hdot (F G : C * C * C) : C :=
  let '(a, b, c) := F in let '(x, y, z) := G in
  (Cconj a * x + Cconj b * y + Cconj c * z)%C.

(** v is the integral of h over layer number il of a stack of Nl layers with
    inner thicknesses ds: heights are measured downwards from the interface in
    the lower cladding (il = 0), upwards in the upper one, and from the centre
    in an inner layer.  The weight expi (dl * z) is the trace of the code's
    regulariser; for dl = 0 it is 1. *)
Definition is_layer_int (dl : R) (il Nl : nat) (ds : list R) (h : R -> C) (v : C) : Prop :=
  if Nat.eqb il 0 then is_ctail (fun z => Cmult (h (- z)) (expi (dl * z))) v
  else if Nat.eqb il (Nl - 1) then is_ctail (fun z => Cmult (h z) (expi (dl * z))) v
  else is_CInt (fun z => Cmult (h z) (expi (dl * z))) (- nth (il - 1) ds 0 / 2) (nth (il - 1) ds 0 / 2) v.

(** every layer's inverse permittivity is Hermitian *)
Definition herm_layers (einv : nat -> cmat) : Prop := forall il i j, einv il i j = Cconj (einv il j i).

(** two modes have convergent overlap integrals in layer il: in a cladding the
    first mode has only the amplitude of its decaying wave, and each wave of the
    second one is absent or grows more slowly than the first decays; in an inner
    layer either there is no regulariser or the regularised exponents do not vanish
    (then the integral is the literal one of the code's closed form) *)
Definition layer_fit (dl : R) (il Nl : nat) (c1 A1 B1 c2 A2 B2 : C) : Prop :=
  if Nat.eqb il 0 then A1 = RtoC 0 /\ (0 < snd c1)%R /\ (A2 = RtoC 0 \/ (snd c2 < snd c1)%R) /\ (B2 = RtoC 0 \/ (- snd c2 < snd c1)%R)
  else if Nat.eqb il (Nl - 1) then B1 = RtoC 0 /\ (0 < snd c1)%R /\ (A2 = RtoC 0 \/ (- snd c2 < snd c1)%R) /\ (B2 = RtoC 0 \/ (snd c2 < snd c1)%R)
  else dl = 0%R \/ (c2 - Cconj c1 + RtoC dl <> RtoC 0 /\ - c2 + Cconj c1 + RtoC dl <> RtoC 0 /\
       - c2 - Cconj c1 + RtoC dl <> RtoC 0 /\ c2 + Cconj c1 + RtoC dl <> RtoC 0)%C.


(** The code numbers the guided modes 0, 1, 2, ...: even numbers are TE, odd
    ones TM.  A mode table lists, mode by mode, the values found for the last
    (largest) wave vectors of the common array garr. *)
Definition entry {A} (te tm : list A) (m : nat) : option A :=
  nth_error (if Nat.even m then te else tm) (m / 2).
(** the requested modes that have an entry, in the order requested *)
Definition present {A} (te tm : list A) (inds : list nat) : list nat :=
  filter (fun m => match entry te tm m with Some _ => true | None => false end) inds.
(** plane wave number i supports mode m: |G_i + k| reaches the first wave vector
    at which the mode was found *)
Definition supports {A} (gvec : list (R * R)) (k : R * R) (dgx : R) (garr : list R) (te tm : list (list R * A)) (m i : nat) : Prop :=
  (i < List.length gvec)%nat /\
  exists oms cs g0, entry te tm m = Some (oms, cs) /\ nth_error garr (List.length garr - List.length oms) = Some g0 /\
    let G := nth i gvec (0, 0) in
    g0 - / 10 ^ 10 < sqrt ((fst G + fst k + dgx) * (fst G + fst k + dgx) + (snd G + snd k) * (snd G + snd k)).

(** v is the value at x of the function that is linear between the nodes gs with
    values ys and constant outside them *)
Definition lerp (gs : list R) (ys : list C) (x : R) (v : C) : Prop :=
  let n := List.length gs in let g i := nth i gs 0 in let y i := nth i ys (RtoC 0) in
  (x <= g 0%nat -> v = y 0%nat) /\ (g (n - 1)%nat <= x -> v = y (n - 1)%nat) /\
  forall i, (S i < n)%nat -> g i <= x <= g (S i) ->
    (v * RtoC (g (S i) - g i) = y i * RtoC (g (S i) - x) + y (S i) * RtoC (x - g i))%C.
(** nodes in ascending order; equal nodes, which degenerate plane waves produce,
    carry equal values *)
Definition ascending (gs : list R) : Prop := forall i j, (i <= j < List.length gs)%nat -> nth i gs 0 <= nth j gs 0.
Definition agree (gs : list R) (ys : list C) : Prop :=
  forall i j, (i < List.length gs)%nat -> (j < List.length gs)%nat -> nth i gs 0 = nth j gs 0 -> nth i ys (RtoC 0) = nth j ys (RtoC 0).
