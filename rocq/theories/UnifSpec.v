(** Vocabulary for the guided-mode expansion of an unpatterned slab, independent of the model's matrix elements. *)
From Verif Require Import Py CBase ShapesSpec SlabSpec MatElModel MatElSpec OrthSpec.
Open Scope R_scope.

(** distance from the reference point of layer il to its interfaces *)
Definition half_of (Nl : nat) (ds : list R) (il : nat) : R :=
  if Nat.eqb il 0 then 0 else if Nat.eqb il (Nl - 1) then 0 else nth (il - 1) ds 0 / 2.

(** vertical wave vectors c and amplitudes A, B, layer by layer, solve Maxwell's
    equations in the stack with frequency w and in-plane wave number g: the wave
    equation in each layer, decay in both claddings, continuity at every interface *)
Record slab_solution (te : bool) (g w : R) (eps ds : list R) (c A B : nat -> C) : Prop := {
  ss_layers : (2 <= List.length eps)%nat;
  ss_pos : forall il, (il < List.length eps)%nat -> 0 < nth il eps 0;
  ss_wave : forall il, (il < List.length eps)%nat -> (c il * c il)%C = RtoC (nth il eps 0 * (w * w) - g * g);
  ss_below : evanescent (c 0%nat) /\ A 0%nat = RtoC 0;
  ss_above : evanescent (c (List.length eps - 1)%nat) /\ B (List.length eps - 1)%nat = RtoC 0;
  ss_match : forall il, (S il < List.length eps)%nat ->
    matched te (nth il eps 0, c il, (A il, B il), half_of (List.length eps) ds il)
      (nth (S il) eps 0, c (S il), (A (S il), B (S il)), half_of (List.length eps) ds (S il)) }.

(** v is the integral of h over layer il *)
Definition over_layer (il Nl : nat) (ds : list R) (h : R -> C) (v : C) : Prop :=
  if Nat.eqb il 0 then is_ctail (fun z => h (- z)) v
  else if Nat.eqb il (Nl - 1) then is_ctail h v
  else is_CInt h (- nth (il - 1) ds 0 / 2) (nth (il - 1) ds 0 / 2) v.

(** E is the magnetic energy of the mode, the integral of |H|^2 over all layers *)
Definition is_energy (te : bool) (g : R) (Nl : nat) (ds : list R) (c A B : nat -> C) (E : R) : Prop :=
  exists v : nat -> C, (forall il, (il < Nl)%nat -> over_layer il Nl ds (overlap_density te g (c il) (A il) (B il) (c il) (A il) (B il)) (v il)) /\
    csum Nl v = RtoC E.

(** unpatterned layers: the inverse permittivity of layer il is 1/eps il, for n plane waves *)
Definition unpatterned (n : nat) (eps : list R) (einv : nat -> cmat) : Prop := forall il i j, (il < List.length eps)%nat -> (i < n)%nat -> (j < n)%nat ->
  einv il i j = if Nat.eqb i j then RtoC (/ nth il eps 0) else RtoC 0.

(** the frequency and amplitudes that mode a has at its plane wave number r solve
    the slab, at the in-plane wave number |G + k| *)
Definition solves (d : gkdata) (eps ds : list R) (a : nat * gmode) (r : nat) : Prop :=
  0 < gk_len d (md_g (snd a) r) /\ 0 < md_om (snd a) r /\
  slab_solution (Nat.even (fst a)) (gk_len d (md_g (snd a) r)) (md_om (snd a) r) eps ds
    (fun il => md_chi (snd a) il r) (fun il => md_A (snd a) il r) (fun il => md_B (snd a) il r).

(** the modes used at one k-point are guided modes of the slab, and different modes
    of the same polarisation have different frequencies *)
Definition slab_modes_at (gvec : list (R * R)) (k : R * R) (dgx : R) (inds : list nat) (garr : list R) (te tm : gtable) (eps ds : list R) : Prop :=
  let d := gk_data gvec k dgx in
  (forall m x, In m (present te tm inds) -> get_guided (List.length gvec) (gk_len d) garr te tm eps m = Ok x ->
     forall r, (r < List.length (md_ind x))%nat -> solves d eps ds (m, x) r) /\
  (forall m x m' x', In m (present te tm inds) -> In m' (present te tm inds) -> m <> m' -> Nat.even m = Nat.even m' ->
     get_guided (List.length gvec) (gk_len d) garr te tm eps m = Ok x -> get_guided (List.length gvec) (gk_len d) garr te tm eps m' = Ok x' ->
     forall r r', (r < List.length (md_ind x))%nat -> (r' < List.length (md_ind x'))%nat -> md_g x r = md_g x' r' -> md_om x r <> md_om x' r').
