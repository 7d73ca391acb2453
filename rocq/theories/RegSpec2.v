(** Vocabulary for modes computed at every plane wave ('exact'). *)
From Coq Require Import List String.
From Verif Require Import Py CBase SlabModel RunModel RunSpec2.
Open Scope R_scope.

(** no wave vector is shorter than the smallest wave number 1/10^4 of the mode search
    and any two are equally long or further apart than its tolerance 1/10^8 *)
Definition resolved (gvec : list (R * R)) (k : R * R) (dgx : R) : Prop := forall G, In G gvec ->
  / 10 ^ 4 <= wave_len G k dgx /\ forall G', In G' gvec -> wave_len G k dgx = wave_len G' k dgx \/ / 10 ^ 8 < Rabs (wave_len G k dgx - wave_len G' k dgx).
(** the search for the modes of one polarisation that are asked for never loses a mode
    at a later node, and no amplitude in the lower cladding is 0 *)
Definition steady (root : (R -> R) -> R -> R -> R) (o : opts) (par : nat -> bool) (pol : string) (eps ds garr : list R) : Prop := forall n rs,
  (exists m, In m (o_inds o) /\ par m = true /\ n = (m / 2 + 1)%nat) -> (forall m, In m (o_inds o) -> par m = true -> (m / 2 < n)%nat) ->
  guided_modes root pol garr eps ds n (o_step o) (o_tol o) = Ok rs ->
  more_and_more rs /\ forall r co, In r rs -> In co (snd r) -> snd (hd (RtoC 0, RtoC 0) co) <> RtoC 0.
