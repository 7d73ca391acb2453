(** Vocabulary for the regulariser of the overlap integrals. *)
From Coq Require Import List String.
From Verif Require Import Py CBase SlabModel SlabSpec MatElModel MatElSpec.
Open Scope R_scope.

(** at each of its plane waves the mode decays into both claddings, with no growing
    part; Nl: number of layers with the claddings *)
Definition decays (Nl : nat) (x : gmode) : Prop := forall r, (r < List.length (md_ind x))%nat ->
  (evanescent (md_chi x 0 r) /\ md_A x 0 r = RtoC 0) /\ (evanescent (md_chi x (Nl - 1) r) /\ md_B x (Nl - 1) r = RtoC 0).
(** the modes used at one k-point do *)
Definition decaying_at (gvec : list (R * R)) (k : R * R) (dgx : R) (inds : list nat) (garr : list R) (te tm : gtable) (eps : list R) : Prop :=
  forall m x, In m (present te tm inds) -> get_guided (List.length gvec) (gk_len (gk_data gvec k dgx)) garr te tm eps m = Ok x -> decays (List.length eps) x.

(** at each node (g, w) of a mode's table the frequency is below the light lines of
    both claddings and neither cladding has a growing part *)
Definition nodes_decay (eps garr oms : list R) (cs : list (nat -> C * C)) : Prop := let N := List.length eps in
  List.length cs = List.length oms /\ (0 < List.length oms <= List.length garr)%nat /\
  forall i, (i < List.length oms)%nat -> let g := nth (List.length garr - List.length oms + i) garr 0 in let w := nth i oms 0 in
    0 <= w /\ 0 <= g /\ nth 0 eps 0 * (w * w) < g * g /\ nth (N - 1) eps 0 * (w * w) < g * g /\
    fst (nth i cs (fun _ => (RtoC 0, RtoC 0)) 0%nat) = RtoC 0 /\ snd (nth i cs (fun _ => (RtoC 0, RtoC 0)) (N - 1)%nat) = RtoC 0.
(** the plane waves that support a mode are not shorter than its first node *)
Definition reaches_node (gvec : list (R * R)) (k : R * R) (dgx : R) (garr : list R) (te tm : gtable) (m : nat) : Prop := forall i oms cs,
  supports gvec k dgx garr te tm m i -> entry te tm m = Some (oms, cs) ->
  nth (List.length garr - List.length oms) garr 0 <= gk_len (gk_data gvec k dgx) i.
(** no zero of the guided-mode condition on the light line of an inner layer; one
    layer needs no such condition *)
Definition off_lines (pol : string) (e0 el : R) (ei ds : list R) : Prop := List.length ei = 1%nat \/
  forall g w e, D22real pol g (e0 :: ei ++ [el]) ds w = 0 -> In e ei -> 0 < w -> e * (w * w) <> g * g.
