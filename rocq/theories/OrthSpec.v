(** Specification vocabulary for the overlap of two slab modes, independent of the model. *)
From Verif Require Import Py CBase SlabSpec MatElSpec.
From Coquelicot Require Import Hierarchy RInt.
Open Scope R_scope.

(** v is the integral of the complex function f from a to b *)
Definition is_cint (f : R -> C) (a b : R) (v : C) : Prop :=
  is_RInt (fun z => fst (f z)) a b (fst v) /\ is_RInt (fun z => snd (f z)) a b (snd v).

(** H1* . H2 for two slab modes of the same in-plane wave vector g and the same
    polarisation.  TE: the wave is E along the in-plane normal of g, H has the
    components dE/dz along g and g E along z; TM: the wave is H. *)
Definition overlap_density (te : bool) (g : R) (c1 A1 B1 c2 A2 B2 : C) (z : R) : C :=
  if te then (Cconj (dwave c1 A1 B1 z) * dwave c2 A2 B2 z + RtoC (g * g) * (Cconj (wave c1 A1 B1 z) * wave c2 A2 B2 z))%C
  else (Cconj (wave c1 A1 B1 z) * wave c2 A2 B2 z)%C.

(** v is the overlap summed over the inner layers: one thickness, two vertical
    wave vectors and two amplitude pairs per layer *)
Inductive layers_overlap (te : bool) (g : R) : list C -> list (C * C) -> list C -> list (C * C) -> list R -> C -> Prop :=
| lo_nil : layers_overlap te g [] [] [] [] [] (RtoC 0)
| lo_cons c1 A1 B1 c2 A2 B2 d cs1 ABs1 cs2 ABs2 ds v v1 :
    is_cint (overlap_density te g c1 A1 B1 c2 A2 B2) (- (d / 2)) (d / 2) v1 ->
    layers_overlap te g cs1 ABs1 cs2 ABs2 ds v ->
    layers_overlap te g (c1 :: cs1) ((A1, B1) :: ABs1) (c2 :: cs2) ((A2, B2) :: ABs2) (d :: ds) (v1 + v)%C.

(** A mode of a stack: vertical wave vector and amplitude of the lower cladding
    (only B), of the inner layers, and of the upper cladding (only A). *)
Record slab_mode := Mode { m_c0 : C; m_B0 : C; m_cs : list C; m_ABs : list (C * C); m_cl : C; m_Al : C }.

(** v is the integral of H1* . H2 over all z *)
Definition mode_overlap (te : bool) (g : R) (m1 m2 : slab_mode) (ds : list R) (v : C) : Prop :=
  exists v0 vl vi,
    is_ctail (fun z => overlap_density te g (m_c0 m1) 0 (m_B0 m1) (m_c0 m2) 0 (m_B0 m2) (- z)) v0 /\
    is_ctail (fun z => overlap_density te g (m_cl m1) (m_Al m1) 0 (m_cl m2) (m_Al m2) 0 z) vl /\
    layers_overlap te g (m_cs m1) (m_ABs m1) (m_cs m2) (m_ABs m2) ds vi /\
    v = (v0 + vl + vi)%C.
