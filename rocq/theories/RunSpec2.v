(** Specification vocabulary for the mode tables of a band computation: the grid
    of in-plane wave numbers, and the rows of the table.  Independent of the
    functions that fill them. *)
From Coq Require Import Permutation.
From Verif Require Import Py CBase PhcModel SlabModel MatElModel RunModel RunSpec.
Open Scope R_scope.
Open Scope list_scope.

(** |G + k|, with k_x moved by the small delta_gx *)
Definition wave_len (G k : R * R) (dgx : R) : R :=
  sqrt ((fst G + fst k + dgx) * (fst G + fst k + dgx) + (snd G + snd k) * (snd G + snd k)).

(** garr is l with every node but the last lowered by delta *)
Definition lowered (delta : R) (l garr : list R) : Prop :=
  List.length garr = List.length l /\
  forall i, (i < List.length l)%nat -> nth i garr 0 = if Nat.eqb (i + 1) (List.length l) then nth i l 0 else nth i l 0 - delta.

(** n equally spaced nodes from 0 to b *)
Definition spaced (b : R) (n : nat) (l : list R) : Prop :=
  List.length l = n /\ nth 0 l 0 = 0 /\ ((2 <= n)%nat -> nth (n - 1) l 0 = b) /\
  forall i, (i + 2 < n)%nat -> nth (i + 2) l 0 - nth (i + 1) l 0 = nth (i + 1) l 0 - nth i l 0.

Definition is_largest (b : R) (l : list (R * R)) : Prop :=
  (exists p, In p l /\ b = wave_len (0, 0) p 0) /\ forall p, In p l -> wave_len (0, 0) p 0 <= b.

(** the nodes at which the modes are computed for the k-point k of ks *)
Definition grid_for (o : opts) (gvec ks : list (R * R)) (k : R * R) (garr : list R) : Prop :=
  (lower (o_compute o) = "exact"%string /\ exists l,
     Permutation l (map (fun G => wave_len G k (o_dgx o)) gvec) /\ ascending l /\ lowered (o_dgabs o) l garr) \/
  (lower (o_compute o) = "interp"%string /\ exists l bG bk,
     is_largest bG gvec /\ is_largest bk ks /\ spaced (bG + bk) (o_npts o) l /\ lowered (o_dgabs o) l garr).

(** rs holds, per node, the frequencies and the per-layer amplitudes of the modes
    found there; row m of the table lists mode m over the nodes that have one *)
Definition mth {A} (m : nat) (l : list A) : list A := firstn 1 (skipn m l).
Definition tabulates (rs : list (list R * list (list (C * C)))) (tab : gtable) : Prop :=
  forall m, match nth_error tab m with
  | None => forall r, In r rs -> (List.length (fst r) <= m)%nat
  | Some (oms, cs) => (exists r, In r rs /\ (m < List.length (fst r))%nat) /\
      oms = List.concat (map (fun r => mth m (fst r)) rs) /\ List.length cs = List.length oms /\
      forall j il, (j < List.length cs)%nat ->
        nth j cs (fun _ => (RtoC 0, RtoC 0)) il = nth il (nth j (List.concat (map (fun r => mth m (snd r)) rs)) []) (RtoC 0, RtoC 0)
  end.

(** the table of one polarisation: empty when none of its modes is asked for;
    otherwise the search is for as many modes as the highest one asked for *)
Definition table_for (root : (R -> R) -> R -> R -> R) (o : opts) (par : nat -> bool) (pol : string) (eps ds garr : list R) (tab : gtable) : Prop :=
  ((forall m, In m (o_inds o) -> par m = false) /\ tab = []) \/
  exists n rs, (exists m, In m (o_inds o) /\ par m = true /\ n = (m / 2 + 1)%nat) /\
    (forall m, In m (o_inds o) -> par m = true -> (m / 2 < n)%nat) /\
    guided_modes root pol garr eps ds n (o_step o) (o_tol o) = Ok rs /\ List.length rs = List.length garr /\ tabulates rs tab.

(** effective permittivities of lower cladding, layers, upper cladding *)
Definition eps_for (d : dev) (o : opts) (eps : list R) : Prop :=
  let of f := f (pc_clad_l (dv_phc d)) :: map f (pc_layers (dv_phc d)) ++ [f (pc_clad_u (dv_phc d))] in
  (o_epseff o = "average"%string /\ eps = of ly_epsavg) \/ (o_epseff o = "background"%string /\ eps = of ly_epsb) \/
  (o_epseff o = "custom"%string /\ dv_custom d = Some eps).

(** never fewer modes at a later node *)
Definition more_and_more {A B} (rs : list (list A * B)) : Prop :=
  forall i j, (i <= j < List.length rs)%nat -> (List.length (nth i (map fst rs) []) <= List.length (nth j (map fst rs) []))%nat.
