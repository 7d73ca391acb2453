(** Vocabulary: pictures of the permittivity of a periodic crystal. *)
From Coq Require Import List.
From Verif Require Import Py CBase LatticeModel LatticeSpec PhcModel PhcSpec VizModel VizSpec.
Open Scope R_scope.
Open Scope list_scope.

(** The picture im of n columns and m rows, with entries a, shows the crystal in the plane
    parametrised by [pt] with its shapes repeated over the whole lattice, for each
    layer whose shapes are within r of the origin. *)
Definition shows_repeated (P : phc) (r : R) (pt : R * R -> R * R * R) (n m : nat) (a : list (list R)) (im : image) : Prop :=
  forall i j, (i < n)%nat -> (j < m)%nat -> exists u v e, entry a j i = Some e /\ pixel_has im n m i j u v /\
  forall ly, In ly (pc_layers P ++ [pc_clad_l P; pc_clad_u P]) -> ly_zmin ly <= snd (pt (u, v)) < ly_zmax ly ->
    (forall s, In s (ly_shapes ly) -> forall x y, sh_inside s x y = true -> Rsqr x + Rsqr y <= Rsqr r) ->
    last_wins (fun s => covers_any (pc_lattice P) s (fst (pt (u, v)))) (ly_epsb ly) (ly_shapes ly) e.
