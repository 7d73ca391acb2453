(** Vocabulary for the structure properties, independent of the model's helpers. *)
From Verif Require Import Py LatticeModel CBase PhcModel.
Open Scope R_scope.

(** The thicknesses of the layers a history successfully creates, in order. *)
Fixpoint thicknesses (l : list op) : list R :=
  match l with
  | [] => []
  | OpLayer d _ ty :: t =>
      if String.eqb (lower ty) "shapes" then d :: thicknesses t else thicknesses t
  | _ :: t => thicknesses t
  end.

Fixpoint total (l : list R) : R := match l with [] => 0 | x :: t => x + total t end.

(** Their background permittivities, in the same order. *)
Fixpoint backgrounds (l : list op) : list R :=
  match l with
  | [] => []
  | OpLayer _ e ty :: t =>
      if String.eqb (lower ty) "shapes" then e :: backgrounds t else backgrounds t
  | _ :: t => backgrounds t
  end.
(** The quantum wells a history puts strictly inside the stack, whose height is
    h at the start; in order. *)
Fixpoint wells (h : R) (l : list op) : list qw :=
  match l with
  | [] => []
  | OpLayer d _ ty :: t =>
      if String.eqb (lower ty) "shapes" then wells (h + d) t else wells h t
  | OpQW q :: t =>
      if Rlt_dec 0 (qw_z q) then (if Rlt_dec (qw_z q) h then q :: wells h t else wells h t)
      else wells h t
  | _ :: t => wells h t
  end.

(** Region number i of the list "layers, lower cladding, upper cladding"
    contains height z: bottom included, top excluded. *)
Definition region_has (P : phc) (i : nat) (z : R) : Prop :=
  exists ly, nth_error (pc_layers P ++ [pc_clad_l P; pc_clad_u P]) i = Some ly /\
             ly_zmin ly <= z < ly_zmax ly.

(** The same test on a query point (x, y, z), as a boolean for [filter]. *)
Definition in_height (ly : layer) (p : R * R * R) : bool :=
  if Rle_dec (ly_zmin ly) (snd p) then
    (if Rlt_dec (snd p) (ly_zmax ly) then true else false) else false.

(** The layer that a look-up index denotes: 0 lower cladding, N+1 upper. *)
Definition lind_layer (P : phc) (i : nat) : option layer :=
  nth_error (pc_clad_l P :: pc_layers P ++ [pc_clad_u P]) i.

(** Sum over a list of complex values. *)
Definition clsum (l : list C) : C := fold_right Cplus (RtoC 0) l.

(** Some image of shape s within N periods covers p. *)
Definition covers (L : lattice) (N : Z) (s : shape) (p : R * R) : Prop :=
  exists n1 n2 : Z, (- N <= n1 <= N)%Z /\ (- N <= n2 <= N)%Z /\
    sh_inside s (fst p + IZR n1 * fst (lt_a1 L) + IZR n2 * fst (lt_a2 L))
                (snd p + IZR n1 * snd (lt_a1 L) + IZR n2 * snd (lt_a2 L)) = true.
(** Some image of s, at any lattice translation, covers p. *)
Definition covers_any (L : lattice) (s : shape) (p : R * R) : Prop :=
  exists N, covers L N s p.

(** v is the permittivity of the last shape satisfying [cov], or [e] if none. *)
Definition last_wins (cov : shape -> Prop) (e : R) (shapes : list shape) (v : R) : Prop :=
  (exists pre s post, shapes = pre ++ s :: post /\ cov s /\ v = sh_eps s /\
      forall t, In t post -> ~ cov t) \/
  (v = e /\ forall t, In t shapes -> ~ cov t).

(** The permittivities present in a structure. *)
Definition present (P : phc) (e : R) : Prop :=
  exists ly, (In ly (pc_layers P) \/ ly = pc_clad_l P \/ ly = pc_clad_u P) /\
    (e = ly_epsb ly \/ exists s, In s (ly_shapes ly) /\ e = sh_eps s).

(** Position addressed by add_shape's [layer] and [cladding] arguments:
    None - rejected; otherwise a position in layers ++ [lower; upper]. *)
Definition target_pos (N : nat) (li : Z) (c : clad_arg) : option nat :=
  match c with
  | CladInt 0 => Some N
  | CladInt 1 => Some (S N)
  | CladStr s => if String.eqb s "l" then Some N else if String.eqb s "u" then Some (S N) else None
  | CladInt _ => None
  | CladNone =>
      if (li <? - Z.of_nat N)%Z then None else if (Z.of_nat N <=? li)%Z then None
      else Some (Z.to_nat (if (li <? 0)%Z then li + Z.of_nat N else li))
  end.

(** The values that [add_shape] could be given for a list of shapes [ss]. *)
Definition holds_shapes (a : shapes_arg) (ss : list shape) : Prop :=
  a = ShMany (map Some ss) \/ exists s, a = ShOne s /\ ss = [s].

(** Area-weighted mean permittivity of a background [eb] and shapes [ss]. *)
Definition mean_eps (area eb : R) (ss : list shape) : R :=
  eb + total (map (fun s => (sh_eps s - eb) * (sh_area s / area)) ss).

(** All regions of a crystal. *)
Definition region_of (P : phc) (ly : layer) : Prop :=
  In ly (pc_layers P) \/ ly = pc_clad_l P \/ ly = pc_clad_u P.

(** The zero reciprocal vector, up to the code's tolerance. *)
Definition is_g0 (g : R * R) : Prop := Rabs (fst g) + Rabs (snd g) < / 10 ^ 10.

(** A disc (membership as in shapes.py:102-104), with an arbitrary transform. *)
Definition disc (ft : R * R -> C) (eps xc yc r : R) : shape :=
  mkShape eps (PI * r * r)
    (fun x y => if Rle_dec (Rsqr (x - xc) + Rsqr (y - yc)) (Rsqr r) then true else false) ft.

(** The shape lies strictly within one period of the origin along both axes
    of an orthogonal lattice. *)
Definition within_one_period (L : lattice) (s : shape) : Prop :=
  forall x y, sh_inside s x y = true ->
    Rabs (x * fst (lt_a1 L) + y * snd (lt_a1 L)) < Rsqr (fst (lt_a1 L)) + Rsqr (snd (lt_a1 L)) /\
    Rabs (x * fst (lt_a2 L) + y * snd (lt_a2 L)) < Rsqr (fst (lt_a2 L)) + Rsqr (snd (lt_a2 L)).
