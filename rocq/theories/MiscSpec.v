(** Specification vocabulary for the small parts: written without the helpers of
    MiscModel. *)
From Verif Require Import Py CBase LatticeModel PhcModel ShapesModel MiscModel.
Open Scope R_scope.
Open Scope list_scope.

(** ** Switches *)
(** after the calls [l] the active choice is that of the last name that denotes
    one, and the initial one when no name does *)
Definition last_choice {B} (named : string -> option B) (init : B) (l : list string) (b : B) : Prop :=
  (exists l1 n l2, l = l1 ++ n :: l2 /\ named n = Some b /\ Forall (fun m => named m = None) l2) \/
  (Forall (fun m => named m = None) l /\ b = init).
Definition named_backend (autograd_installed : bool) (n : string) : option backend :=
  if string_dec n "numpy" then Some BNumpy
  else if string_dec n "autograd" then if autograd_installed then Some BAutograd else None else None.
Definition named_print (rich_installed : bool) (n : string) : option print_backend :=
  if string_dec n "base" then Some PBase
  else if string_dec n "rich" then if rich_installed then Some PRich else None else None.
(** one call *)
Definition switches {B} (named : string -> option B) (f : B -> string -> B * result unit) : Prop :=
  forall cur n, match named n with Some b => f cur n = (b, Ok tt) | None => f cur n = (cur, Raise ValueError) end.

(** ** Progress bar *)
Definition full_block : Z := 9608.   (* U+2588 *)
Definition dash : Z := 45.
Definition blocks (bar : list Z) : nat := count_occ Z.eq_dec bar full_block.
Definition dashes (bar : list Z) : nat := count_occ Z.eq_dec bar dash.
(** a rounding of real numbers to floats *)
Definition rounding (rnd : R -> R) (exact : list Z) : Prop :=
  (forall x y, x <= y -> rnd x <= rnd y) /\ (forall z, In z exact -> rnd (IZR z) = IZR z).

(** ** Scattering: amplitudes of the waves going in from the left and from the
    right and of those coming out *)
Definition scatters (s : nat -> nat -> C) (in_l in_r out_l out_r : C) : Prop :=
  (out_l = s 0%nat 0%nat * in_l + s 0%nat 1%nat * in_r /\ out_r = s 1%nat 0%nat * in_l + s 1%nat 1%nat * in_r)%C.
(** A to the left of B, with some waves [p] (to the left) and [q] (to the right)
    between them *)
Definition in_series (a b : nat -> nat -> C) (in_l in_r out_l out_r : C) : Prop :=
  exists p q, scatters a in_l p out_l q /\ scatters b q in_r p out_r.
Definition same2 (a b : nat -> nat -> C) : Prop := forall i j, (i < 2)%nat -> (j < 2)%nat -> a i j = b i j.
(** empty space: what goes in on one side comes out on the other *)
Definition empty_space (i j : nat) : C := if Nat.eqb i j then RtoC 0 else RtoC 1.
Definition det1 (a b : nat -> nat -> C) : C := (RtoC 1 - b 0%nat 0%nat * a 1%nat 1%nat)%C.

(** ** Differentiation *)
Definition sum_to (n : nat) (f : nat -> R) : R := rsuml (map f (seq 0 n)).
Definition is_affine (n : nat) (shape : list nat) (fn : nd -> R) (c : R) (w : nat -> R) : Prop :=
  forall a, nd_shape a = shape -> List.length (nd_data a) = n -> fn a = c + sum_to n (fun i => w i * nth i (nd_data a) 0).
Definition is_quadratic (n : nat) (shape : list nat) (fn : nd -> R) (c : R) (w : nat -> R) (q : nat -> nat -> R) : Prop :=
  forall a, nd_shape a = shape -> List.length (nd_data a) = n -> fn a =
    c + sum_to n (fun i => w i * nth i (nd_data a) 0) + sum_to n (fun i => sum_to n (fun j => q i j * nth i (nd_data a) 0 * nth j (nd_data a) 0)).
(** the steps a step argument stands for: one number for all, or one each *)
Inductive step_sizes (n : nat) : step_arg -> (nat -> R) -> Prop :=
| SsFloat h : step_sizes n (StFloat h) (fun _ => h)
| SsArray l : List.length l = n -> step_sizes n (StArray l) (fun i => nth i l 0).

(** entry i of l replaced by x; increased by x *)
Definition replaced {A} (l : list A) (i : nat) (x : A) : list A := firstn i l ++ x :: skipn (S i) l.
Definition entry_plus (l : list R) (i : nat) (x : R) : list R := replaced l i (nth i l 0 + x).
(** fn along entry i of the float array a *)
Definition along (fn : nd -> R) (a : nd) (i : nat) (t : R) : R := fn (Nd (nd_shape a) false (entry_plus (nd_data a) i t)).
(** output o of fn along entry i of argument ai *)
Definition along_out (fn : list nd -> list R) (args : list nd) (ai : nat) (a : nd) (i o : nat) (t : R) : R :=
  nth o (fn (replaced args ai (Nd (nd_shape a) false (entry_plus (nd_data a) i t)))) 0.
(** the number of outputs does not depend on the entries *)
Definition outputs (fn : list nd -> list R) (args : list nd) (ai : nat) (a : nd) (m : nat) : Prop :=
  forall i t, List.length (fn (replaced args ai (Nd (nd_shape a) false (entry_plus (nd_data a) i t)))) = m.

(** ** GDS *)
(** the element drawn for a shape of layer [i]: the closed outline without its
    closing point, or the disc *)
Definition drawn (tol : R) (i : nat) (s : gshape) (e : element) : Prop :=
  match s, e with
  | GPoly _ P, ElPolygon pts l _ => l = i /\ exists p, po_pts P = pts ++ [p]
  | GCircle _ x y r, ElRound c r' l _ t => l = i /\ c = (x, y) /\ r' = r /\ t = tol
  | _, _ => False
  end.
Definition exportable (s : gshape) : Prop :=
  match s with GPoly (KPoly | KSquare | KHexagon) _ | GCircle _ _ _ _ => True | _ => False end.
(** the outline of a polygon has at least its closing point *)
Definition has_points (s : gshape) : Prop := match s with GPoly _ P => po_pts P <> [] | _ => True end.
Definition polygonal (s : gshape) : Prop := match s with GPoly _ _ => True | _ => False end.
(** all shapes with their layer numbers *)
Fixpoint numbered {A} (i : nat) (layers : list (list A)) : list (nat * A) :=
  match layers with [] => [] | ly :: t => map (fun s => (i, s)) ly ++ numbered (S i) t end.
Definition only_changed (fs fs' : string -> option gds_file) (name : string) : Prop := forall n, n <> name -> fs' n = fs n.
(** a polygon of the class, built by its constructor *)
Inductive built : poly_class -> poly -> Prop :=
| BPoly eps xs ys P : poly_init eps xs ys = Ok P -> built KPoly P
| BSquare eps x y a P : square_init eps x y a = Ok P -> built KSquare P
| BHexagon eps x y a P : hexagon_init eps x y a = Ok P -> built KHexagon P
| BFourier eps x y fa fb n P : fourier_init eps x y fa fb n = Ok P -> built KFourier P.
Definition in_cell (L : lattice) (p : R * R) : Prop :=
  exists u v, Rabs u <= 1 / 2 /\ Rabs v <= 1 / 2 /\ fst p = fst (lt_a1 L) * u + fst (lt_a2 L) * v /\ snd p = snd (lt_a1 L) * u + snd (lt_a2 L) * v.

(** ** Paths and light lines *)
Definition dist (p q : R * R) : R := sqrt ((fst q - fst p) ^ 2 + (snd q - snd p) ^ 2).
(** length of the path from its first point to point [i] *)
Definition travelled (ks : list (R * R)) (i : nat) : R := sum_to i (fun j => dist (nth j ks (0, 0)) (nth (S j) ks (0, 0))).
(** a plane wave of in-plane wave vector k propagates in a medium eps at
    frequency w (in units of 2 pi c / a) *)
Definition propagates (eps : R) (k : R * R) (w : R) : Prop := (fst k) ^ 2 + (snd k) ^ 2 <= eps * (2 * PI * w) ^ 2.
Definition radiates (P : phc) (k : R * R) (w : R) : Prop := propagates (ly_epsavg (pc_clad_l P)) k w \/ propagates (ly_epsavg (pc_clad_u P)) k w.

(** ** Getters *)
Definition is_empty (v : pyval) : Prop := v = VEmptyList \/ v = VEmptyDict.
Definition result_attr (s : solver) (name : string) : Prop := name <> "gvec"%string /\ In name (map fst (getters s)).
Definition solver_is_gme (s : solver) : bool := match s with Gme => true | _ => false end.
Definition only_reads (l : list use) : Prop := Forall (fun u => match u with Read _ => True | Run _ => False end) l.
