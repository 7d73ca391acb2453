(** What a wrong argument should lead to (C125), stated without the models'
    control flow. *)
From Verif Require Import Py CBase LatticeModel PhcModel PhcSpec RunModel.
Open Scope R_scope.

(** The edits of a crystal that are refused, and how: add_layer with a type that
    is not known or cannot be built, add_qw outside the stack, add_shape with a
    cladding or a layer that does not exist, with something that is neither a
    shape nor a list, or with a list holding something that is not a shape. *)
Inductive edit_error (P : phc) : op -> exn -> Prop :=
| EE_type d e ty : lower ty <> "shapes"%string -> lower ty <> "freeform"%string -> edit_error P (OpLayer d e ty) ValueError
| EE_freeform d e ty : lower ty = "freeform"%string -> edit_error P (OpLayer d e ty) TypeError
| EE_well q : ~ (ly_zmax (pc_clad_l P) < qw_z q < ly_zmin (pc_clad_u P)) -> edit_error P (OpQW q) ValueError
| EE_clad_name s a li : s <> "l"%string -> s <> "u"%string -> edit_error P (OpShape a li (CladStr s)) ValueError
| EE_clad_number n a li : n <> 0%Z -> n <> 1%Z -> edit_error P (OpShape a li (CladInt n)) ValueError
| EE_above a li : (Z.of_nat (List.length (pc_layers P)) <= li)%Z -> edit_error P (OpShape a li CladNone) ValueError
| EE_below a li : (li < - Z.of_nat (List.length (pc_layers P)))%Z -> edit_error P (OpShape a li CladNone) IndexError
| EE_no_list li c pos : target_pos (List.length (pc_layers P)) li c = Some pos ->
    edit_error P (OpShape ShNotIterable li c) TypeError
| EE_no_shape li c pos l : target_pos (List.length (pc_layers P)) li c = Some pos -> In None l ->
    edit_error P (OpShape (ShMany l) li c) ValueError.

(** Options of [run] that are refused before anything is computed. *)
Inductive bad_options (d : dev) (o : opts) (angles : list R) : Prop :=
| BO_symmetry y : o_symm o = Some y -> lower y <> "odd"%string -> lower y <> "even"%string -> lower y <> "both"%string ->
    bad_options d o angles
| BO_angles y : o_symm o = Some y -> angles = [] -> bad_options d o angles
| BO_only : dv_tbt d = true -> o_only o = true -> bad_options d o angles
| BO_eps : o_epseff o <> "average"%string -> o_epseff o <> "background"%string -> o_epseff o <> "custom"%string ->
    bad_options d o angles
| BO_custom : o_epseff o = "custom"%string -> dv_custom d = None -> bad_options d o angles.

(** The results a user can read off the object. *)
Definition results (s : gst) := (g_freqs s, g_im s, g_ub s, g_rad s, g_vecs s, g_symms s).
