(** Model of the plane-wave sets and of the permittivity matrices:
    legume/gme/gme.py:182-256 (also pwe/pwe.py:84-110 and exc/exc.py:143-217,
    which repeat the same construction), gme.py:403-521, 645-701 and
    utils.py:142-158.

    Simplifications: reals for floats (a binary64 copy of the gmax loop is in
    RecipFloat.v); gmax >= 0 (numpy.tile fails on negative repetition counts);
    a (2, N) array of vectors is a list of N pairs; matrices are functions of two
    indices; the matrix inverse is an argument. *)
From Verif Require Import Py LatticeModel CBase PhcModel.
Open Scope R_scope.
Open Scope list_scope.

(** numpy.linalg.norm of a 2-vector (gme/gme.py 187-190, 215-218) *)
Definition norm2 (v : R * R) : R := sqrt (fst v ^ 2 + snd v ^ 2).

(** np.int_(x): truncation towards zero (gme/gme.py 187-190, 215-218) *)
Definition np_int (x : R) : Z := if Rleb 0 x then Int_part x else (- Int_part (- x))%Z.

(** gme.py:187-190 and 215-218 ([c] is 2 or 4) *)
Definition nmax_for (c gmax : R) (b : R * R) : Z := np_int (c * PI * gmax / norm2 b).

(** np.arange(-n, n + 1) (gme/gme.py 196-198, 220-222) *)
Definition arange_sym (n : Z) : list Z :=
  map (fun k => (Z.of_nat k - n)%Z) (seq 0 (Z.to_nat (2 * n + 1))).

(** gme.py:196-198 / 220-222.  [np.tile(x, (m, 1)).reshape(-1, order='F')]
    repeats every entry m times; [np.tile(x, m)] repeats the whole array. *)
Definition inds1_of (n1 n2 : Z) : list Z :=
  flat_map (fun i => repeat i (Z.to_nat (2 * n2 + 1))) (arange_sym n1).
(** gme.py:198 / 222 *)
Definition inds2_of (n1 n2 : Z) : list Z :=
  List.concat (repeat (arange_sym n2) (Z.to_nat (2 * n1 + 1))).

(** gme.py:200-201 / 227-228: b1 * inds1 + b2 * inds2 *)
Definition gvec_of (b1 b2 : R * R) (is1 is2 : list Z) : list (R * R) :=
  map (fun ij => (fst b1 * IZR (fst ij) + fst b2 * IZR (snd ij),
                  snd b1 * IZR (fst ij) + snd b2 * IZR (snd ij))) (combine is1 is2).

(** the attributes set by _init_reciprocal_tbt / _abs, gme.py:203-209 and 250-256 *)
Record recip := mkRecip { rc_g : list (R * R); rc_n1 : Z; rc_n2 : Z;
                          rc_i1 : list Z; rc_i2 : list Z }.

(** gme.py:182-209  _init_reciprocal_tbt (inds1, inds2 are locals there; kept in
    the record for convenience) *)
Definition recip_tbt (L : lattice) (gmax : R) : recip :=
  let n1 := nmax_for 2 gmax (lt_b1 L) in
  let n2 := nmax_for 2 gmax (lt_b2 L) in
  let i1 := inds1_of n1 n2 in
  let i2 := inds2_of n1 n2 in
  mkRecip (gvec_of (lt_b1 L) (lt_b2 L) i1 i2) (2 * n1 + 1) (2 * n2 + 1) i1 i2.

(** [x in array] (gme/gme.py 229-252) *)
Definition r_in (x : R) (l : list R) : bool := existsb (fun y => Reqb x y) l.

(** gme.py:232-235: [while gmax * 2 * np.pi in gnorm: gmax += 1e-10].  [None]
    means the fuel ran out before the loop ended. *)
Fixpoint nudge (fuel : nat) (gnorm : list R) (gmax : R) : option R :=
  match fuel with
  | O => None
  | S f => if r_in (gmax * 2 * PI) gnorm then nudge f gnorm (gmax + 1 / 10 ^ 10) else Some gmax
  end.

(** array[mask] (gme/gme.py 229-252) *)
Definition keep {A} (mask : list bool) (l : list A) : list A := select mask l.

(** bd.max of a non-empty integer array; numpy raises ValueError on an empty
    one (gme/gme.py 253-254) *)
Definition zmax_list (l : list Z) : result Z :=
  match l with [] => Raise ValueError | x :: t => Ok (fold_left Z.max t x) end.

(** gme.py:211-256  _init_reciprocal_abs.  [None]: loop not finished. *)
Definition recip_abs (fuel : nat) (L : lattice) (gmax : R) : option (result recip) :=
  let n1 := nmax_for 4 gmax (lt_b1 L) in
  let n2 := nmax_for 4 gmax (lt_b2 L) in
  let i1 := inds1_of n1 n2 in
  let i2 := inds2_of n1 n2 in
  let gvec := gvec_of (lt_b1 L) (lt_b2 L) i1 i2 in
  let gnorm := map (fun g => sqrt (fst g ^ 2 + snd g ^ 2)) gvec in
  let finish gm :=
    let mask := map (fun x => Rleb x (2 * PI * gm)) gnorm in
    let j1 := keep mask i1 in
    let j2 := keep mask i2 in
    let* m1 := zmax_list j1 in
    let* m2 := zmax_list j2 in
    Ok (mkRecip (keep mask gvec) m1 m2 j1 j2) in
  if r_in (gmax * 2 * PI) gnorm then
    match nudge fuel gnorm gmax with
    | Some gm => Some (finish gm)
    | None => None
    end
  else Some (finish gmax).

(** ** Permittivity matrix, tbt (gme/gme.py 403-440) *)

Definition vsub (u v : R * R) : R * R := (fst u - fst v, snd u - snd v).
(** self.gvec[:, i], gme.py:412-419 *)
Definition nthg (gs : list (R * R)) (i : nat) : R * R := nth i gs (0, 0).

(** gme.py:408-419: the two lists of differences.  G1 = -g + g[0]; block number
    ind1 of G2 is -g[ind1*n2] + g[0:n2]. *)
Definition G1_of (gs : list (R * R)) : list (R * R) := map (fun g => vsub (nthg gs 0) g) gs.
(** gme.py:413-419 *)
Definition G2_of (gs : list (R * R)) (n1 n2 : nat) : list (R * R) :=
  flat_map (fun a => map (fun p => vsub (nthg gs p) (nthg gs (a * n2))) (seq 0 n2)) (seq 0 n1).

(** gme.py:427-436: drop the imaginary part when it is relatively tiny *)
Definition amax (l : list R) : R := fold_right (fun x m => Rmax (Rabs x) m) 0 l.
(** gme.py:427-436, one of T1 and T2 *)
Definition snap (T : list C) : list C :=
  if Rltb (amax (map snd T)) (1 / 10 ^ 10 * amax (map fst T))
  then map (fun z => RtoC (fst z)) T else T.

(** scipy.linalg.toeplitz(c, r) at (p, q) (utils.py 142-158) *)
Definition toeplitz (c r : list C) (p q : nat) : C :=
  if Nat.leb q p then nth (p - q) c (RtoC 0) else nth (q - p) r (RtoC 0).

(** l[a:b] (utils.py 142-158; gme/gme.py 403-440) *)
Definition slice {A} (a b : nat) (l : list A) : list A := firstn (b - a) (skipn a l).

(** utils.py:142-158  toeplitz_block(n, T1, T2).  The double loop fills disjoint
    blocks, so entry (i, j) is written in the round ind1 = i/p, ind2 = j/p, and
    only if ind1 <= ind2. *)
Definition tmat (n : nat) (T1 T2 : list C) : cmat := fun i j =>
  let p := (List.length T1 / n)%nat in
  let ind1 := (i / p)%nat in
  let ind2 := (j / p)%nat in
  if (Nat.leb ind1 ind2 && Nat.ltb ind2 n)%bool then
    let toep1 := slice ((ind2 - ind1) * p) ((ind2 - ind1 + 1) * p) T1 in
    let toep2 := slice ((ind2 - ind1) * p) ((ind2 - ind1 + 1) * p) T2 in
    toeplitz toep2 toep1 (i mod p) (j mod p)
  else RtoC 0.
(** utils.py:142-158 *)
Definition toeplitz_block (n : nat) (T1 T2 : list C) : cmat := fun i j =>
  let M := tmat n T1 T2 in
  Cplus (if Nat.leb i j then M i j else RtoC 0)
        (Cconj (if Nat.ltb j i then M j i else RtoC 0)).

(** gme.py:403-440  _compute_ft_tbt for one layer whose compute_ft is [ft] *)
Definition T1_tbt (ft : R * R -> C) (rc : recip) : list C := snap (map ft (G1_of (rc_g rc))).
(** T2 of gme.py:424 and 432-436 *)
Definition T2_tbt (ft : R * R -> C) (rc : recip) : list C :=
  snap (map ft (G2_of (rc_g rc) (Z.to_nat (rc_n1 rc)) (Z.to_nat (rc_n2 rc)))).

(** gme.py:665: the matrix that is inverted *)
Definition eps_mat_tbt (ft : R * R -> C) (rc : recip) : cmat :=
  toeplitz_block (Z.to_nat (rc_n1 rc)) (T1_tbt ft rc) (T2_tbt ft rc).
(** gme.py:664-666: when only_gmodes is off *)
Definition hom_tbt (T1 : list C) : bool := Rltb (rsuml (map Cmod (tl T1))) (1 / 10 ^ 10).
(** gme.py:658-667: the stored inverse; [inv] is bd.inv *)
Definition eps_inv_tbt (inv : nat -> cmat -> cmat) (only_gmodes : bool) (ft : R * R -> C) (rc : recip) : cmat :=
  let T1 := T1_tbt ft rc in
  if orb (hom_tbt T1) only_gmodes
  then fun i j => Cdiv (if Nat.eqb i j then RtoC 1 else RtoC 0) (nth 0 T1 (RtoC 0))
  else inv (List.length T1) (eps_mat_tbt ft rc).

(** ** Permittivity matrix, abs *)

(** x[np.newaxis, :] - x[:, np.newaxis], flattened: entry i*N + j is x_j - x_i (gme/gme.py 448-463) *)
Definition zz_sub (u v : Z * Z) : Z * Z := ((fst u - fst v)%Z, (snd u - snd v)%Z).
(** gme.py:450-453 and 459-462 *)
Definition grid_diff {A} (sub : A -> A -> A) (l : list A) : list A :=
  flat_map (fun xi => map (fun xj => sub xj xi) l) l.

(** numpy.unique(a, axis=1, return_inverse=True): the distinct columns in
    lexicographic order, and for each column its position among them (gme/gme.py 468) *)
Definition zz_ltb (u v : Z * Z) : bool :=
  orb (Z.ltb (fst u) (fst v)) (andb (Z.eqb (fst u) (fst v)) (Z.ltb (snd u) (snd v))).
(** equality of two integer pairs, as np.unique compares columns (gme.py:468) *)
Definition zz_eqb (u v : Z * Z) : bool := andb (Z.eqb (fst u) (fst v)) (Z.eqb (snd u) (snd v)).
(** np.unique, insertion into the sorted list (gme/gme.py 468) *)
Fixpoint ins_unique (x : Z * Z) (l : list (Z * Z)) : list (Z * Z) :=
  match l with
  | [] => [x]
  | y :: t => if zz_eqb x y then l else if zz_ltb x y then x :: l else y :: ins_unique x t
  end.
(** the first result of np.unique (gme/gme.py 468) *)
Definition np_unique (l : list (Z * Z)) : list (Z * Z) := fold_right ins_unique [] l.
(** an entry of the second result of np.unique (return_inverse) (gme/gme.py 468) *)
Fixpoint pos_of (x : Z * Z) (l : list (Z * Z)) : nat :=
  match l with [] => 0 | y :: t => if zz_eqb x y then 0 else S (pos_of x t) end.

(** self.G1_unique, gme.py:459-480 and 487: the distinct differences of the index
    pairs, as vectors *)
Definition G1_unique (L : lattice) (rc : recip) : list (R * R) :=
  let uniq := np_unique (grid_diff zz_sub (combine (rc_i1 rc) (rc_i2 rc))) in
  gvec_of (lt_b1 L) (lt_b2 L) (map fst uniq) (map snd uniq).
(** self.T1_unique of one layer, gme.py:476 and 512-518: the transform on the first
    half, its conjugate on the second *)
Definition T1_unique (L : lattice) (ft : R * R -> C) (rc : recip) : list C :=
  let num := List.length (np_unique (grid_diff zz_sub (combine (rc_i1 rc) (rc_i2 rc)))) in
  let pos := map ft (slice 0 ((num - 1) / 2 + 1) (G1_unique L rc)) in
  pos ++ map Cconj (rev (removelast pos)).
(** gme.py:442-521  _compute_ft_abs for one layer: T1 as a flat list *)
Definition T1_abs (L : lattice) (ft : R * R -> C) (rc : recip) : list C :=
  let grid := grid_diff zz_sub (combine (rc_i1 rc) (rc_i2 rc)) in
  let inverse := map (fun x => pos_of x (np_unique grid)) grid in
  map (fun k => nth k (T1_unique L ft rc) (RtoC 0)) inverse.
(** self.G1, gme.py:450-456 *)
Definition G1_abs (rc : recip) : list (R * R) := grid_diff vsub (rc_g rc).

(** gme.py:673-701 *)
Definition eps_mat_abs (L : lattice) (ft : R * R -> C) (rc : recip) : cmat := fun i j =>
  nth (i * List.length (rc_g rc) + j) (T1_abs L ft rc) (RtoC 0).
(** T1[mod_G1 > 1e-10], gme.py:686-687 *)
Definition hom_abs (G1 : list (R * R)) (T1 : list C) : bool :=
  Rltb (rsuml (map Cmod (keep (map (fun g => Rltb (1 / 10 ^ 10) (norm2 g)) G1) T1))) (1 / 10 ^ 10).
(** np.argmin: index of the first smallest entry (gme/gme.py 682) *)
Fixpoint argmin_from (best : R) (besti i : nat) (l : list R) : nat :=
  match l with
  | [] => besti
  | x :: t => if Rltb x best then argmin_from x i (S i) t else argmin_from best besti (S i) t
  end.
(** np.argmin, gme.py:682 *)
Definition argmin (l : list R) : nat := match l with [] => 0 | x :: t => argmin_from x 0 1 t end.
(** gme.py:668-701 for one layer *)
Definition eps_inv_abs (inv : nat -> cmat -> cmat) (only_gmodes : bool) (L : lattice)
    (ft : R * R -> C) (rc : recip) : cmat :=
  let T1 := T1_abs L ft rc in
  let G1 := G1_abs rc in
  if orb (hom_abs G1 T1) only_gmodes
  then fun i j => Cdiv (if Nat.eqb i j then RtoC 1 else RtoC 0) (nth (argmin (map norm2 G1)) T1 (RtoC 0))
  else inv (List.length (rc_g rc)) (eps_mat_abs L ft rc).
