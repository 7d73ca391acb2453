(** Model of the separation into even and odd modes with respect to a vertical
    plane: gme.py _ind_g (258-270), _construct_sym_mat (272-282),
    _separate_hamiltonian_dense (1231-1360), _separate_hamiltonian_sparse
    (1362-1523) and _calculate_refl_mat (1525-1586), with the angle tables of
    __init__ (67-70).
    Simplifications: reals for floats; the dictionary of reflection matrices is
    keyed by the angle itself instead of its decimal string; a change-of-basis
    matrix is a function of two indices; timing calls are left out. *)
From Verif Require Import Py CBase LatticeModel MatElModel.
Open Scope R_scope.
Open Scope list_scope.

(** a 2x2 matrix as its two rows *)
Notation mat2 := ((R * R) * (R * R))%type (only parsing).
(** bd.matmul(symm_mat, g), gme.py:1280 *)
Definition app2 (m : mat2) (g : R * R) : R * R :=
  (fst (fst m) * fst g + snd (fst m) * snd g, fst (snd m) * fst g + snd (snd m) * snd g).

(** gme.py:272-282  _construct_sym_mat *)
Definition sym_mat (theta : R) : mat2 :=
  ((cos (2 * theta * PI / 180), sin (2 * theta * PI / 180)),
   (sin (2 * theta * PI / 180), - cos (2 * theta * PI / 180))).

(** np.round(x, 8): x * 10^8 rounded to the nearest integer, ties to even,
    divided by 10^8 (gme/gme.py 1545, 1558, 1571) *)
Definition rint (x : R) : Z :=
  let n := Int_part x in
  if Rltb (x - IZR n) (1 / 2) then n
  else if Rltb (1 / 2) (x - IZR n) then (n + 1)%Z
  else if Z.even n then n else (n + 1)%Z.
(** np.round(., 8), gme.py:272-282 *)
Definition round8 (x : R) : R := IZR (rint (x * 10 ^ 8)) / 10 ^ 8.

(** gme.py:67-70: the tables np.arange(-360, ..., step), 17, 25 and 9 entries up
    to 360 *)
Definition an_table (n : nat) (step : Z) : list R :=
  map (fun i => IZR (-360 + step * Z.of_nat i)) (seq 0 n).
(** gme.py:68 *)
Definition square_an : list R := an_table 17 45.
(** gme.py:69 *)
Definition hex_an : list R := an_table 25 30.
(** gme.py:70 *)
Definition rec_an : list R := an_table 9 90.
(** angle in table, gme.py:1525-1586 *)
Definition r_mem (x : R) (l : list R) : bool := existsb (Reqb x) l.

(** set(angles): the distinct angles (gme/gme.py 1552, 1565, 1578) *)
Fixpoint r_set (l : list R) : list R :=
  match l with [] => [] | a :: t => if r_mem a t then r_set t else a :: r_set t end.

(** gme.py:1525-1586  _calculate_refl_mat *)
Definition refl_mats (ty : lat_type) (angles : list R) : result (list (R * mat2)) :=
  let build tab :=
    if forallb (fun a => r_mem (round8 a) tab) angles
    then Ok (map (fun a => (a, sym_mat a)) (r_set angles))
    else Raise ValueError in
  match ty with
  | LSquare => build square_an
  | LHexagonal => build hex_an
  | LRectangular => build rec_an
  | LCustom => Raise ValueError
  end.
(** refl_mat[str(angle)], gme.py:1017 *)
Fixpoint dict_get {A} (a : R) (d : list (R * A)) : result A :=
  match d with [] => Raise KeyError | (b, m) :: t => if Reqb a b then Ok m else dict_get a t end.

(** gme.py:258-270  _ind_g, with thr = 1e-7 *)
Definition thr_g : R := 1 / 10 ^ 7.
(** the comparison of gme.py:258-265 *)
Definition near_b (g h : R * R) : bool :=
  Rltb (Rabs (fst h - fst g)) thr_g && Rltb (Rabs (snd h - snd g)) thr_g.
(** gme.py:258-270 *)
Definition ind_g (gvecs : list (R * R)) (g : R * R) : result (list nat) :=
  match filter (fun i => near_b g (nth i gvecs (0, 0))) (seq 0 (List.length gvecs)) with
  | [] => Raise ValueError
  | l => Ok l
  end.

(** array writes; an index outside the array is an IndexError (gme/gme.py 1287-1296) *)
Definition upd {A} (f : nat -> A) (i : nat) (v : A) : nat -> A := fun k => if Nat.eqb k i then v else f k.
(** block[i, j] = v, gme.py:1287-1294 *)
Definition upd2 {A} (f : nat -> nat -> A) (i j : nat) (v : A) : nat -> nat -> A :=
  fun a b => if (Nat.eqb a i && Nat.eqb b j)%bool then v else f a b.
(** the check numpy makes on an index array (gme.py:1292-1296) *)
Definition in_bounds (dim : nat) (l : list nat) : bool := forallb (fun i => Nat.ltb i dim) l.

(** 1/sqrt(2) (gme/gme.py 1291-1294) *)
Definition rs2 : R := 1 / sqrt 2.

(** gvec[:, ind] (gme/gme.py 1274) *)
Definition take_g (gvec : list (R * R)) (ind : list nat) : list (R * R) := map (fun i => nth i gvec (0, 0)) ind.

(** one round of the loop over the plane waves of a mode, dense version,
    gme.py:1277-1296.  [idx] are all matches; numpy writes to all of them. *)
Definition dense_step (m : mat2) (gs : list (R * R)) (dim j : nat) (st : (nat -> nat -> R) * (nat -> R))
  : result ((nat -> nat -> R) * (nat -> R)) :=
  let (B, w) := st in
  let* idx := ind_g gs (app2 m (nth j gs (0, 0))) in
  if Nat.eqb j (hd 0%nat idx) then
    if in_bounds dim [j] then Ok (upd2 B j j 1, upd w j 1) else Raise IndexError
  else
    if in_bounds dim (j :: idx) then
      let B := upd2 B j j (- rs2) in
      let B := fold_left (fun B q => upd2 B j q rs2) idx B in
      let B := fold_left (fun B q => upd2 B q j rs2) idx B in
      let B := fold_left (fun B q => upd2 B q q rs2) idx B in
      Ok (B, fold_left (fun w q => upd w q 1) idx (upd w j (- 1)))
    else Raise IndexError.
(** for j in range(...), gme.py:1278 *)
Fixpoint loop {A} (f : nat -> A -> result A) (js : list nat) (st : A) : result A :=
  match js with [] => Ok st | j :: t => let* st := f j st in loop f t st end.

(** the block of one guided mode: its size, its matrix and its +-1 labels with
    the sign of the polarisation, gme.py:1263-1304 *)
Definition dense_block (m : mat2) (gvec : list (R * R)) (alpha dim : nat) (ind : list nat)
  : result (nat * (nat -> nat -> R) * (nat -> R)) :=
  let gs := take_g gvec ind in
  let* (B, w) := loop (dense_step m gs dim) (seq 0 (List.length gs)) ((fun _ _ => 0), (fun _ => 0)) in
  Ok (dim, B, if Nat.even alpha then fun i => - w i else w).

(** self.modes_numg[ik][ind_alpha], self.ind_modes[ik][ind_alpha] (gme/gme.py 1264, 1272) *)
Definition get {A} (l : list A) (i : nat) : result A :=
  match nth_error l i with Some x => Ok x | None => Raise IndexError end.
(** enumerate, gme.py:1263 *)
Definition enum {A} (l : list A) : list (nat * A) := combine (seq 0 (List.length l)) l.

(** scipy.linalg.block_diag and np.hstack of the labels (gme/gme.py 1307-1308) *)
Fixpoint block_diag (l : list (nat * (nat -> nat -> R) * (nat -> R))) : nat * (nat -> nat -> R) :=
  match l with
  | [] => (0%nat, fun _ _ => 0)
  | (d, B, _) :: t =>
    let (n, M) := block_diag t in
    ((d + n)%nat, fun i j => if (Nat.ltb i d && Nat.ltb j d)%bool then B i j
                       else if (Nat.leb d i && Nat.leb d j)%bool then M (i - d)%nat (j - d)%nat else 0)
  end.
(** bd.hstack(blocks_w), gme.py:1308 *)
Definition labels (l : list (nat * (nat -> nat -> R) * (nat -> R))) : list R :=
  flat_map (fun x => map (snd x) (seq 0 (fst (fst x)))) l.

(** ordering of the columns, gme.py:1310-1323: insert(0, .) for +1, append for
    -1; any other value is skipped *)
Fixpoint order_cols (i : nat) (sig : list R) (st : list nat * nat * nat) : list nat * nat * nat :=
  match sig with
  | [] => st
  | s :: t =>
    let '(idx, ev, od) := st in
    let '(idx, ev) := if Reqb s 1 then (i :: idx, S ev) else (idx, ev) in
    let '(idx, od) := if Reqb s (- 1) then (idx ++ [i], S od) else (idx, od) in
    order_cols (S i) t (idx, ev, od)
  end.

(** what the first half of both routines produces: the matrix v_sigma_perm with
    its numbers of rows and columns, and the two counts (gme/gme.py 1260-1323, 1392-1491) *)
Record sbasis := SBasis { sb_rows : nat; sb_cols : nat; sb_v : cmat; sb_even : nat; sb_odd : nat }.

(** gme.py:1260-1323 *)
Definition basis_dense (m : mat2) (gvec : list (R * R)) (gmode_inds : list nat) (numg : list nat) (inds : list (list nat))
  : result sbasis :=
  let* bl := mapM (fun x => let* dim := get numg (fst x) in let* ind := get inds (fst x) in
                            dense_block m gvec (snd x) dim ind) (enum gmode_inds) in
  let (n, V) := block_diag bl in
  let '(idx, ev, od) := order_cols 0 (labels bl) ([], 0%nat, 0%nat) in
  Ok (SBasis n (List.length idx) (fun i c => RtoC (V i (nth c idx 0%nat))) ev od).

(** largest modulus in a list (gme/gme.py 1339-1340, 1502-1503) *)
Definition amaxc (l : list C) : R := fold_right (fun z m => Rmax (Cmod z) m) 0 l.
(** entries of rows r0..r1-1 and columns c0..c1-1 (gme/gme.py 1330-1331, 1499-1500) *)
Definition entries (M : cmat) (r0 r1 c0 c1 : nat) : list C :=
  flat_map (fun i => map (fun j => M i j) (seq c0 (c1 - c0))) (seq r0 (r1 - r0)).

(** gme.py:1325-1360: V^T mat V, its diagonal blocks, and the checks *)
Definition separate (symm_thr : R) (mat : arr2) (b : sbasis) : result (arr2 * arr2) :=
  if (Nat.eqb (nr mat) (sb_rows b) && Nat.eqb (nc mat) (sb_rows b))%bool then
    let n := sb_rows b in
    let S := mmul n (mtr (sb_v b)) (mmul n (ent mat) (sb_v b)) in
    let e := Nat.min (sb_even b) (sb_cols b) in
    let mat_even := Arr e e S in
    let o := (sb_cols b - e)%nat in
    let mat_odd := Arr o o (fun i j => S (e + i)%nat (e + j)%nat) in
    if (Nat.eqb o 0 || Nat.eqb e 0)%bool then Raise ValueError
    else if Rltb symm_thr (Rmax (amaxc (entries S e (sb_cols b) 0 e)) (amaxc (entries S 0 e e (sb_cols b))))
    then Raise ValueError
    else Ok (mat_even, mat_odd)
  else Raise ValueError.

(** ** Sparse version *)

(** one round of the loop, gme.py:1416-1450; [tr] are the (value, row, column)
    triples in the order they are appended, [ck] is check_g *)
Definition sparse_step (m : mat2) (gs : list (R * R)) (dim off j : nat)
  (st : list (R * nat * nat) * (nat -> R) * (nat -> bool)) : result (list (R * nat * nat) * (nat -> R) * (nat -> bool)) :=
  let '(tr, w, ck) := st in
  let* idx := ind_g gs (app2 m (nth j gs (0, 0))) in
  let p := hd 0%nat idx in
  if Nat.eqb j p then
    if in_bounds dim [j] then Ok (tr ++ [(1, (j + off)%nat, (j + off)%nat)], upd w j 1, ck) else Raise IndexError
  else if in_bounds dim [j] then
    if ck j then Ok st
    else if in_bounds dim idx then
      Ok (tr ++ [(- rs2, (j + off)%nat, (j + off)%nat); (rs2, (j + off)%nat, (p + off)%nat);
                 (rs2, (p + off)%nat, (j + off)%nat); (rs2, (p + off)%nat, (p + off)%nat)],
          fold_left (fun w q => upd w q 1) idx (upd w j (- 1)),
          upd (fold_left (fun c q => upd c q true) idx ck) j true)
    else Raise IndexError
  else Raise IndexError.

(** the loop over the modes, gme.py:1399-1462: [off] is dim_final *)
Fixpoint sparse_blocks (m : mat2) (gvec : list (R * R)) (numg : list nat) (inds : list (list nat)) (off : nat)
  (modes : list (nat * nat)) : result (nat * list (R * nat * nat) * list R) :=
  match modes with
  | [] => Ok (off, [], [])
  | (a, alpha) :: t =>
    let* dim := get numg a in
    let* ind := get inds a in
    let gs := take_g gvec ind in
    let* (tr, w, _) := loop (sparse_step m gs dim off) (seq 0 (List.length gs)) ([], (fun _ => 0), (fun _ => false)) in
    let sg := map (if Nat.even alpha then fun i => - w i else w) (seq 0 dim) in
    let* (n, trs, sgs) := sparse_blocks m gvec numg inds (off + dim) t in
    Ok (n, tr ++ trs, sg ++ sgs)
  end.

(** scipy.sparse.coo_matrix: duplicate entries are added up (gme/gme.py 1468-1469, 1489) *)
Definition coo (tr : list (R * nat * nat)) : nat -> nat -> R := fun i j =>
  rsuml (map (fun t => if (Nat.eqb (snd (fst t)) i && Nat.eqb (snd t) j)%bool then fst (fst t) else 0) tr).

(** gme.py:1464-1491: P has shape (dim_final, dim_final), so the product has
    dim_final columns *)
Definition basis_sparse (m : mat2) (gvec : list (R * R)) (gmode_inds : list nat) (numg : list nat) (inds : list (list nat))
  : result sbasis :=
  let* (n, tr, sg) := sparse_blocks m gvec numg inds 0 (enum gmode_inds) in
  let V := coo tr in
  let '(idx, ev, od) := order_cols 0 sg ([], 0%nat, 0%nat) in
  let P := coo (map (fun c => (1, nth c idx 0%nat, c)) (seq 0 (List.length idx))) in
  Ok (SBasis n n (mmul n (fun i j => RtoC (V i j)) (fun i j => RtoC (P i j))) ev od).
(** gme.py:1493-1523.  v^T (v^T mat^T)^T is the same product, associated the
    other way round. *)
Definition separate_sparse (symm_thr : R) (mat : arr2) (b : sbasis) : result (arr2 * arr2) :=
  if (Nat.eqb (nr mat) (sb_rows b) && Nat.eqb (nc mat) (sb_rows b))%bool then
    let n := sb_rows b in
    let S := mmul n (mtr (sb_v b)) (mtr (mmul n (mtr (sb_v b)) (mtr (ent mat)))) in
    let e := Nat.min (sb_even b) (sb_cols b) in
    let mat_even := Arr e e S in
    let o := (sb_cols b - e)%nat in
    let mat_odd := Arr o o (fun i j => S (e + i)%nat (e + j)%nat) in
    if (Nat.eqb o 0 || Nat.eqb e 0)%bool then Raise ValueError
    else if Rltb symm_thr (Rmax (amaxc (entries S e (sb_cols b) 0 e)) (amaxc (entries S 0 e e (sb_cols b))))
    then Raise ValueError
    else Ok (mat_even, mat_odd)
  else Raise ValueError.
