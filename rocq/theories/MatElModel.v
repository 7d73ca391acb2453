(** Model of legume/gme/matrix_elements.py and of the assembly of the GME
    matrix, gme.py _get_guided and _construct_mat.  A numpy 2-d array is an
    [arr2]: its shape and its entries.  One-dimensional arrays indexed by the
    plane waves of a mode are functions of the index, together with the index
    array [md_ind] that fixes their length.  [dl] is the 1/10^20 regulariser of
    I_alpha/J_alpha. *)
From Verif Require Import Py CBase SlabModel.
Open Scope R_scope.
Open Scope C_scope.

(** a two-dimensional numpy array such as mat_block, gme.py 600-616 *)
Record arr2 := Arr { nr : nat; nc : nat; ent : nat -> nat -> C }.

(** np.hstack / np.vstack on 2-d arrays: ValueError on an empty list or when
    the other dimension differs (gme/gme.py 626) *)
Definition hcat (a b : arr2) : result arr2 :=
  if Nat.eqb (nr a) (nr b) then
    Ok (Arr (nr a) (nc a + nc b) (fun i j => if (j <? nc a)%nat then ent a i j else ent b i (j - nc a)%nat))
  else Raise ValueError.
(** bd.vstack of two arrays (gme.py 626) *)
Definition vcat (a b : arr2) : result arr2 :=
  if Nat.eqb (nc a) (nc b) then
    Ok (Arr (nr a + nr b) (nc a) (fun i j => if (i <? nr a)%nat then ent a i j else ent b (i - nr a)%nat j))
  else Raise ValueError.
(** bd.hstack of a list (gme.py 626) *)
Fixpoint hstack (l : list arr2) : result arr2 :=
  match l with
  | [] => Raise ValueError
  | [a] => Ok a
  | a :: t => let* b := hstack t in hcat a b
  end.
(** bd.vstack of a list (gme.py 626) *)
Fixpoint vstack (l : list arr2) : result arr2 :=
  match l with
  | [] => Raise ValueError
  | [a] => Ok a
  | a :: t => let* b := vstack t in vcat a b
  end.
(** bd.zeros((n, m)), gme.py 592 *)
Definition zeros (n m : nat) : arr2 := Arr n m (fun _ _ => 0).

(** one guided mode over the plane waves that support it, the tuple
    (indmode, oms, As, Bs, chis) returned by _get_guided; [md_A il i] is
    As[il, i] (gme/gme.py 284-329) *)
Record gmode := GMode {
  md_ind : list nat;
  md_om : nat -> R;
  md_A : nat -> nat -> C;
  md_B : nat -> nat -> C;
  md_chi : nat -> nat -> C }.
(** indmode.size, gme.py 588 *)
Definition md_size (m : gmode) : nat := List.length (md_ind m).
(** indmode[i], the plane wave of entry i, gme.py 304 *)
Definition md_g (m : gmode) (i : nat) : nat := nth i (md_ind m) 0%nat.

(** IJ_layer, matrix_elements.py 10-19 *)
Definition IJ_layer (dl : R) (il Nl : nat) (arg : C) (ds : list R) : C :=
  if Nat.eqb il 0 then J_alpha dl (- arg)
  else if Nat.eqb il (Nl - 1)%nat then J_alpha dl arg
  else I_alpha dl arg (nth (il - 1)%nat ds 0%R).

(** [eps_array ** 2], [oms ** 2] (gme/matrix_elements.py 32-165) *)
Definition rsq (x : R) : R := (x * x)%R.

Section Blocks.
Variables (dl : R) (eps ds : list R) (einv : nat -> cmat).
Variables (m1 m2 : gmode).
Let Nl := List.length eps.
Let e (il : nat) : R := nth il eps 0%R.
Let IJ (il : nat) (arg : C) : C := IJ_layer dl il Nl arg ds.
Let eta (il i j : nat) : C := einv il (md_g m1 i) (md_g m2 j).

(** mat_te_te, matrix_elements.py 32-64 *)
Definition mat_te_te (qq : nat -> nat -> R) : arr2 :=
  Arr (md_size m1) (md_size m2) (fun i j =>
    csum Nl (fun il =>
      let c1 := (md_chi m1 il i)^* in let c2 := md_chi m2 il j in
      let A1 := (md_A m1 il i)^* in let B1 := (md_B m1 il i)^* in
      let A2 := md_A m2 il j in let B2 := md_B m2 il j in
      eta il i j * RtoC (rsq (e il)) *
      (A1 * A2 * IJ il (c2 - c1) + B1 * B2 * IJ il (- c2 + c1)
       + A1 * B2 * IJ il (- c2 - c1) + B1 * A2 * IJ il (c2 + c1)))
    * RtoC (rsq (md_om m1 i) * rsq (md_om m2 j)) * RtoC (qq (md_g m1 i) (md_g m2 j))).

(** mat_tm_tm, matrix_elements.py 67-99 *)
Definition mat_tm_tm (gk : nat -> R) (pp : nat -> nat -> R) : arr2 :=
  Arr (md_size m1) (md_size m2) (fun i j =>
    csum Nl (fun il =>
      let c1 := (md_chi m1 il i)^* in let c2 := md_chi m2 il j in
      let A1 := (md_A m1 il i)^* in let B1 := (md_B m1 il i)^* in
      let A2 := md_A m2 il j in let B2 := md_B m2 il j in
      let ppcc := RtoC (pp (md_g m1 i) (md_g m2 j)) * (c1 * c2) in
      let gg := RtoC (gk (md_g m1 i) * gk (md_g m2 j)) in
      eta il i j *
      ((ppcc + gg) * (A1 * A2 * IJ il (c2 - c1) + B1 * B2 * IJ il (- c2 + c1))
       - (ppcc - gg) * (A1 * B2 * IJ il (- c2 - c1) + B1 * A2 * IJ il (c2 + c1))))).

(** mat_te_tm, matrix_elements.py 102-134 *)
Definition mat_te_tm (qp : nat -> nat -> R) : arr2 :=
  Arr (md_size m1) (md_size m2) (fun i j =>
    csum Nl (fun il =>
      let c1 := (md_chi m1 il i)^* in let c2 := md_chi m2 il j in
      let A1 := (md_A m1 il i)^* in let B1 := (md_B m1 il i)^* in
      let A2 := md_A m2 il j in let B2 := md_B m2 il j in
      Ci * eta il i j * RtoC (e il) * c2 *
      (- (A1 * A2) * IJ il (c2 - c1) + B1 * B2 * IJ il (- c2 + c1)
       + A1 * B2 * IJ il (- c2 - c1) - B1 * A2 * IJ il (c2 + c1)))
    * RtoC (rsq (md_om m1 i)) * RtoC (qp (md_g m1 i) (md_g m2 j))).

(** mat_tm_te, matrix_elements.py 137-168 *)
Definition mat_tm_te (pq : nat -> nat -> R) : arr2 :=
  Arr (md_size m1) (md_size m2) (fun i j =>
    csum Nl (fun il =>
      let c1 := (md_chi m1 il i)^* in let c2 := md_chi m2 il j in
      let A1 := (md_A m1 il i)^* in let B1 := (md_B m1 il i)^* in
      let A2 := md_A m2 il j in let B2 := md_B m2 il j in
      Ci * eta il i j * RtoC (e il) * c1 *
      (A1 * A2 * IJ il (c2 - c1) - B1 * B2 * IJ il (- c2 + c1)
       + A1 * B2 * IJ il (- c2 - c1) - B1 * A2 * IJ il (c2 + c1)))
    * RtoC (rsq (md_om m2 j)) * RtoC (pq (md_g m1 i) (md_g m2 j))).
End Blocks.

(** the in-plane vectors of _construct_mat, gme.py 527-550: G + k (with the
    tiny shift delta_gx), its length, and the products of unit vectors *)
Record gkdata := GK { gk_x : nat -> R; gk_y : nat -> R; gk_len : nat -> R }.
(** gkx, gky and gk, gme.py 528-530 *)
Definition gk_data (gvec : list (R * R)) (k : R * R) (delta_gx : R) : gkdata :=
  let x i := (fst (nth i gvec (0, 0)%R) + fst k + delta_gx)%R in
  let y i := (snd (nth i gvec (0, 0)%R) + snd k)%R in
  GK x y (fun i => sqrt (x i * x i + y i * y i)).
(** gme.py 541 *)
Definition pkx (d : gkdata) i := (gk_x d i / gk_len d i)%R.
(** gme.py 542 *)
Definition pky (d : gkdata) i := (gk_y d i / gk_len d i)%R.
(** gme.py 545 *)
Definition qkx (d : gkdata) i := (gk_y d i / gk_len d i)%R.
(** gme.py 546 *)
Definition qky (d : gkdata) i := (- gk_x d i / gk_len d i)%R.
(** gme.py 548 *)
Definition pp_mat d i j := (pkx d i * pkx d j + pky d i * pky d j)%R.
(** gme.py 549 *)
Definition pq_mat d i j := (pkx d i * qkx d j + pky d i * qky d j)%R.
(** gme.py 550 *)
Definition qq_mat d i j := (qkx d i * qkx d j + qky d i * qky d j)%R.

(** np.interp(x, xp, fp) for increasing xp, on complex (or real) values:
    clamped outside, piecewise linear inside (gme/gme.py 296, 305) *)
Fixpoint interp_from (x : R) (x0 : R) (y0 : C) (l : list (R * C)) : C :=
  match l with
  | [] => y0
  | (x1, y1) :: t =>
    if Rltb x x1 then y0 + (y1 - y0) / RtoC (x1 - x0) * RtoC (x - x0)
    else interp_from x x1 y1 t
  end.
(** bd.interp as used at gme.py 294-297 and 305 *)
Definition interp (x : R) (xp : list R) (fp : list C) : C :=
  match combine xp fp with
  | [] => 0
  | (x0, y0) :: t => if Rltb x x0 then y0 else interp_from x x0 y0 t
  end.

(** one k-point's table of guided modes for one polarisation, after
    reshape_list (gme.py 370-401): for every mode index the frequencies and the
    (A, B) coefficients per layer, for the last g's of g_array *)
Definition gtable := list (list R * list (nat -> C * C)).

(** a[-n:] (gme/gme.py 304-310) *)
Definition last_n {A} (n : nat) (l : list A) : list A :=
  match n with O => l | _ => skipn (List.length l - n) l end.

(** np.argwhere(gk > thr) over the first [ng] plane waves (gme/gme.py 304) *)
Definition argwhere_gt (ng : nat) (gk : nat -> R) (thr : R) : list nat :=
  filter (fun i => Rltb thr (gk i)) (seq 0 ng).

(** _get_guided / interp_guided, gme.py 284-329 *)
Definition get_guided (ng : nat) (gk : nat -> R) (g_array : list R) (tab_te tab_tm : gtable) (eps : list R)
  (mode : nat) : result gmode :=
  match nth_error (if Nat.even mode then tab_te else tab_tm) (mode / 2) with
  | None => Raise IndexError
  | Some (oms, cs) =>
    let gs := last_n (List.length oms) g_array in
    match gs with
    | [] => Raise IndexError
    | g0 :: _ =>
      let ind := argwhere_gt ng gk (g0 - / 10 ^ 10)%R in
      let g i := gk (nth i ind 0%nat) in
      let om i := fst (interp (g i) gs (map RtoC oms)) in
      Ok (GMode ind om
            (fun il i => interp (g i) gs (map (fun c => fst (c il)) cs))
            (fun il i => interp (g i) gs (map (fun c => snd (c il)) cs))
            (fun il i => chi (om i) (g i) (nth il eps 0%R)))
    end
  end.

(** the modes that enter at this k-point, gme.py 556-574 *)
Definition gmode_include (gmode_inds : list nat) (tab_te tab_tm : gtable) : list nat :=
  filter (fun m => if Nat.even m then (m / 2 <? List.length tab_te)%nat
                   else (m / 2 <? List.length tab_tm)%nat) gmode_inds.

(** the block for the modes numbered [mode1], [mode2], gme.py 595-616 *)
Definition mat_block (dl : R) (eps ds : list R) (einv : nat -> cmat) (d : gkdata)
  (a b : nat * gmode) : arr2 :=
  match Nat.even (fst a), Nat.even (fst b) with
  | true, true => mat_te_te dl eps ds einv (snd a) (snd b) (qq_mat d)
  | false, false => mat_tm_tm dl eps ds einv (snd a) (snd b) (gk_len d) (pp_mat d)
  | true, false => mat_te_tm dl eps ds einv (snd a) (snd b) (fun i j => pq_mat d j i)
  | false, true => mat_tm_te dl eps ds einv (snd a) (snd b) (pq_mat d)
  end.

(** the rows of blocks, gme.py 584-616: a zero block below the diagonal, then
    the computed blocks *)
Fixpoint block_rows (bl : nat * gmode -> nat * gmode -> arr2) (first : bool) (prev : nat)
  (ms : list (nat * gmode)) : list (list arr2) :=
  match ms with
  | [] => []
  | m :: t =>
    ((if first then [] else [zeros (md_size (snd m)) prev]) ++ map (bl m) (m :: t))
    :: block_rows bl false (prev + md_size (snd m))%nat t
  end.

(** the last line of _construct_mat, gme.py 642-643:
    triu(mat, 1) + triu(mat, 1)^H + real(diag(diag(mat))) *)
Definition fill_lower (a : arr2) : result arr2 :=
  if Nat.eqb (nr a) (nc a) then
    Ok (Arr (nr a) (nc a) (fun i j =>
      (if (i <? j)%nat then ent a i j else 0) + (if (j <? i)%nat then ent a j i else 0)^*
      + (if Nat.eqb i j then RtoC (fst (ent a i i)) else 0)))
  else Raise ValueError.

(** _construct_mat, gme.py 523-643, for the mode tables of one k-point.  Not
    modelled: the counters N_basis, modes_numg, ind_modes it appends to the
    object (they are the sizes and index lists of the modes below). *)
Definition construct_mat (dl : R) (gvec : list (R * R)) (k : R * R) (delta_gx : R)
  (gmode_inds : list nat) (g_array : list R) (tab_te tab_tm : gtable)
  (eps ds : list R) (einv : nat -> cmat) : result arr2 :=
  let d := gk_data gvec k delta_gx in
  let inc := gmode_include gmode_inds tab_te tab_tm in
  match inc with
  | [] => Raise RuntimeError
  | _ =>
    let* ms := mapM (fun m => let* g := get_guided (List.length gvec) (gk_len d) g_array tab_te tab_tm eps m in Ok (m, g)) inc in
    let* rows := mapM hstack (block_rows (mat_block dl eps ds einv d) true 0 ms) in
    let* mat := vstack rows in
    fill_lower mat
  end.
