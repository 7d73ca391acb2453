(** Model of legume/primitives.py: the hand-written vector-Jacobian products and
    the functions they belong to.  Paths are relative to /repo/legume.  Each
    [vjp_maker] of the source returns a closure; the model is the closure's
    function of the cotangent.  The autograd machinery that calls it is not
    modelled. *)
From Verif Require Import Py CBase RecipModel.
Open Scope R_scope.
Open Scope list_scope.

(** ** numpy indexing of a one-dimensional array *)

(** a position in an array of length n; negative indices count from the end (primitives.py 27-33, 246-247) *)
Definition position (n : nat) (z : Z) : result nat :=
  if (Z.leb 0 z && Z.ltb z (Z.of_nat n))%bool then Ok (Z.to_nat z)
  else if (Z.leb (- Z.of_nat n) z && Z.ltb z 0)%bool then Ok (Z.to_nat (z + Z.of_nat n))
  else Raise IndexError.
(** l[z] (primitives.py 246-247) *)
Definition getz {A} (d : A) (l : list A) (z : Z) : result A :=
  let* i := position (List.length l) z in Ok (nth i l d).
(** l[z] = x (primitives.py 246-247) *)
Fixpoint put {A} (l : list A) (i : nat) (x : A) : list A :=
  match l, i with [], _ => [] | _ :: t, 0%nat => x :: t | y :: t, S i => y :: put t i x end.
(** l[z] = x of numpy with a possibly negative index (utils.py 233) *)
Definition setz {A} (l : list A) (z : Z) (x : A) : result (list A) :=
  let* i := position (List.length l) z in Ok (put l i x).

(** ** extend *)

(** a single value assigned to several places (utils.py 233) *)
Definition broadcast (vals : list C) (n : nat) : list C := match vals with [v] => repeat v n | _ => vals end.
(** utils.py 229-234 for a one-dimensional shape [m] and an index list: numpy
    first checks the lengths and the indices, then stores in order, so the last
    of several values for one place wins. *)
Definition extend (vals : list C) (inds : list Z) (m : nat) : result (list C) :=
  let vals := broadcast vals (List.length inds) in
  if negb (Nat.eqb (List.length vals) (List.length inds)) then Raise ValueError
  else let* ps := mapM (position m) inds in
       Ok (fold_left (fun z iv => put z (fst iv) (snd iv)) (combine ps vals) (repeat (RtoC 0) m)).
(** vjp_maker_extend, primitives.py 25-30: g[inds] *)
Definition vjp_extend (inds : list Z) (g : list C) : result (list C) := mapM (getz (RtoC 0) g) inds.

(** ** sqrt *)

(** vjp_maker_sqrt, primitives.py 38-44, for a real argument above -1e-10 (below,
    numpy's real power gives nan; at -1e-10 itself 0/0) *)
Definition vjp_sqrt (x : R) (g : R) : R := g * (1 / 2) * sqrt (x + 1 / 10 ^ 10) / (x + 1 / 10 ^ 10).

(** ** toeplitz_block *)

(** [f[a:a+len] += h] for arrays as functions (primitives.py 64-69, 86-91) *)
Definition slice_add (f : nat -> C) (a len : nat) (h : nat -> C) : nat -> C := fun j =>
  if (Nat.leb a j && Nat.ltb j (a + len))%bool then Cplus (f j) (h (j - a)%nat) else f j.
(** vjp_maker_TB_T1, primitives.py 53-72; [L] is the length of T1, which is also
    the size of Tmat *)
Definition vjp_tb1 (n L : nat) (v : cmat) : nat -> C :=
  let p := (L / n)%nat in
  fold_left (fun f ind1 =>
    fold_left (fun f ind2 =>
      fold_left (fun f indp =>
        let f := slice_add f ((ind2 - ind1) * p) (p - indp) (fun m => v (ind1 * p + indp)%nat (ind2 * p + indp + m)%nat) in
        if Nat.ltb ind1 ind2
        then slice_add f ((ind2 - ind1) * p) (p - indp) (fun m => Cconj (v (ind2 * p + indp + m)%nat (ind1 * p + indp)%nat))
        else f)
      (seq 0 p) f)
    (seq ind1 (n - ind1)) f)
  (seq 0 n) (fun _ => RtoC 0).
(** vjp_maker_TB_T2, primitives.py 75-94 *)
Definition vjp_tb2 (n L : nat) (v : cmat) : nat -> C :=
  let p := (L / n)%nat in
  fold_left (fun f ind1 =>
    fold_left (fun f ind2 =>
      fold_left (fun f indp =>
        let f := slice_add f ((ind2 - ind1) * p + 1) (p - indp - 1) (fun m => v (ind1 * p + indp + 1 + m)%nat (ind2 * p + indp)%nat) in
        if Nat.ltb ind1 ind2
        then slice_add f ((ind2 - ind1) * p + 1) (p - indp - 1) (fun m => Cconj (v (ind2 * p + indp)%nat (ind1 * p + indp + 1 + m)%nat))
        else f)
      (seq 0 p) f)
    (seq ind1 (n - ind1)) f)
  (seq 0 n) (fun _ => RtoC 0).

(** ** eigh *)

(** np.any of a complex N x N array (primitives.py 119, 208) *)
Definition cnz (z : C) : bool := negb (Reqb (fst z) 0 && Reqb (snd z) 0).
(** np.any(v), primitives.py 119 *)
Definition any2 (n m : nat) (v : cmat) : bool := existsb (fun i => existsb (fun j => cnz (v i j)) (seq 0 m)) (seq 0 n).
(** off_diag / (T(w_repeated) - w_repeated + eye): primitives.py 111, 120-121.
    numpy divides by zero to inf or nan when two eigenvalues coincide; theorems
    exclude that *)
Definition Fmat (w : nat -> R) : cmat := fun i j =>
  Cdiv (RtoC (1 - (if Nat.eqb i j then 1 else 0))) (RtoC (w j - w i + (if Nat.eqb i j then 1 else 0))).
(** vjp_maker_eigh, primitives.py 103-137, before the folding to a triangle *)
Definition vjp_eigh_full (n : nat) (w : nat -> R) (v : cmat) (wg : nat -> R) (vg : cmat) : cmat :=
  let vc : cmat := fun i j => Cconj (v i j) in
  let e := mmul n (fun i j => Cmult (vc i j) (RtoC (wg j))) (mtr v) in
  if any2 n n vg
  then fun i j => Cplus (e i j) (mmul n (mmul n vc (fun i j => Cmult (Fmat w i j) (mmul n (mtr v) vg i j))) (mtr v) i j)
  else e.
(** primitives.py 129-135; [low] is UPLO == 'L', otherwise 'U' (numpy's eigh
    refuses anything else beforehand) *)
Definition fold_tri (low : bool) (G : cmat) : cmat := fun i j =>
  let tri := if low then Nat.ltb j i else Nat.ltb i j in
  Cplus (if Nat.eqb i j then RtoC (fst (G i j)) else RtoC 0)
        (if tri then Cplus (G i j) (Cconj (G j i)) else RtoC 0).
(** primitives.py 103-137 *)
Definition vjp_eigh (low : bool) (n : nat) (w : nat -> R) (v : cmat) (wg : nat -> R) (vg : cmat) : cmat :=
  fold_tri low (vjp_eigh_full n w v wg vg).

(** ** inv *)

(** vjp_maker_inv, primitives.py 150-151 *)
Definition vjp_inv (n : nat) (ans g : cmat) : cmat := fun i j =>
  Copp (mmul n (mmul n (mtr ans) g) (mtr ans) i j).

(** ** eigsh *)

(** np.outer (primitives.py 203-222) *)
Definition outer (u v : cvec) : cmat := fun i j => Cmult (u i) (v j).
(** one round of the loop of vjp_maker_eigsh, primitives.py 195-222.  [cg iv]
    is scipy's conjugate-gradient solver as called in round [iv] with its random
    starting vector; only its first result is used *)
Definition eigsh_round (n : nat) (cg : nat -> nat -> cmat -> cvec -> cvec) (mat : cmat) (a : R) (v : cvec) (ag : R) (vg : cvec) (iv : nat) (acc : cmat) : cmat :=
  let vc : cvec := fun i => Cconj (v i) in
  let acc : cmat := fun i j => Cplus (acc i j) (Cmult (RtoC ag) (outer vc v i j)) in
  if existsb (fun i => cnz (vg i)) (seq 0 n) then
    let P : cmat := fun i j => Cminus (mid i j) (outer vc v i j) in
    let Amat := mtr (fun i j => Cminus (mat i j) (Cmult (RtoC a) (mid i j))) in
    let b := mvec n P vg in
    let l0 := cg iv n Amat b in
    let l0 := mvec n P l0 in
    fun i j => Cminus (acc i j) (outer l0 v i j)
  else acc.
(** vjp_maker_eigsh, primitives.py 186-226 *)
Definition vjp_eigsh (n k : nat) (cg : nat -> nat -> cmat -> cvec -> cvec) (mat : cmat) (w : nat -> R) (V : cmat) (wg : nat -> R) (Vg : cmat) : cmat :=
  fold_left (fun acc iv => eigsh_round n cg mat (w iv) (fun i => V i iv) (wg iv) (fun i => Vg i iv) iv acc) (seq 0 k) (fun _ _ => RtoC 0).

(** ** interp *)

(** np.searchsorted(xp, x) with side 'left': how many leading nodes are below x
    (numpy bisects; the same for ascending nodes) (primitives.py 245) *)
Fixpoint searchsorted (xp : list R) (x : R) : nat :=
  match xp with [] => 0%nat | a :: t => if Rltb a x then S (searchsorted t x) else 0%nat end.
(** np.interp at one point: constant outside the nodes, linear between them.
    numpy finds the last node not above x by bisection; the model scans (primitives.py 235) *)
Fixpoint interp_scan (x0 : R) (y0 : C) (xp : list R) (yp : list C) (x : R) : C :=
  match xp, yp with
  | a :: xp', b :: yp' =>
      if Rleb a x then interp_scan a b xp' yp' x
      else Cplus (Cmult (Cdiv (Cminus b y0) (RtoC (a - x0))) (RtoC (x - x0))) y0
  | _, _ => y0
  end.
(** np.interp at one point, the function differentiated at primitives.py 238-250 *)
Definition interp1 (xp : list R) (yp : list C) (x : R) : C :=
  match xp, yp with
  | a :: xp', b :: yp' => if Rltb x a then b else interp_scan a b xp' yp' x
  | _, _ => RtoC 0
  end.
(** np.interp(x, xp, yp); its errors: no nodes, or as many nodes as values (primitives.py 235) *)
Definition interp (x : list R) (xp : list R) (yp : list C) : result (list C) :=
  if (Nat.eqb (List.length xp) 0 || negb (Nat.eqb (List.length xp) (List.length yp)))%bool then Raise ValueError
  else Ok (map (interp1 xp yp) x).
(** a row of dydyp, primitives.py 243-247.  The source indexes whole arrays at
    once; the rows do not interact *)
Definition interp_row (xp : list R) (x : R) : result (list R) :=
  let indx := (Z.of_nat (searchsorted xp x) - 1)%Z in
  let* a := getz 0 xp indx in
  let* b := getz 0 xp (indx + 1) in
  let* r := setz (repeat 0 (List.length xp)) indx (1 - (x - a) / (b - a)) in
  setz r (indx + 1) ((x - a) / (b - a)).
(** vjp_maker_interp, primitives.py 238-250 *)
Definition vjp_interp (x xp : list R) (g : list C) : result (list C) :=
  let* rows := mapM (interp_row xp) x in
  if negb (Nat.eqb (List.length g) (List.length x)) then Raise ValueError
  else Ok (map (fun k => csum (List.length x) (fun i => Cmult (nth i g (RtoC 0)) (RtoC (nth k (nth i rows []) 0)))) (seq 0 (List.length xp))).

(** ** fsolve *)

(** the makers of vjp_factory_fsolve, primitives.py 262-304: [dfdx] and [dfdy]
    are autograd's gradients of the function at the root.  For the registered
    factory [False, True, True] the second and third argument get one, the
    others None *)
Definition vjp_fsolve (dfdx : R) (dfdy : list R) (g : R) : list R := map (fun d => g * (- 1 / dfdx * d)) dfdy.
(** which arguments get a maker, primitives.py 262-304 *)
Definition fsolve_makers (ginds : list bool) : list (option nat) :=
  [None; None; None] ++ map (fun ig => if (snd ig : bool) then Some (fst ig : nat) else None) (combine (seq 0 (List.length ginds)) ginds).

(** ** fmap *)

(** primitives.py 316-328 for functions returning a scalar *)
Definition fmap (fns : list (list R -> R)) (params : list R) : list R := map (fun f => f params) fns.
(** vjp_maker_fmap, primitives.py 331-335; [grad f] is autograd's gradient of f
    at params.  np.stack of nothing raises *)
Definition vjp_fmap (grad : (list R -> R) -> list R) (fns : list (list R -> R)) (np : nat) (v : list R) : result (list R) :=
  if Nat.eqb (List.length fns) 0 then Raise ValueError
  else let grads := map grad fns in
       Ok (map (fun j => rsuml (map (fun vg => fst vg * nth j (snd vg) 0) (combine v grads))) (seq 0 np)).

(** ** eig *)

(** vjp_maker_eig, primitives.py 344-365.  The first statement that uses a
    helper is line 351, and none of _matrix_diag, _diag, _dot and inv is defined
    or imported in the module: Python looks the global name up when the closure
    runs. *)
Definition primitives_globals : list string :=
  ["np"; "sp"; "partial"; "toeplitz_block"; "get_value"; "fsolve"; "extend"; "primitive"; "defvjp"; "vspace";
   "grad"; "vector_jacobian_product"; "npa"; "T"; "extend_ag"; "vjp_maker_extend"; "sqrt_ag"; "vjp_maker_sqrt";
   "toeplitz_block_ag"; "vjp_maker_TB_T1"; "vjp_maker_TB_T2"; "eigh_ag"; "vjp_maker_eigh"; "inv_ag"; "vjp_maker_inv";
   "eigsh_ag"; "vjp_maker_eigsh"; "interp_ag"; "vjp_maker_interp"; "fsolve_ag"; "vjp_factory_fsolve"; "fmap";
   "vjp_maker_fmap"; "eig_ag"; "vjp_maker_eig"; "spdot_ag"; "vjp_maker_spdot"]%string.
(** reading a global name (primitives.py 344-365) *)
Definition lookup {A} (globals : list string) (name : string) (x : A) : result A :=
  if existsb (String.eqb name) globals then Ok x else Raise NameError.
(** [helpers]: what the four names would stand for (primitives.py 344-373) *)
Record eig_helpers := EigHelpers { h_matrix_diag : cvec -> cmat; h_diag : cmat -> cmat; h_dot : cmat -> cmat -> cmat; h_inv : cmat -> cmat }.
(** primitives.py 344-365 *)
Definition vjp_eig (n : nat) (H : eig_helpers) (globals : list string) (xreal : bool) (e : cvec) (u : cmat) (ge : cvec) (gu : cmat) : result cmat :=
  let* mdiag := lookup globals "_matrix_diag" (h_matrix_diag H) in
  let ge := mdiag ge in
  let f : cmat := fun i j => Cdiv (RtoC 1) (Cplus (Cminus (e j) (e i)) (RtoC (1 / 10 ^ 20))) in
  let* diag := lookup globals "_diag" (h_diag H) in
  let f : cmat := fun i j => Cminus (f i j) (diag f i j) in
  let ut := mtr u in
  let* dot := lookup globals "_dot" (h_dot H) in
  let r1 : cmat := fun i j => Cmult (f i j) (dot ut gu i j) in
  let r2 : cmat := fun i j => Copp (Cmult (f i j) (dot (dot ut (fun a b => Cconj (u a b))) (fun a b => Cmult (RtoC (fst (dot ut gu a b))) (mid a b)) i j)) in
  let* inv := lookup globals "inv" (h_inv H) in
  let r := dot (dot (inv ut) (fun i j => Cplus (Cplus (ge i j) (r1 i j)) (r2 i j))) ut in
  Ok (if xreal then fun i j => RtoC (fst (r i j)) else r).

(** ** spdot *)

(** primitives.py 373-382: [m] rows, [n] columns of the sparse matrix, [c]
    columns of the dense one *)
Definition spdot (n : nat) (S B : cmat) : cmat := mmul n S B.
(** primitives.py 375-382 *)
Definition vjp_spdot (m : nat) (S g : cmat) : cmat := mmul m (mtr S) g.
