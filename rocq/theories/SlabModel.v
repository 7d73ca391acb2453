(** Model of legume/gme/slab_modes.py: guided and radiative modes of a
    multilayer slab.  Floats are reals, complex numbers are pairs of reals;
    [eps] and [ds] are Python arrays as lists (lower cladding first).  The
    complex functions of numpy are written out.  Numpy's inf/nan on division by
    zero is Coq's total division here; every theorem that needs it excludes a
    zero divisor by hypothesis. *)
From Verif Require Import Py CBase.
Open Scope R_scope.
Open Scope C_scope.

(** complex sine and cosine (numpy [sin], [cos] on complex input) (gme/slab_modes.py 8-11) *)
Definition csin (z : C) : C := (cexp (Ci * z) - cexp (- (Ci * z))) / (2 * Ci).
(** numpy cos on complex input (slab_modes.py 258-266, 353-361) *)
Definition ccos (z : C) : C := (cexp (Ci * z) + cexp (- (Ci * z))) / 2.
(** principal complex square root (numpy [sqrt] on complex input) (gme/slab_modes.py 160-173) *)
Definition csqrt (z : C) : C :=
  (sqrt ((Cmod z + fst z) / 2),
   if Rltb (snd z) 0 then (- sqrt ((Cmod z - fst z) / 2))%R else sqrt ((Cmod z - fst z) / 2)).

(** the regulariser added to the argument of I_alpha and J_alpha
    (slab_modes.py 9 and 14) *)
Definition reg : R := (/ 10 ^ 20)%R.

(** the test z = 0 used in I_alpha below (slab_modes.py 8-10) *)
Definition Cis0 (z : C) : bool := Reqb (fst z) 0 && Reqb (snd z) 0.
(** I_alpha, slab_modes.py 8-10, with the regulariser [dl] as argument.  Where
    a + dl = 0 the code divides 0 by 0 (nan), which with 1e-20 means a = -1e-20; the model
    has the limit d there, so that dl = 0 stands for the integral without regulariser *)
Definition I_alpha (dl : R) (a : C) (d : R) : C :=
  let a := a + RtoC dl in if Cis0 a then RtoC d else 2 / a * csin (a * RtoC d / 2).
(** J_alpha, slab_modes.py 13-15 *)
Definition J_alpha (dl : R) (a : C) : C :=
  let a := a + RtoC dl in Ci / a.

(** chi, slab_modes.py 160-172 (all arguments real) *)
Definition chi (omega g eps : R) : C :=
  let sqarg := (eps * (omega * omega) - g * g)%R in
  if Rleb 0 sqarg then RtoC (sqrt sqarg) else Ci * RtoC (sqrt (- sqarg)).
(** chi on the array of permittivities, slab_modes.py 160-172 as called at 200-206 *)
Definition chi_array (omega g : R) (eps : list R) : list C := map (chi omega g) eps.

(** chis_3layer, slab_modes.py 175-183.  numpy's nan for a negative radicand
    is the value 0 of [sqrt] here. *)
Definition chis_3layer (omega g e1 e2 e3 : R) : C * C * C :=
  (Ci * RtoC (sqrt (g * g - e1 * (omega * omega))),
   RtoC (sqrt (- (g * g) + e2 * (omega * omega))),
   Ci * RtoC (sqrt (g * g - e3 * (omega * omega)))).

(** 2 x 2 complex matrices and column vectors of numpy, [bd.dot] (gme/slab_modes.py 199-280, 389-420) *)
Record m2 := M2 { m11 : C; m12 : C; m21 : C; m22 : C }.
(** bd.dot of two matrices, slab_modes.py 277 *)
Definition m2mul (a b : m2) : m2 :=
  M2 (m11 a * m11 b + m12 a * m21 b) (m11 a * m12 b + m12 a * m22 b)
     (m21 a * m11 b + m22 a * m21 b) (m21 a * m12 b + m22 a * m22 b).
Notation vec2c := (C * C)%type (only parsing).
(** bd.dot of a matrix and a vector, slab_modes.py 411-419 *)
Definition m2vec (a : m2) (v : vec2c) : vec2c :=
  (m11 a * fst v + m12 a * snd v, m21 a * fst v + m22 a * snd v).

(** consecutive pairs (x[:-1], x[1:]) (gme/slab_modes.py 199-240) *)
Fixpoint pairs {A} (l : list A) : list (A * A) :=
  match l with
  | x :: ((y :: _) as t) => (x, y) :: pairs t
  | _ => []
  end.
(** x[1:-1] (gme/slab_modes.py 58) *)
Definition inner {A} (l : list A) : list A := removelast (tl l).

(** one S matrix of S_T_matrices_TM, slab_modes.py 207-212 *)
Definition S_TM (ce1 ce2 : C * R) : m2 :=
  let (c1, e1) := ce1 in let (c2, e2) := ce2 in
  let S11 := c1 / RtoC e1 + c2 / RtoC e2 in
  let S12 := - c1 / RtoC e1 + c2 / RtoC e2 in
  let p := RtoC (/ 2) / (c2 / RtoC e2) in
  M2 (p * S11) (p * S12) (p * S12) (p * S11).
(** one S matrix of S_T_matrices_TE, slab_modes.py 228-233 *)
Definition S_TE (ce1 ce2 : C * R) : m2 :=
  let (c1, _) := ce1 in let (c2, _) := ce2 in
  let S11 := c1 + c2 in
  let S12 := - c1 + c2 in
  let p := RtoC (/ 2) / c2 in
  M2 (p * S11) (p * S12) (p * S12) (p * S11).
(** one T matrix, slab_modes.py 213-216 and 234-237 *)
Definition T_half (cd : C * R) : m2 :=
  let (c, d) := cd in
  M2 (cexp (Ci * c * RtoC d / 2)) 0 0 (cexp (- Ci * c * RtoC d / 2)).

(** S_T_matrices_TM / S_T_matrices_TE, slab_modes.py 199-238 *)
Definition S_T_matrices (S : C * R -> C * R -> m2) (omega g : R) (eps ds : list R)
  : result (list m2 * list m2) :=
  if Nat.eqb (List.length ds + 2)%nat (List.length eps) then
    let ca := chi_array omega g eps in
    Ok (map (fun p => S (fst p) (snd p)) (pairs (combine ca eps)),
        map T_half (combine (inner ca) ds))
  else Raise AssertionError.

(** [pol.lower() == 'te'], [pol.lower() == 'tm'] (gme/slab_modes.py 260) *)
Definition is_te (pol : string) : bool := String.eqb (lower pol) "te".
(** pol.lower() == 'tm', slab_modes.py 259, 270 *)
Definition is_tm (pol : string) : bool := String.eqb (lower pol) "tm".

(** the three-layer closed form, slab_modes.py 252-266 and 348-361.  [ds] has
    one element; other lengths (numpy broadcasting) raise here. *)
Definition D22_3layer (pol : string) (omega g e1 e2 e3 : R) (ds : list R) : result C :=
  match ds with
  | [d] =>
    let '(c1, c2, c3) := chis_3layer omega g e1 e2 e3 in
    let tcos := - Ci * ccos (c2 * RtoC d) in
    let tsin := - csin (c2 * RtoC d) in
    if is_te pol then
      Ok (c2 * (c1 + c3) * tcos + (c1 * c3 + c2 * c2) * tsin)
    else if is_tm pol then
      Ok (c2 / RtoC e2 * (c1 / RtoC e1 + c3 / RtoC e3) * tcos
          + (c1 / RtoC e1 * c3 / RtoC e3 + (c2 / RtoC e2) * (c2 / RtoC e2)) * tsin)
    else Raise UnboundLocalError
  | _ => Raise ValueError
  end.

(** the loop of D22, slab_modes.py 275-279 *)
Fixpoint D_loop (D : m2) (Ss Ts : list m2) : result m2 :=
  match Ss with
  | [] => Ok D
  | S1 :: Ss' =>
    match Ts with
    | [] => Raise IndexError
    | T :: Ts' => D_loop (m2mul S1 (m2mul T (m2mul T D))) Ss' Ts'
    end
  end.

(** D22 for a stack that is not three-layered, slab_modes.py 268-279 *)
Definition D22_nlayer (pol : string) (omega g : R) (eps ds : list R) : result C :=
  let* ST :=
    (if is_te pol then S_T_matrices S_TE omega g eps ds
     else if is_tm pol then S_T_matrices S_TM omega g eps ds
     else Raise ValueError) in
  match fst ST with
  | [] => Raise IndexError
  | S0 :: Ss => let* D := D_loop S0 Ss (snd ST) in Ok (m22 D)
  end.

(** D22, slab_modes.py 241-279 *)
Definition D22 (pol : string) (omega g : R) (eps ds : list R) : result C :=
  match eps with
  | [e1; e2; e3] => D22_3layer pol omega g e1 e2 e3 ds
  | _ => D22_nlayer pol omega g eps ds
  end.

(** the inner functions S_TE / S_TM of D22s_vec, slab_modes.py 304-313 *)
Definition S_vec (pol : string) (e1 e2 : R) (c1 c2 : C) : result (C * C * C * C) :=
  if is_te pol then
    let S11 := RtoC (/ 2) / c2 * (c1 + c2) in
    let S12 := RtoC (/ 2) / c2 * (- c1 + c2) in
    Ok (S11, S12, S12, S11)
  else if is_tm pol then
    let S11 := RtoC (/ 2) / (c2 / RtoC e2) * (c1 / RtoC e1 + c2 / RtoC e2) in
    let S12 := RtoC (/ 2) / (c2 / RtoC e2) * (- c1 / RtoC e1 + c2 / RtoC e2) in
    Ok (S11, S12, S12, S11)
  else Raise UnboundLocalError.
(** S_T_prod, slab_modes.py 315-346, on the 2 x 2 block of one frequency *)
Definition S_T_prod (pol : string) (m : m2) (omega g e1 e2 d : R) : result m2 :=
  let c1 := chi omega g e1 in
  let c2 := chi omega g e2 in
  let* S4 := S_vec pol e1 e2 c1 c2 in
  let '(S11, S12, S21, S22) := S4 in
  let T11 := cexp (Ci * c1 * RtoC d) in
  let T22 := cexp (- Ci * c1 * RtoC d) in
  let t := M2 (m11 m * T11) (m12 m * T11) (m21 m * T22) (m22 m * T22) in
  Ok (M2 (S11 * m11 t + S12 * m21 t) (S11 * m12 t + S12 * m22 t)
         (S21 * m11 t + S22 * m21 t) (S21 * m12 t + S22 * m22 t)).
(** the layer loop of D22s_vec, slab_modes.py 380-382; [es] starts at the
    current layer *)
Fixpoint vec_loop (pol : string) (m : m2) (omega g : R) (es ds : list R) : result m2 :=
  match es with
  | e1 :: ((e2 :: _) as t) =>
    match ds with
    | [] => Raise IndexError
    | d :: ds' => let* m' := S_T_prod pol m omega g e1 e2 d in vec_loop pol m' omega g t ds'
    end
  | _ => Ok m
  end.
(** D22s_vec, slab_modes.py 282-386, one frequency of the array *)
Definition D22s_one (pol : string) (omega g : R) (eps ds : list R) : result C :=
  match eps with
  | [e1; e2; e3] => D22_3layer pol omega g e1 e2 e3 ds
  | e1 :: ((e2 :: _) as t) =>
    let* S4 := S_vec pol e1 e2 (chi omega g e1) (chi omega g e2) in
    let '(S11, S12, S21, S22) := S4 in
    let* m := vec_loop pol (M2 S11 S12 S21 S22) omega g t ds in
    Ok (m22 m)
  | _ => Raise IndexError
  end.
(** D22s_vec on an array of frequencies (gme/slab_modes.py 282-386) *)
Definition D22s_vec (pol : string) (omegas : list R) (g : R) (eps ds : list R) : result (list C) :=
  mapM (fun omega => D22s_one pol omega g eps ds) omegas.

(** the loop of AB_matrices, slab_modes.py 414-420.  [Ts] starts at
    T_matrices[i]; [length Ss' = 0] is [i = len(S_matrices) - 2], the last
    interface. *)
Fixpoint AB_loop (last : vec2c) (Ss Ts : list m2) : result (list vec2c) :=
  match Ss with
  | [] => Ok []
  | S1 :: Ss' =>
    match Ts with
    | [] => Raise IndexError
    | T :: Ts' =>
      let term := m2vec S1 (m2vec T last) in
      match Ss' with
      | [] => Ok [term]
      | _ =>
        match Ts' with
        | [] => Raise IndexError
        | T2 :: _ =>
          let term := m2vec T2 term in
          let* r := AB_loop term Ss' Ts' in Ok (term :: r)
        end
      end
    end
  end.
(** AB_matrices, slab_modes.py 389-421: list of (A, B) per layer.  (The
    argument chi_array is recomputed inside S_T_matrices and not used.) *)
Definition AB_matrices (pol : string) (omega g : R) (eps ds : list R) : result (list vec2c) :=
  if Nat.eqb (List.length ds + 2)%nat (List.length eps) then
    let* ST :=
      (if is_te pol then S_T_matrices S_TE omega g eps ds
       else if is_tm pol then S_T_matrices S_TM omega g eps ds
       else Raise PyException) in
    match fst ST, snd ST with
    | S0 :: Ss, T0 :: Ts =>
      let AB0 : vec2c := (RtoC 0, RtoC 1) in
      let AB1 := m2vec T0 (m2vec S0 AB0) in
      let* r := AB_loop AB1 Ss (snd ST) in
      Ok (AB0 :: AB1 :: r)
    | _, _ => Raise IndexError
    end
  else Raise AssertionError.

(** bd.abs(z)**2 (gme/slab_modes.py 424-465) *)
Definition abs2 (z : C) : R := (Cmod z * Cmod z)%R.
(** bd.sum, slab_modes.py 450, 462 *)
Definition csuml (l : list C) : C := fold_right Cplus (RtoC 0) l.

(** one summand of term3, slab_modes.py 445-449 (TM) and 456-461 (TE) *)
Definition norm_TM (dl : R) (x : C * (vec2c) * R) : C :=
  let '(c, (A, B), d) := x in
  RtoC (abs2 A + abs2 B) * I_alpha dl (c - c^*) d
  + (A^* * B + A * B^*) * I_alpha dl (- c - c^*) d.
(** slab_modes.py 456-461 *)
Definition norm_TE (dl g : R) (x : C * (vec2c) * R) : C :=
  let '(c, (A, B), d) := x in
  RtoC (abs2 c + g * g) * (RtoC (abs2 A + abs2 B) * I_alpha dl (c - c^*) d)
  + RtoC (g * g - abs2 c) * ((A^* * B + A * B^*) * I_alpha dl (- c - c^*) d).

(** normalization_coeff, slab_modes.py 424-464.  [ABs] and [cs] are the rows of
    ABref and chi_array, of the same length as [eps]. *)
Definition normalization_coeff (dl : R) (pol : string) (g : R) (eps ds : list R)
  (cs : list C) (ABs : list vec2c) : result C :=
  if Nat.eqb (List.length ds + 2)%nat (List.length eps) then
    let c0 := hd (RtoC 0) cs in let cl := last cs (RtoC 0) in
    let B0 := snd (hd (RtoC 0, RtoC 0) ABs) in
    let Al := fst (last ABs (RtoC 0, RtoC 0)) in
    let layers := combine (combine (inner cs) (inner ABs)) ds in
    if String.eqb pol "TM" then
      Ok (RtoC (abs2 B0) * J_alpha dl (c0 - c0^*) + RtoC (abs2 Al) * J_alpha dl (cl - cl^*)
          + csuml (map (norm_TM dl) layers))
    else if String.eqb pol "TE" then
      Ok (RtoC (abs2 c0 + g * g) * RtoC (abs2 B0) * J_alpha dl (c0 - c0^*)
          + RtoC (abs2 cl + g * g) * RtoC (abs2 Al) * J_alpha dl (cl - cl^*)
          + csuml (map (norm_TE dl g) layers))
    else Raise PyException
  else Raise AssertionError.

(** max of an array, ValueError when empty (gme/slab_modes.py 58-59, 110) *)
Definition rmaxl (l : list R) : result R :=
  match l with [] => Raise ValueError | x :: t => Ok (fold_right Rmax x t) end.

(** np.arange(lb, ub, step), step > 0: lb + k*step for k < ceil((ub-lb)/step) (gme/slab_modes.py 123) *)
Definition arange (lb ub step : R) : list R :=
  map (fun k => (lb + INR k * step)%R) (seq 0 (Z.to_nat (- Int_part (- ((ub - lb) / step))))).

(** np.where(D[0:-1]*D[1:] < 0) paired with the bracket: slab_modes.py 131, 138-139 *)
Definition sign_changes (pts : list (R * R)) : list (R * R) :=
  map (fun p => (fst (fst p), fst (snd p)))
      (filter (fun p => Rltb (snd (fst p) * snd (snd p)) 0) (pairs pts)).

(** real part of D22 where it does not raise; used as the function handed to
    the root finder (slab_modes.py 119) *)
Definition D22real (pol : string) (g : R) (eps ds : list R) (omega : R) : R :=
  match D22 pol omega g eps ds with Ok z => fst z | Raise _ => 0%R end.

(** one pass of the root loop, slab_modes.py 142-155 *)
Definition solve_mode (root : (R -> R) -> R -> R -> R) (pol : string) (g : R) (eps ds : list R)
  (br : R * R) : result (R * list vec2c) :=
  let omega := root (D22real pol g eps ds) (fst br) (snd br) in
  if is_te pol || is_tm pol then
    let* AB := AB_matrices pol omega g eps ds in
    let* norm := normalization_coeff reg pol g eps ds (chi_array omega g eps) AB in
    Ok (omega, map (fun ab : vec2c => (fst ab / csqrt norm, snd ab / csqrt norm)) AB)
  else Raise ValueError.

(** the search grid of guided_mode_given_g, slab_modes.py 114-123 *)
Definition omega_bounds (omega_lb omega_ub step tol : R) : list R :=
  let lb := (omega_lb * (1 + tol))%R in
  let ub := (omega_ub * (1 - tol))%R in
  (arange lb ub step ++ [ub])%list.

(** guided_mode_given_g, slab_modes.py 93-157.  [root f lb ub] is
    bd.fsolve_D22 (scipy's brentq).  The break at [n_modes] keeps the first
    [n_modes] brackets. *)
Definition guided_mode_given_g (root : (R -> R) -> R -> R -> R) (pol : string) (g : R)
  (eps ds : list R) (n_modes : nat) (omega_lb omega_ub : option R) (step tol : R)
  : result (list R * list (list vec2c)) :=
  let* lb := (match omega_lb with
              | Some x => Ok x
              | None => let* m := rmaxl (inner eps) in Ok (g / sqrt m)%R end) in
  let ub := (match omega_ub with
             | Some x => x
             | None => (g / sqrt (Rmax (hd 0%R eps) (last eps 0%R)))%R end) in
  let pts := omega_bounds lb ub step tol in
  let* D22s := D22s_vec pol pts g eps ds in
  let br := sign_changes (combine pts (map fst D22s)) in
  let* sols := mapM (solve_mode root pol g eps ds) (firstn n_modes br) in
  Ok (map fst sols, map snd sols).

(** state of the loop of guided_modes: previous g, omegas, coeffs (gme/slab_modes.py 50-90) *)
Definition gstate := option (R * (list R * list (list vec2c))).

(** one pass of guided_modes, slab_modes.py 52-88 *)
Definition guided_step (root : (R -> R) -> R -> R -> R) (pol : string) (eps ds : list R)
  (n_modes : nat) (step tol : R) (st : gstate) (g : R)
  : result (list R * list (list vec2c)) :=
  let g_val := Rmax g (/ 10 ^ 4) in
  let* m := rmaxl (map sqrt (inner eps)) in
  let om_lb := (g_val / m)%R in
  let om_ub := (g_val / sqrt (Rmax (hd 0%R eps) (last eps 0%R)))%R in
  let compute ub :=
    guided_mode_given_g root pol g_val eps ds n_modes (Some om_lb) (Some ub) step tol in
  match st with
  | None => compute om_ub
  | Some (gp, (omegas, coeffs)) =>
    let* ub := (if Nat.eqb (List.length omegas) n_modes then
                  match omegas with
                  | [] => Raise IndexError
                  | _ => Ok (Rmin om_ub (last omegas 0%R + step + (g - gp))%R)
                  end
                else Ok om_ub) in
    if Rltb (/ 10 ^ 8) (Rabs (g - gp)) then compute ub else Ok (omegas, coeffs)
  end.
(** the loop of guided_modes, slab_modes.py 52-88 *)
Fixpoint guided_loop (root : (R -> R) -> R -> R -> R) (pol : string) (eps ds : list R)
  (n_modes : nat) (step tol : R) (st : gstate) (gs : list R)
  : result (list (list R * list (list vec2c))) :=
  match gs with
  | [] => Ok []
  | g :: t =>
    let* r := guided_step root pol eps ds n_modes step tol st g in
    let* rs := guided_loop root pol eps ds n_modes step tol (Some (g, r)) t in
    Ok (r :: rs)
  end.
(** guided_modes, slab_modes.py 21-90: the pair (om_guided, coeffs_guided) as a
    list of pairs, one per g *)
Definition guided_modes root pol gs eps ds n_modes step tol :=
  guided_loop root pol eps ds n_modes step tol None gs.

(** the coefficient chain of rad_modes, slab_modes.py 504-510; [Ts] starts at
    T_mat[i], the last element of [Ss] is S_mat[-1] *)
Fixpoint rad_chain (last : vec2c) (Ss Ts : list m2) : result (list vec2c) :=
  match Ss, Ts with
  | [S1], T :: _ => Ok [m2vec S1 (m2vec T last)]
  | S1 :: Ss', T1 :: ((T2 :: _) as Ts') =>
    let c := m2vec T2 (m2vec S1 (m2vec T1 last)) in
    let* r := rad_chain c Ss' Ts' in Ok (c :: r)
  | _, _ => Raise IndexError
  end.
(** rad_modes for one g, slab_modes.py 489-524: the pair (X, Y) of coefficient
    lists, indexed by layer.  numpy's inf/nan when coeffs[1,-1] = 0 is Coq's
    total division. *)
Definition rad_mode (pol : string) (clad : nat) (omega g : R) (eps ds : list R)
  : result (list C * list C) :=
  let g_val := Rmax g (/ 10 ^ 10) in
  let* ST :=
    (if is_te pol && Nat.eqb clad 0 then S_T_matrices S_TE omega g_val (rev eps) (rev ds)
     else if is_te pol && Nat.eqb clad 1 then S_T_matrices S_TE omega g_val eps ds
     else if is_tm pol && Nat.eqb clad 0 then S_T_matrices S_TM omega g_val (rev eps) (rev ds)
     else if is_tm pol && Nat.eqb clad 1 then S_T_matrices S_TM omega g_val eps ds
     else Raise UnboundLocalError) in
  match fst ST, snd ST with
  | S0 :: Ss, T0 :: _ =>
    let c0 : vec2c := (RtoC 0, RtoC 1) in
    let c1 := m2vec T0 (m2vec S0 c0) in
    let* r := rad_chain c1 Ss (snd ST) in
    let coeffs := c0 :: c1 :: r in
    let n := snd (last coeffs (RtoC 0, RtoC 0)) in
    let coeffs := map (fun c : vec2c => (fst c / n, snd c / n)) coeffs in
    let coeffs :=
      if String.eqb pol "te" then
        let ec := if Nat.eqb clad 0 then hd 0%R eps else last eps 0%R in
        map (fun c : vec2c => (fst c / RtoC (sqrt ec) / RtoC omega, snd c / RtoC (sqrt ec) / RtoC omega)) coeffs
      else coeffs in
    if Nat.eqb clad 0 then Ok (rev (map fst coeffs), rev (map snd coeffs))
    else Ok (map snd coeffs, map fst coeffs)
  | _, _ => Raise IndexError
  end.
(** rad_modes, slab_modes.py 467-542, one entry per g (the final transpose and
    the fix-up of the empty case only rearrange the array) *)
Definition rad_modes (pol : string) (clad : nat) (omega : R) (gs : list R) (eps ds : list R) :=
  mapM (fun g => rad_mode pol clad omega g eps ds) gs.
