(** Specification vocabulary for the slab modes, independent of the model. *)
From Verif Require Import Py CBase.
From Coquelicot Require Import Hierarchy RInt Derive Lim_seq Continuity Rbar.
Open Scope R_scope.

(** A plane-wave pair in a homogeneous layer: A e^{i c z} + B e^{-i c z}, with
    z measured from the reference point of the layer, and its z-derivative. *)
Definition wave (c A B : C) (z : R) : C :=
  (A * cexp (Ci * c * RtoC z) + B * cexp (- (Ci * c * RtoC z)))%C.
Definition dwave (c A B : C) (z : R) : C :=
  (Ci * c * (A * cexp (Ci * c * RtoC z) - B * cexp (- (Ci * c * RtoC z))))%C.

(** f has derivative l at x, for complex f of a real variable *)
Definition is_cderive (f : R -> C) (x : R) (l : C) : Prop :=
  is_derive (fun t => fst (f t)) x (fst l) /\ is_derive (fun t => snd (f t)) x (snd l).

(** decaying branch: purely imaginary with positive imaginary part *)
Definition evanescent (c : C) : Prop := fst c = 0 /\ 0 < snd c.

(** squared modulus *)
Definition sq (z : C) : R := fst z * fst z + snd z * snd z.

(** Magnetic energy density of a slab mode of in-plane wave vector g: for TE
    the wave is E and |H|^2 = |dE/dz|^2 + g^2 |E|^2; for TM the wave is H. *)
Definition energy_density (te : bool) (g : R) (c A B : C) (z : R) : R :=
  if te then sq (dwave c A B z) + g * g * sq (wave c A B z) else sq (wave c A B z).

(** the same with all interference made constructive; it bounds the density *)
Definition majorant (te : bool) (g : R) (c A B : C) (z : R) : R :=
  (if te then sq c + g * g else 1)
  * (Cmod A * exp (- snd c * z) + Cmod B * exp (snd c * z))
  * (Cmod A * exp (- snd c * z) + Cmod B * exp (snd c * z)).

(** v is the integral of f from 0 to infinity *)
Definition is_tail_int (f : R -> R) (v : R) : Prop :=
  (forall L, ex_RInt f 0 L) /\ is_lim (fun L => RInt f 0 L) p_infty v.

(** E is the total energy over all z of the stack mode with vertical wave
    vectors cs and amplitudes ABs; K the bound on the part that the code's
    1/10^20 regulariser can shift.  Lower cladding: only B, below its interface;
    upper cladding: only A. *)
Inductive layers_energy (te : bool) (g : R) : list C -> list (C * C) -> list R -> R -> R -> Prop :=
| le_nil : layers_energy te g [] [] [] 0 0
| le_cons c A B d cs ABs ds E K E1 K1 :
    is_RInt (energy_density te g c A B) (- d / 2) (d / 2) E1 ->
    is_RInt (majorant te g c A B) (- d / 2) (d / 2) K1 ->
    layers_energy te g cs ABs ds E K ->
    layers_energy te g (c :: cs) ((A, B) :: ABs) (d :: ds) (E1 + E) (d / 2 * K1 + K).
Definition mode_energy (te : bool) (g : R) (c0 : C) (B0 : C) (cs : list C) (ABs : list (C * C))
  (cl : C) (Al : C) (ds : list R) (E K : R) : Prop :=
  exists E0 El Ei Ki,
    is_tail_int (fun z => energy_density te g c0 0 B0 (- z)) E0 /\
    is_tail_int (fun z => energy_density te g cl Al 0 z) El /\
    layers_energy te g cs ABs ds Ei Ki /\
    E = E0 + El + Ei /\
    K = E0 / (2 * snd c0) + El / (2 * snd cl) + Ki.

(** [pts] is a strictly increasing grid from a to b with spacing at most h *)
Definition is_grid (a b h : R) (pts : list R) : Prop :=
  hd 0 pts = a /\ last pts 0 = b /\
  forall k, (S k < List.length pts)%nat ->
    nth k pts 0 < nth (S k) pts 0 /\ nth (S k) pts 0 <= nth k pts 0 + h.

(** a < ... strictly increasing list *)
Definition increasing (l : list R) : Prop :=
  forall i j, (i < j < List.length l)%nat -> nth i l 0 < nth j l 0.

(** Outcome required of a search for sign changes of D: the grid cells in which
    D changes sign each give one root, lowest first, until n are found. *)
Definition search_spec (D : R -> R) (a b h : R) (n : nat) (oms : list R) : Prop :=
  (List.length oms <= n)%nat /\
  increasing oms /\
  (forall w, In w oms -> a < w < b /\ D w = 0) /\
  (b <= a -> oms = []) /\
  (a < b -> exists pts, is_grid a b h pts /\
     (forall w, In w oms -> exists k, (S k < List.length pts)%nat /\
        nth k pts 0 < w < nth (S k) pts 0 /\ D (nth k pts 0) * D (nth (S k) pts 0) < 0) /\
     (forall k, (S k < List.length pts)%nat -> D (nth k pts 0) * D (nth (S k) pts 0) < 0 ->
        (exists w, In w oms /\ nth k pts 0 < w < nth (S k) pts 0 /\
           forall w', In w' oms -> nth k pts 0 < w' < nth (S k) pts 0 -> w' = w) \/
        (List.length oms = n /\ forall w, In w oms -> w < nth k pts 0))).

(** a root finder: on a sign-changing bracket it returns a root of f strictly
    inside the bracket *)
Definition finds_roots (root : (R -> R) -> R -> R -> R) (f : R -> R) : Prop :=
  forall a b, a < b -> f a * f b < 0 -> a < root f a b < b /\ f (root f a b) = 0.

(** two neighbouring layers match at their interface: [x] = (eps, c, (A, B), h)
    with h the distance from the reference point of the layer to the
    interface.  TE: field and derivative are continuous; TM: field and
    derivative divided by eps. *)
Definition matched (te : bool) (x y : R * C * (C * C) * R) : Prop :=
  let '(e1, c1, (A1, B1), h1) := x in
  let '(e2, c2, (A2, B2), h2) := y in
  wave c1 A1 B1 h1 = wave c2 A2 B2 (- h2) /\
  if te then dwave c1 A1 B1 h1 = dwave c2 A2 B2 (- h2)
  else (dwave c1 A1 B1 h1 / RtoC e1 = dwave c2 A2 B2 (- h2) / RtoC e2)%C.
Fixpoint all_matched (te : bool) (l : list (R * C * (C * C) * R)) : Prop :=
  match l with
  | x :: ((y :: _) as t) => matched te x y /\ all_matched te t
  | _ => True
  end.

(** The state with an incoming wave of amplitude [amp] in cladding 0 (lower) or
    1 (upper) and no incoming wave in the other one: matched at every interface;
    A travels upwards, B downwards. *)
Definition scattering (te : bool) (clad : nat) (es : list R) (cs : list C) (hs : list R) (As Bs : list C) (amp : C) : Prop :=
  List.length As = List.length es /\ List.length Bs = List.length es /\
  all_matched te (combine (combine (combine es cs) (combine As Bs)) hs) /\
  hd (RtoC 0) As = (if Nat.eqb clad 0 then amp else RtoC 0) /\
  last Bs (RtoC 0) = (if Nat.eqb clad 0 then RtoC 0 else amp).
(** power flowing upwards in a cladding, up to a common factor *)
Definition power_up (te : bool) (e : R) (c A B : C) : R := fst c / (if te then 1 else e) * (sq A - sq B).
