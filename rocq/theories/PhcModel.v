(** Model of legume/phc/layer.py (Layer, ShapesLayer, FreeformLayer,
    QuantumWellLayer), legume/phc/phc.py (PhotCryst) and utils.z_to_lind.
    Simplifications: floats are reals; a mesh is a list of points (any array
    shape, flattened); a shape is seen through its public interface; shapes are
    not mutated after being added. *)
From Verif Require Import Py LatticeModel CBase.
Open Scope R_scope.

(** phc/shapes.py:7-61, the [Shape] interface: permittivity, [area],
    [is_inside] (vectorised there, pointwise here) and [compute_ft] (evaluated
    per reciprocal vector). *)
Record shape := mkShape {
  sh_eps : R;
  sh_area : R;
  sh_inside : R -> R -> bool;
  sh_ft : R * R -> C
}.

(** layer.py:7-36 and 82-107, attributes of a [ShapesLayer]; the lattice is
    kept on the crystal, which passes the same object to every layer. *)
Record layer := mkLayer {
  ly_zmin : R; ly_zmax : R; ly_zmid : R; ly_d : R;
  ly_epsb : R; ly_epsavg : R;
  ly_shapes : list shape
}.

(** layer.py:82-107, [ShapesLayer.__init__] *)
Definition shapes_layer (zmin zmax epsb : R) : layer :=
  mkLayer zmin zmax ((zmax + zmin) / 2) (zmax - zmin) epsb epsb [].

(** One argument of [add_shape]: a Shape, an iterable whose entries are shapes
    ([Some]) or other objects ([None]), or something not iterable. (phc/layer.py 120-138, phc/phc.py 124-155) *)
Inductive shapes_arg :=
| ShOne (s : shape)
| ShMany (l : list (option shape))
| ShNotIterable.

(** layer.py:128-132, the body of the loop for one accepted shape *)
Definition append_shape (area : R) (ly : layer) (s : shape) : layer :=
  mkLayer (ly_zmin ly) (ly_zmax ly) (ly_zmid ly) (ly_d ly) (ly_epsb ly)
          (ly_epsavg ly + (sh_eps s - ly_epsb ly) * sh_area s / area)
          (ly_shapes ly ++ [s]).

(** layer.py:126-138, the loop of [add_shape]: it mutates the layer entry by
    entry and raises at the first entry that is not a Shape. *)
Fixpoint add_shapes_loop (area : R) (ly : layer) (l : list (option shape))
  : layer * option exn :=
  match l with
  | [] => (ly, None)
  | Some s :: t => add_shapes_loop area (append_shape area ly s) t
  | None :: _ => (ly, Some ValueError)
  end.

(** layer.py:120-138, [ShapesLayer.add_shape] *)
Definition layer_add_shape (area : R) (ly : layer) (a : shapes_arg)
  : layer * option exn :=
  match a with
  | ShOne s => add_shapes_loop area ly [Some s]
  | ShMany l => add_shapes_loop area ly l
  | ShNotIterable => (ly, Some TypeError)
  end.

(** layer.py:140-157, [ShapesLayer.compute_ft] at one reciprocal vector *)
Definition near_zero (g : R * R) : bool := Rltb (Rabs (fst g) + Rabs (snd g)) (1 / 10 ^ 10).
(** layer.py:144-155 at one vector *)
Definition layer_ft_at (area : R) (ly : layer) (g : R * R) : C :=
  let ft := fold_left (fun acc s =>
              Cplus acc (Cmult (RtoC (sh_eps s - ly_epsb ly)) (sh_ft s g)))
              (ly_shapes ly) (RtoC 0) in
  let ind0 := if near_zero g then 1 else 0 in
  Cplus (Cmult (Cdiv ft (RtoC area)) (RtoC (1 - ind0))) (RtoC (ly_epsavg ly * ind0)).
(** layer.py:140-157 on a list of vectors *)
Definition layer_ft (area : R) (ly : layer) (gs : list (R * R)) : list C :=
  map (layer_ft_at area ly) gs.

(** layer.py:159-178, [ShapesLayer.compute_exc_ft].  [acc] is the running
    array FT; the division and the shift happen once per shape.  The test
    [FT[ind0][0] < 0] compares the first entry at G = 0; numpy orders complex
    numbers lexicographically. *)
Definition c_lt0 (z : C) : bool :=
  orb (Rltb (fst z) 0) (andb (Reqb (fst z) 0) (Rltb (snd z) 0)).
(** FT[ind0][0], layer.py:172-174 *)
Fixpoint first_zero (gs : list (R * R)) (vals : list C) : option C :=
  match gs, vals with
  | g :: gs', v :: vs => if near_zero g then Some v else first_zero gs' vs
  | _, _ => None
  end.
(** an elementwise operation of numpy on two arrays (layer.py:167-175) *)
Fixpoint zip_with {A B D} (f : A -> B -> D) (l : list A) (m : list B) : list D :=
  match l, m with
  | a :: l', b :: m' => f a b :: zip_with f l' m'
  | _, _ => []
  end.
(** the loop over the shapes, layer.py:164-175 *)
Fixpoint exc_ft_loop (area Vmax : R) (gs : list (R * R)) (shapes : list shape)
  (acc : list C) : result (list C) :=
  match shapes with
  | [] => Ok acc
  | s :: rest =>
      let ft := zip_with (fun g v => Cdiv (Cplus v (Cmult (RtoC Vmax) (sh_ft s g))) (RtoC area)) gs acc in
      match first_zero gs ft with
      | None => Raise IndexError
      | Some v0 =>
          let ft' := if c_lt0 v0
                     then zip_with (fun g v => if near_zero g then Cplus v (RtoC (Rabs Vmax)) else v) gs ft
                     else ft in
          exc_ft_loop area Vmax gs rest ft'
      end
  end.
(** layer.py:159-178 *)
Definition layer_exc_ft (area : R) (ly : layer) (Vmax : R) (gs : list (R * R)) : result (list C) :=
  exc_ft_loop area Vmax gs (ly_shapes ly) (map (fun _ => RtoC 0) gs).

(** layer.py:180-208, [ShapesLayer.get_eps].  [nmax] depends on the whole query;
    [np.int_] truncates a non-negative number, i.e. takes its integer part.
    For an empty mesh np.max raises ValueError. *)
Definition maxabs (l : list R) : R := fold_right (fun x m => Rmax (Rabs x) m) 0 l.
(** layer.py:195-199 *)
Definition nmax_of (L : lattice) (pts : list (R * R)) : Z :=
  let a_p := Rmin (sqrt (Rsqr (fst (lt_a1 L)) + Rsqr (snd (lt_a1 L))))
                  (sqrt (Rsqr (fst (lt_a2 L)) + Rsqr (snd (lt_a2 L)))) in
  (Int_part (sqrt (Rsqr (maxabs (map fst pts)) + Rsqr (maxabs (map snd pts))) / a_p) + 1)%Z.
(** [range(-n, n+1)] (phc/layer.py 202-203) *)
Definition zrange (n : Z) : list Z :=
  map (fun k => (Z.of_nat k - n)%Z) (seq 0 (Z.to_nat (2 * n + 1))).
(** layer.py:189 and 201-206 at one point *)
Definition eps_at (L : lattice) (ly : layer) (nmax : Z) (p : R * R) : R :=
  fold_left (fun e s =>
    fold_left (fun e n1 =>
      fold_left (fun e n2 =>
        if sh_inside s (fst p + IZR n1 * fst (lt_a1 L) + IZR n2 * fst (lt_a2 L))
                       (snd p + IZR n1 * snd (lt_a1 L) + IZR n2 * snd (lt_a2 L))
        then sh_eps s else e) (zrange nmax) e) (zrange nmax) e)
    (ly_shapes ly) (ly_epsb ly).
(** layer.py:180-208 *)
Definition layer_get_eps (L : lattice) (ly : layer) (pts : list (R * R)) : result (list R) :=
  match pts with
  | [] => Raise ValueError
  | _ => Ok (map (eps_at L ly (nmax_of L pts)) pts)
  end.

(** layer.py:255-263, [QuantumWellLayer.__init__] *)
Record qw := mkQW {
  qw_z : R; qw_V : R; qw_a : R; qw_M : R; qw_E0 : R; qw_loss : R; qw_osc : list R
}.

(** phc.py:13-37, [PhotCryst.__init__] *)
Record phc := mkPhc {
  pc_lattice : lattice;
  pc_clad_l : layer;       (* claddings[0] *)
  pc_clad_u : layer;       (* claddings[1] *)
  pc_layers : list layer;
  pc_qws : list qw
}.
(** phc.py:25-37 *)
Definition phc_init (L : lattice) (eps_l eps_u : R) : phc :=
  mkPhc L (shapes_layer (- 10 ^ 10) 0 eps_l) (shapes_layer 0 (10 ^ 10) eps_u) [] [].

(** claddings[1].z_min = ..., phc.py:88 *)
Definition set_zmin (ly : layer) (z : R) : layer :=
  mkLayer z (ly_zmax ly) (ly_zmid ly) (ly_d ly) (ly_epsb ly) (ly_epsavg ly) (ly_shapes ly).

(** [layers[-1].z_max], or 0 for an empty stack (phc.py:76-79) *)
Definition stack_top (layers : list layer) : R :=
  match rev layers with [] => 0 | ly :: _ => ly_zmax ly end.

(** phc.py:59-89, [add_layer].  The constructor call for 'freeform' passes a
    keyword [eps_b] that [FreeformLayer.__init__] (layer.py:216) does not take. *)
Definition add_layer (P : phc) (d epsb : R) (ty : string) : phc * option exn :=
  let zmin := stack_top (pc_layers P) in
  if String.eqb (lower ty) "shapes" then
    (mkPhc (pc_lattice P) (pc_clad_l P) (set_zmin (pc_clad_u P) (zmin + d))
           (pc_layers P ++ [shapes_layer zmin (zmin + d) epsb]) (pc_qws P), None)
  else if String.eqb (lower ty) "freeform" then (P, Some TypeError)
  else (P, Some ValueError).

(** phc.py:91-122, [add_qw] *)
Definition add_qw (P : phc) (q : qw) : phc * option exn :=
  if orb (Rleb (qw_z q) (ly_zmax (pc_clad_l P))) (Rleb (ly_zmin (pc_clad_u P)) (qw_z q))
  then (P, Some ValueError)
  else (mkPhc (pc_lattice P) (pc_clad_l P) (pc_clad_u P) (pc_layers P) (pc_qws P ++ [q]), None).

(** The [cladding] argument: None, an integer or a string. (phc/phc.py 124-155) *)
Inductive clad_arg := CladNone | CladInt (n : Z) | CladStr (s : string).

(** replacing one entry of a list in place (self.layers[layer], phc.py:151-153) *)
Fixpoint set_nth {A} (n : nat) (x : A) (l : list A) : list A :=
  match l, n with
  | [], _ => []
  | _ :: t, O => x :: t
  | h :: t, S k => h :: set_nth k x t
  end.

(** Python list indexing with a possibly negative index (phc/phc.py 124-155) *)
Definition py_index (len : nat) (i : Z) : option nat :=
  if (0 <=? i)%Z then (if (i <? Z.of_nat len)%Z then Some (Z.to_nat i) else None)
  else (if (- Z.of_nat len <=? i)%Z then Some (Z.to_nat (i + Z.of_nat len)) else None).

(** phc.py:124-155, [PhotCryst.add_shape].  Every layer in the model is a
    ShapesLayer, so the final TypeError branch (153-155) is never taken. *)
Definition clad_target (c : clad_arg) : option (result bool) :=   (* Some (Ok true) = upper *)
  match c with
  | CladNone => None
  | CladInt 0 => Some (Ok false)
  | CladInt 1 => Some (Ok true)
  | CladStr s => if String.eqb s "l" then Some (Ok false)
                 else if String.eqb s "u" then Some (Ok true)
                 else Some (Raise ValueError)
  | _ => Some (Raise ValueError)
  end.
(** phc.py:138-155 *)
Definition phc_add_shape (P : phc) (a : shapes_arg) (li : Z) (c : clad_arg) : phc * option exn :=
  let area := lt_ec_area (pc_lattice P) in
  match clad_target c with
  | Some (Raise e) => (P, Some e)
  | Some (Ok false) =>
      let (ly, r) := layer_add_shape area (pc_clad_l P) a in
      (mkPhc (pc_lattice P) ly (pc_clad_u P) (pc_layers P) (pc_qws P), r)
  | Some (Ok true) =>
      let (ly, r) := layer_add_shape area (pc_clad_u P) a in
      (mkPhc (pc_lattice P) (pc_clad_l P) ly (pc_layers P) (pc_qws P), r)
  | None =>
      if (Z.of_nat (List.length (pc_layers P)) <=? li)%Z then (P, Some ValueError)
      else match py_index (List.length (pc_layers P)) li with
           | None => (P, Some IndexError)
           | Some k =>
               match nth_error (pc_layers P) k with
               | None => (P, Some IndexError)
               | Some ly0 =>
                   let (ly, r) := layer_add_shape area ly0 a in
                   (mkPhc (pc_lattice P) (pc_clad_l P) (pc_clad_u P)
                          (set_nth k ly (pc_layers P)) (pc_qws P), r)
               end
           end
  end.

(** A history: the three mutating calls in any order, exceptions caught. (phc/phc.py 59-155) *)
Inductive op :=
| OpLayer (d epsb : R) (ty : string)
| OpQW (q : qw)
| OpShape (a : shapes_arg) (li : Z) (c : clad_arg).
(** one call of add_layer, add_qw or add_shape (phc.py:59-155) *)
Definition step (P : phc) (o : op) : phc * option exn :=
  match o with
  | OpLayer d e ty => add_layer P d e ty
  | OpQW q => add_qw P q
  | OpShape a li c => phc_add_shape P a li c
  end.
(** a sequence of such calls (phc/phc.py 59-155) *)
Definition run_ops (P : phc) (l : list op) : phc := fold_left (fun P o => fst (step P o)) l P.

(** phc.py:157-186, [PhotCryst.get_eps].  Masked read and masked assignment. *)
Fixpoint select {A} (mask : list bool) (l : list A) : list A :=
  match mask, l with
  | b :: m, x :: t => if b then x :: select m t else select m t
  | _, _ => []
  end.
(** eps_r[zlayer] = ..., phc.py:184 *)
Fixpoint scatter {A} (mask : list bool) (vals base : list A) : list A :=
  match mask, base with
  | b :: m, x :: t =>
      if b then match vals with v :: vs => v :: scatter m vs t | [] => x :: scatter m [] t end
      else x :: scatter m vals t
  | _, _ => base
  end.
(** phc.py:182 *)
Definition zmask (ly : layer) (zs : list R) : list bool :=
  map (fun z => Rleb (ly_zmin ly) z && Rltb z (ly_zmax ly)) zs.
(** self.layers + self.claddings, phc.py:181 *)
Definition regions (P : phc) : list layer := pc_layers P ++ [pc_clad_l P; pc_clad_u P].
(** the loop, phc.py:181-184 *)
Fixpoint get_eps_loop (L : lattice) (regs : list layer) (xy : list (R * R)) (zs : list R)
  (acc : list R) : result (list R) :=
  match regs with
  | [] => Ok acc
  | ly :: rest =>
      let mask := zmask ly zs in
      if existsb (fun b => b) mask then
        let* vals := layer_get_eps L ly (select mask xy) in
        get_eps_loop L rest xy zs (scatter mask vals acc)
      else get_eps_loop L rest xy zs acc
  end.
(** phc.py:157-186 *)
Definition phc_get_eps (P : phc) (pts : list (R * R * R)) : result (list R) :=
  let xy := map fst pts in
  let zs := map snd pts in
  get_eps_loop (pc_lattice P) (regions P) xy zs (map (fun _ => 0) pts).

(** phc.py:188-202, [get_eps_bounds] *)
Definition get_eps_bounds (P : phc) : R * R :=
  fold_left (fun mm ly =>
    let mm := (Rmin (fst mm) (ly_epsb ly), Rmax (snd mm) (ly_epsb ly)) in
    fold_left (fun mm s => (Rmin (fst mm) (sh_eps s), Rmax (snd mm) (sh_eps s)))
      (ly_shapes ly) mm)
    (regions P) (ly_epsb (pc_clad_l P), ly_epsb (pc_clad_l P)).

(** utils.py:237-250, [z_to_lind]: the while loop walks up the layers. *)
Fixpoint z_loop (z zmax : R) (lind : nat) (rest : list layer) : nat * R :=
  if Rltb zmax z then
    match rest with
    | [] => (lind, zmax)
    | ly :: rest' => z_loop z (ly_zmax ly) (S lind) rest'
    end
  else (lind, zmax).
(** utils.py:237-250 *)
Definition z_to_lind (P : phc) (z : R) : nat :=
  let N := List.length (pc_layers P) in
  let (lind, zmax) := z_loop z (ly_zmax (pc_clad_l P)) 0 (pc_layers P) in
  if Rltb zmax z && (lind =? N)%nat then S lind else lind.

(** phc.py:49-57, [z_grid]; indexing an empty layer list raises *)
Definition z_grid (P : phc) (Nz : nat) (dst : R) : result (list R) :=
  match pc_layers P with
  | [] => Raise IndexError
  | ly :: _ => Ok (linspace (ly_zmin ly - dst) (stack_top (pc_layers P) + dst) Nz)
  end.
