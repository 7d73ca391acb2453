(** Model of the run options: keyword dictionaries, set_run_options of
    gme/gme.py and exc/exc.py, the handing on of options by HopfieldPol.run in
    pol/pol.py, and the __repr__ methods that list options.  The computations
    that follow the setting of the options are arguments ([gbody], [ebody]) that
    may raise. *)
From Verif Require Import Py.
Open Scope string_scope.
Open Scope list_scope.
Open Scope R_scope.

(** The values an option may have; an array of k-points is a list of pairs.
    [PArray v]: np.array(v) (gme.py 820-821). *)
Inductive pval := PStr (s : string) | PFloat (x : R) | PInt (z : Z) | PBool (b : bool) | PNone | PList (l : list Z) | PArray (v : pval) | PKpts (ks : list (R * R)).
(** a Python dictionary: keys in the order of insertion (pol.py 244-245) *)
Notation dict := (list (string * pval)) (only parsing).
(** d[k] if present (pol.py 295, **gme_options) *)
Fixpoint dget (d : dict) (k : string) : option pval :=
  match d with
  | [] => None
  | (k', v) :: t => if String.eqb k k' then Some v else dget t k
  end.
(** d[k] = v (pol.py 291-292): replaces in place or appends *)
Fixpoint dset (d : dict) (k : string) (v : pval) : dict :=
  match d with
  | [] => [(k, v)]
  | (k', v') :: t => if String.eqb k k' then (k', v) :: t else (k', v') :: dset t k v
  end.
(** setattr for a list of options (gme.py 818-824, exc.py 306-309) *)
Definition set_all (o l : dict) : dict := fold_left (fun o p => dset o (fst p) (snd p)) l o.
(** A call f( **kw) of a function with the given parameters and defaults: an unknown
    name is a TypeError (gme.py 870, exc.py 325). *)
Definition bind_kw (sig kw : dict) : result dict :=
  if forallb (fun p => match dget sig (fst p) with Some _ => true | None => false end) kw
  then Ok (map (fun p => (fst p, match dget kw (fst p) with Some v => v | None => snd p end)) sig)
  else Raise TypeError.
(** gme.py 703-721, the parameters of GuidedModeExp.set_run_options *)
Definition gme_sig : dict :=
  [("gmode_compute", PStr "exact"); ("gmode_inds", PList [0%Z]); ("gmode_npts", PInt 1000); ("gmode_step", PFloat (1 / 100)); ("gmode_tol", PFloat (1 / 10 ^ 10));
   ("numeig", PInt 10); ("compute_im", PBool true); ("gradients", PStr "exact"); ("eig_solver", PStr "eigh"); ("eig_sigma", PFloat 0); ("eps_eff", PStr "average");
   ("verbose", PBool true); ("kz_symmetry", PNone); ("symm_thr", PFloat (1 / 10 ^ 8)); ("delta_gx", PFloat (1 / 10 ^ 15)); ("delta_gabs", PFloat (1 / 10 ^ 15));
   ("use_sparse", PBool false); ("only_gmodes", PBool false)].
(** exc.py 294, the parameters of ExcitonSchroedEq.set_run_options *)
Definition exc_sig : dict := [("numeig_ex", PInt 10); ("verbose_ex", PBool true)].
(** gme.py 796-824: all options become attributes of the solver, gmode_inds as an array *)
Definition gme_set (o kw : dict) : result dict :=
  let* opts := bind_kw gme_sig kw in
  Ok (set_all o (map (fun p => (fst p, if String.eqb (lower (fst p)) "gmode_inds" then PArray (snd p) else snd p)) opts)).
(** exc.py 303-309 *)
Definition exc_set (o kw : dict) : result dict :=
  let* opts := bind_kw exc_sig kw in Ok (set_all o opts).
(** the arguments that are not part of **kwargs (gme.py 826-829, exc.py 311) *)
Definition without (names : list string) (kw : dict) : dict := filter (fun p => negb (existsb (String.eqb (fst p)) names)) kw.
(** gme.py 826-873, the beginning of GuidedModeExp.run called with **kw; [angles] is
    kept as an attribute of the model only.  When an exception is raised, the
    attributes set before stay. *)
Definition gme_run (gbody : dict -> result unit) (o kw : dict) : dict * result unit :=
  match gme_set o (without ["kpoints"; "angles"] kw) with
  | Raise e => (o, Raise e)
  | Ok o =>
      let o := dset o "_kpoints" (match dget kw "kpoints" with Some v => v | None => PKpts [(0, 0)] end) in
      let o := dset o "angles" (match dget kw "angles" with Some v => v | None => PList [] end) in
      (o, gbody o)
  end.
(** exc.py 311-330, the beginning of ExcitonSchroedEq.run called with **kw *)
Definition exc_run (ebody : dict -> result unit) (o kw : dict) : dict * result unit :=
  match exc_set o (without ["kpoints"] kw) with
  | Raise e => (o, Raise e)
  | Ok o =>
      let o := dset o "_kpoints" (match dget kw "kpoints" with Some v => v | None => PKpts [(0, 0)] end) in
      (o, ebody o)
  end.
(** pol.py 300-301: the wells one after the other *)
Fixpoint exc_runs (ebody : dict -> result unit) (os : list dict) (kw : dict) : list dict * result unit :=
  match os with
  | [] => ([], Ok tt)
  | o :: t =>
      let (o, r) := exc_run ebody o kw in
      match r with
      | Raise e => (o :: t, Raise e)
      | Ok _ => let (t, r) := exc_runs ebody t kw in (o :: t, r)
      end
  end.

(** A HopfieldPol: its own k-points, the attributes of self.gme and of the elements of
    self.exc_list (pol.py 30-51, 282) *)
Record pobj := PObj { p_kpts : option pval; p_gme : list (string * pval); p_exc : list (list (string * pval)) }.
(** Dictionaries live in a heap.  Cells 0 and 1 are the default values of gme_options
    and exc_options, which Python creates once (pol.py 244-245). *)
Notation dheap := (list (list (string * pval))) (only parsing).
(** read and write of a cell (pol.py 291-301) *)
Definition cell (h : dheap) (r : nat) : dict := nth r h [].
Fixpoint put (h : dheap) (r : nat) (d : dict) : dheap :=
  match h, r with
  | [], _ => []
  | _ :: t, O => d :: t
  | x :: t, S r => x :: put t r d
  end.
(** pol.py 243-301, the beginning of HopfieldPol.run; [None]: argument not given *)
Definition pol_opts (gbody ebody : dict -> result unit) (h : dheap) (o : pobj) (g e : option nat) (ks : list (R * R)) : dheap * pobj * result unit :=
  let rg := match g with Some r => r | None => 0%nat end in
  let re := match e with Some r => r | None => 1%nat end in
  let h := put h rg (dset (cell h rg) "kpoints" (PKpts ks)) in
  let h := put h re (dset (cell h re) "kpoints" (PKpts ks)) in
  let (og, r) := gme_run gbody (p_gme o) (cell h rg) in
  let o := PObj (Some (PKpts ks)) og (p_exc o) in
  match r with
  | Raise x => (h, o, Raise x)
  | Ok _ =>
      let (oe, r) := exc_runs ebody (p_exc o) (cell h re) in
      (h, PObj (p_kpts o) og oe, r)
  end.

(** A program: the user creates dictionaries, changes the dictionaries made by themself,
    and calls run on any of the HopfieldPol objects (pol.py 243). *)
Inductive act :=
| ANew (d : list (string * pval))                                   (* d = {...} *)
| ASet (r : nat) (k : string) (v : pval)                  (* d[k] = v *)
| ARun (i : nat) (g e : option nat) (ks : list (R * R)).  (* pol.run(gme_options, exc_options, kpoints) *)
(** one action on the heap and the objects (pol.py 243-301) *)
Definition step (gbody ebody : dict -> result unit) (w : dheap * list pobj) (a : act) : dheap * list pobj :=
  let (h, os) := w in
  match a with
  | ANew d => (h ++ [d], os)
  | ASet r k v => (put h r (dset (cell h r) k v), os)
  | ARun i g e ks =>
      match nth_error os i with
      | None => (h, os)
      | Some o => let '(h, o, _) := pol_opts gbody ebody h o g e ks in (h, firstn i os ++ o :: skipn (S i) os)
      end
  end.
(** new objects and the two default dictionaries (pol.py 16-51, 244-245) *)
Definition start (gmax : R) (wells : list nat) : dheap * list pobj :=
  ([[]; []], map (fun n => PObj None [("gmax", PFloat gmax)] (List.repeat [] n)) wells).
(** all actions of a program (pol.py 243-301) *)
Definition history (gbody ebody : dict -> result unit) (gmax : R) (wells : list nat) (l : list act) : dheap * list pobj := fold_left (step gbody ebody) l (start gmax wells).

(** ** The texts *)
Section Texts.
(** repr of a value (gme.py 94), "{:.6f}" (pol.py 79) *)
Variable show : pval -> string.
Variable fixed6 : R -> string.
(** chr(10), chr(9) in the texts (gme.py 84, pol.py 74) *)
Definition lf : string := String (Ascii.ascii_of_nat 10) "".
Definition tab : string := String (Ascii.ascii_of_nat 9) "".
(** the loop over the options (gme.py 91-96, pwe.py 44-49, pol.py 71-76); an attribute
    that is not set is skipped *)
Definition option_lines (indent : string) (o : dict) (names : list string) : string :=
  fold_left (fun rep n => match dget o n with Some v => rep ++ indent ++ n ++ " = " ++ show v ++ ", " ++ lf | None => rep end)%string names "".
(** gme.py 83-99 *)
Definition repr_gme (gmax : pval) (o : dict) : string :=
  ("GuidedModeExp(" ++ lf ++ "phc = PhotCryst object" ++ ", " ++ lf ++ "gmax = " ++ show gmax ++ ", " ++ lf ++
   option_lines "" o ["gmode_compute"; "gmode_inds"; "gmode_step"; "gradients"; "eig_solver"; "eig_sigma"; "eps_eff"] ++ ")")%string.
(** pwe.py 38-52; the attributes pol and numeig are set by run (159-162) *)
Definition repr_pwe (gmax eps_eff : pval) (o : dict) : string :=
  ("PlaneWaveExp(" ++ lf ++ "layer = Layer object" ++ ", " ++ lf ++ "gmax = " ++ show gmax ++ ", " ++ lf ++ "eps_eff = " ++ show eps_eff ++ ", " ++ lf ++
   option_lines "" o ["pol"; "numeig"] ++ ")")%string.
(** pwe.py 159-162 *)
Definition pwe_set (o : dict) (pol : string) (numeig : Z) : dict := dset (dset o "pol" (PStr (lower pol))) "numeig" (PInt numeig).
(** pol.py 63-81; gmax is an attribute of self.gme from the start *)
Definition repr_pol (o : pobj) (zs : list R) : string :=
  ("HopfieldPol(" ++ lf ++ "phc = PhotCryst object" ++ ", " ++ lf ++ "GME: " ++ lf ++
   option_lines tab (p_gme o) ["gmax"; "gmode_compute"; "gmode_inds"; "gmode_step"; "gradients"; "eig_solver"; "eig_sigma"; "eps_eff"] ++
   "ESE at:" ++ lf ++ fold_left (fun rep z => rep ++ tab ++ " z = " ++ fixed6 z ++ ", " ++ lf)%string zs "" ++ ")")%string.
End Texts.
