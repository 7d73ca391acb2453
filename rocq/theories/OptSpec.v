(** Vocabulary for the run options: dictionaries as finite maps, the documented
    options, programs that only touch dictionaries they own. *)
From Verif Require Import Py OptModel.
Open Scope string_scope.
Open Scope list_scope.
Open Scope R_scope.

(** the value under a name *)
Definition lookup (d : list (string * pval)) (n : string) : option pval := option_map snd (find (fun p => String.eqb (fst p) n) d).
(** all names used are among the given ones *)
Definition only (d : list (string * pval)) (names : list string) : Prop := forall n, lookup d n <> None -> In n names.

(** What the docstrings say (gme.py 722-794, exc.py 295-301): the defaults of the
    options for the guided-mode expansion; for the four options whose default
    the text leaves open, the first of the listed values. *)
Definition documented : list (string * pval) :=
  [("delta_gabs", PFloat (1 / 10 ^ 15)); ("delta_gx", PFloat (1 / 10 ^ 15)); ("symm_thr", PFloat (1 / 10 ^ 8)); ("kz_symmetry", PNone);
   ("use_sparse", PBool false); ("only_gmodes", PBool false); ("verbose", PBool true); ("compute_im", PBool true);
   ("numeig", PInt 10); ("eig_sigma", PFloat 0); ("gmode_npts", PInt 1000); ("gmode_step", PFloat (1 / 100)); ("gmode_tol", PFloat (1 / 10 ^ 10)); ("gmode_inds", PList [0%Z]);
   ("gmode_compute", PStr "exact"); ("gradients", PStr "exact"); ("eig_solver", PStr "eigh"); ("eps_eff", PStr "average")].
Definition documented_ex : list (string * pval) := [("verbose_ex", PBool true); ("numeig_ex", PInt 10)].
(** the value in force: the caller's, otherwise the documented one *)
Definition in_force (doc caller : list (string * pval)) (n : string) : option pval :=
  match lookup caller n with Some v => Some v | None => lookup doc n end.
(** the attribute that holds it: mode indices are turned into an array *)
Definition held (n : string) (v : option pval) : option pval := if String.eqb n "gmode_inds" then option_map PArray v else v.

(** the solver of the photonic part has the caller's options [G] in force at [ks] *)
Definition gme_configured (G : list (string * pval)) (ks : list (R * R)) (o : list (string * pval)) : Prop :=
  lookup o "_kpoints" = Some (PKpts ks) /\
  lookup o "angles" = Some (match lookup G "angles" with Some v => v | None => PList [] end) /\
  forall n, In n (map fst documented) -> lookup o n = held n (in_force documented G n).
Definition exc_configured (E : list (string * pval)) (ks : list (R * R)) (o : list (string * pval)) : Prop :=
  lookup o "_kpoints" = Some (PKpts ks) /\ forall n, In n (map fst documented_ex) -> lookup o n = in_force documented_ex E n.

(** A reference of the user: a dictionary created before, not one of the two default
    dictionaries. *)
Definition own (n r : nat) : Prop := (2 <= r < n)%nat.
Definition own_opt (n : nat) (g : option nat) : Prop := match g with Some r => own n r | None => True end.
(** programs that use dictionaries after creating them; n: number of dictionaries so far *)
Fixpoint sound (n : nat) (l : list act) : Prop :=
  match l with
  | [] => True
  | ANew _ :: t => sound (S n) t
  | ASet r _ _ :: t => own n r /\ sound n t
  | ARun _ g e _ :: t => own_opt n g /\ own_opt n e /\ sound n t
  end.
(** what the caller passed *)
Definition passed (h : list (list (string * pval))) (g : option nat) : list (string * pval) := match g with Some r => nth r h [] | None => [] end.
(** lines joined by line feeds *)
Definition text_of (l : list string) : string := String.concat lf l.
(** the names that may be passed *)
Definition gme_names : list string := "kpoints" :: "angles" :: map fst documented.
Definition exc_names : list string := "kpoints" :: map fst documented_ex.
(** a line of a text that names a value *)
Definition line (show : pval -> string) (indent n : string) (v : pval) : string := (indent ++ n ++ " = " ++ show v ++ ", ")%string.
(** the options that the texts list *)
Definition listed : list string := ["gmode_compute"; "gmode_inds"; "gmode_step"; "gradients"; "eig_solver"; "eig_sigma"; "eps_eff"].
(** the value itself *)
Definition val_of (v : option pval) : pval := match v with Some v => v | None => PNone end.
(** the action runs the i-th object *)
Definition runs_on (i : nat) (a : act) : bool := match a with ARun j _ _ _ => Nat.eqb i j | _ => false end.
(** the k-points of a solver that is called directly: those given, otherwise the origin *)
Definition asked (kw : list (string * pval)) (ks : list (R * R)) : Prop :=
  lookup kw "kpoints" = Some (PKpts ks) \/ (lookup kw "kpoints" = None /\ ks = [(0, 0)]).
