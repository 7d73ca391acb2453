(** Vocabulary for the statements about Minimize. *)
From Verif Require Import Py MinimizeModel.
Open Scope R_scope.
Open Scope list_scope.

(** The two documented forms of bounds for n parameters and the limits they mean. *)
Inductive documented : nat -> pyv -> list R -> list R -> Prop :=
| doc_two n l u : documented n (PList [PNum l; PNum u]) (repeat l n) (repeat u n)
| doc_many lbs ubs : lbs <> [] -> List.length ubs = List.length lbs ->
    documented (List.length lbs) (PList (map (fun p => PTuple [PNum (fst p); PNum (snd p)]) (combine lbs ubs))) lbs ubs.
(** Component by component between the limits. *)
Definition within (lbs ubs p : list R) : Prop :=
  List.length p = List.length lbs /\ forall i, (i < List.length p)%nat -> nth i lbs 0 <= nth i p 0 <= nth i ubs 0.
(** Limits that leave room. *)
Definition consistent (lbs ubs : list R) : Prop := forall i, (i < List.length lbs)%nat -> nth i lbs 0 <= nth i ubs 0.
(** What Adam makes of the gradients g 0, g 1, ... of one parameter: the two moments
    after t steps and the direction of step t (from 1). *)
Fixpoint moment (b : R) (g : nat -> R) (t : nat) : R :=
  match t with O => 0 | S k => b * moment b g k + (1 - b) * g k end.
Definition direction (eps b1 b2 : R) (g : nat -> R) (t : nat) : R :=
  (moment b1 g t / (1 - b1 ^ t)) / (sqrt (moment b2 (fun i => g i * g i) t / (1 - b2 ^ t)) + eps).
(** The gradients the objective answered to the calls h0 ++ cs, from position length h0
    on. *)
Fixpoint answers {A} (obj : objective A) (h0 cs : list (call A)) : list (result (R * list R)) :=
  match cs with [] => [] | c :: t => obj (h0 ++ [c]) :: answers obj (h0 ++ [c]) t end.
(** Snapping one number. *)
Definition clip (l u x : R) : R := Rmin (Rmax x l) u.
(** A minimiser from scipy that calls back only with the point it evaluated last. *)
Fixpoint honest (last : option (list R)) (p : scipy) : Prop :=
  match p with
  | SDone _ => True
  | SEval x k => forall o, honest (Some x) (k o)
  | SCallback x k => last = Some x /\ honest last k
  end.
(** An objective that fails unless it is handed the optimiser as last argument. *)
Definition wants_self {A} (obj : objective A) : Prop :=
  forall h c, (forall l, ca_args c <> l ++ [ASelf]) -> obj (h ++ [c]) = Raise TypeError.
(** An objective without memory that answers with a gradient of the right shape. *)
Definition smooth {A} (obj : objective A) (f : list R -> R) (df : list R -> list R) : Prop :=
  (forall h c, obj (h ++ [c]) = Ok (f (ca_x c), df (ca_x c))) /\ forall x, List.length (df x) = List.length x.
(** When the array is not snapped in a run of one epoch. *)
Definition harmless (b : pyv) (nep : nat) (p : list R) : Prop :=
  b = PNone \/ nep <> 1%nat \/ exists lbs ubs, documented (List.length p) b lbs ubs /\ within lbs ubs p.
