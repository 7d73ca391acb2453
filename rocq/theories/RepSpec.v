(** What the reports of a run should say. *)
From Verif Require Import Py RepModel.
Open Scope R_scope.

(** the time spent on a kind of step, and altogether, according to the steps done *)
Definition same_step (a b : step) : bool :=
  match a, b with
  | SGuided, SGuided | SEpsInv, SEpsInv | SBuild, SBuild | SSymm, SSymm | SDiag, SDiag | SOther, SOther => true
  | _, _ => false
  end.
Definition spent (a : step) (l : list (step * R)) : R := rsuml (map snd (filter (fun x => same_step a (fst x)) l)).
Definition elapsed (l : list (step * R)) : R := rsuml (map snd l).
(** a line about a step shows the time spent on it and its share, the other line
    shows the time elapsed *)
Definition honest (l : list (step * R)) (x : line) : Prop :=
  ln_sec x = match ln_what x with Some a => spent a l | None => elapsed l end /\
  match ln_perc x with Some p => p * elapsed l = 100 * ln_sec x | None => True end.
(** the percentage a line shows, 0 if none *)
Definition shown (x : line) : R := match ln_perc x with Some p => p | None => 0 end.
(** the lines about a step *)
Definition of_step (b : step) (x : line) : bool := match ln_what x with Some a => same_step b a | None => false end.
