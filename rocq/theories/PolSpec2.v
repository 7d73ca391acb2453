(** Relations between wells and between photonic modes. *)
From Coq Require Import List.
From Verif Require Import Py CBase FieldsModel RecipModel ExcModel PolModel.
Open Scope R_scope.

(** all wells have [M] levels at k-point [kind] *)
Definition filled (M kind : nat) (ws : list exc) : Prop := forall s, In s ws -> exists rows row, ex_eners s = Some rows /\ nth_error rows kind = Some row /\ List.length row = M.
(** zero oscillator strength *)
Definition dark (s : exc) : Prop := exists osc, ex_osc s = Some osc /\ nth 0 osc 0 = 0 /\ nth 1 osc 0 = 0 /\ nth 2 osc 0 = 0.
(** the same well with the envelope functions multiplied by [fi] *)
Definition same_well (kind : nat) (fi : nat -> C) (s s' : exc) : Prop :=
  ex_z s' = ex_z s /\ ex_osc s' = ex_osc s /\ ex_rc s' = ex_rc s /\ ex_eners s' = ex_eners s /\
  forall nu W, ft_wavef s kind nu = Ok W -> exists W', ft_wavef s' kind nu = Ok W' /\ forall g, W' g = (fi nu * W g)%C.
(** the same photonic modes with the fields multiplied by [th] *)
Definition same_light (kind : nat) (th : nat -> C) (p p' : phot) : Prop :=
  ph_N p' = ph_N p /\ ph_freqs p' = ph_freqs p /\ ph_ims p' = ph_ims p /\
  forall n z E, ph_E p kind n z = Ok E -> exists E', ph_E p' kind n z = Ok E' /\
    forall g, fst (fst E') g = (th n * fst (fst E) g)%C /\ snd (fst E') g = (th n * snd (fst E) g)%C /\ snd E' g = (th n * snd E g)%C.
(** [t] numbers the indices below [n] anew *)
Definition permutes (n : nat) (t : nat -> nat) : Prop :=
  (forall i, (i < n)%nat -> (t i < n)%nat) /\ (forall i j, (i < n)%nat -> (j < n)%nat -> t i = t j -> i = j).
