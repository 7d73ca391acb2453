(** Model of legume/minimize.py: class Minimize.

    Arrays live on a heap, since adam writes into arrays in place.  The objective is an
    arbitrary function of everything it has been called with so far, so it may keep
    state of its own; it does not write to the optimiser or to the heap.  Parameter
    arrays are one-dimensional arrays of reals; nan and inf do not exist here.  Times
    and printing (_disp, lines 58-66) are left out. *)
From Verif Require Import Py.
Open Scope R_scope.
Open Scope list_scope.

(** Python values that can be given as bounds.  Strings and arrays are left out. (minimize.py 33-56) *)
Inductive pyv := PNone | PNum (r : R) | PTuple (l : list pyv) | PList (l : list pyv).
(** An argument of the objective: one given by the user in args, or the optimiser. (minimize.py 106-109) *)
Inductive arg (A : Type) := AUser (a : A) | ASelf.
Arguments AUser {A} a.
Arguments ASelf {A}.
(** What the objective can see of the optimiser when it is called. (minimize.py 96-104, 191-204) *)
Record view := View { vi_iter : nat; vi_of : list R; vi_params : list R; vi_nep : nat }.
(** One call of the objective: the array, the further arguments, the optimiser. (minimize.py 115, 206-217) *)
Record call (A : Type) := Call { ca_x : list R; ca_args : list (arg A); ca_view : view }.
Arguments Call {A} _ _ _.
Arguments ca_x {A} _.
Arguments ca_args {A} _.
Arguments ca_view {A} _.
(** The objective with its gradient (autograd's value_and_grad): its value on the last
    call of a history. *)
Notation objective A := (list (call A) -> result (R * list R)) (only parsing).

(** The object: lines 12-20, 96-104; mi_last is of_last of line 216, mi_heap the arrays,
    mi_calls the calls of the objective so far (not in the code).  t_store, disp_p and
    p_opt are left out. *)
Record minst (A : Type) := Mi { mi_iter : nat; mi_of : list R; mi_params : nat; mi_bounds : option (list pyv);
  mi_nep : nat; mi_last : option R; mi_heap : list (list R); mi_calls : list (call A) }.
Arguments Mi {A} _ _ _ _ _ _ _ _.
Arguments mi_iter {A} _.
Arguments mi_of {A} _.
Arguments mi_params {A} _.
Arguments mi_bounds {A} _.
Arguments mi_nep {A} _.
Arguments mi_last {A} _.
Arguments mi_heap {A} _.
Arguments mi_calls {A} _.

(** the contents of an array (self.params, minimize.py 96 and 129) *)
Definition read (h : list (list R)) (r : nat) : list R := nth r h [].
(** writing into an array, minimize.py 134-135 *)
Fixpoint write (h : list (list R)) (r : nat) (v : list R) : list (list R) :=
  match h, r with
  | [], _ => []
  | _ :: t, O => v :: t
  | x :: t, S r => x :: write t r v
  end.
(** The array self.params. (minimize.py 96, 129) *)
Definition cur {A} (s : minst A) : list R := read (mi_heap s) (mi_params s).

(** numpy arithmetic on two arrays of one shape; the broadcasting of arrays of size 1 is
    left out. (minimize.py 129, 132-135, 143-158) *)
Definition zipw (f : R -> R -> R) (a b : list R) : result (list R) :=
  if Nat.eqb (List.length a) (List.length b) then Ok (map (fun p => f (fst p) (snd p)) (combine a b)) else Raise ValueError.

(** len(v), v[0], v[1] of a Python value. (minimize.py 33-56) *)
Definition seq_of (v : pyv) : result (list pyv) := match v with PTuple l | PList l => Ok l | _ => Raise TypeError end.
(** v[i], minimize.py 40, 132-133 *)
Definition item (v : pyv) (i : nat) : result pyv :=
  let* l := seq_of v in match nth_error l i with Some x => Ok x | None => Raise IndexError end.
(** isinstance(v, tuple), minimize.py 40 *)
Definition is_tuple (v : pyv) : bool := match v with PTuple _ => true | _ => false end.

(** Minimize._parse_bounds, lines 33-56, for size parameters.  The bare except turns any
    exception into ValueError. *)
Definition parse_inner (size : nat) (b : pyv) : result (option (list pyv)) :=
  match b with
  | PNone => Ok None
  | _ =>
    let* b0 := item b 0 in
    let* l := seq_of b in
    if negb (is_tuple b0) then
      if Nat.eqb (List.length l) 2 then Ok (Some (repeat (PTuple l) size)) else Raise ValueError
    else if Nat.eqb (List.length l) size then
      let* ls := mapM (fun x => let* s := seq_of x in Ok (List.length s)) l in
      if forallb (fun n => Nat.eqb n 2) ls then Ok (Some l) else Raise ValueError
    else Raise ValueError
  end.
(** minimize.py 33-56, with the final except *)
Definition parse_bounds (size : nat) (b : pyv) : result (option (list pyv)) :=
  match parse_inner size b with Ok r => Ok r | Raise _ => Raise ValueError end.

(** A number out of a bound, lines 132-135.  An entry that is no number makes the
    comparison fail; which exception it is depends on shapes and is not modelled. *)
Definition num (v : pyv) : result R := match v with PNum r => Ok r | _ => Raise TypeError end.
(** np.array([b[i] for b in self.bounds]), minimize.py 132-133 *)
Definition limits (bs : list pyv) (i : nat) : result (list R) := mapM (fun b => let* x := item b i in num x) bs.

(** Minimize._step_adam, lines 142-159, with eps for epsilon (1e-8 in the code).
    Division by zero, which numpy answers with inf or nan, gives some real here; it does
    not happen for beta1, beta2 in [0, 1). *)
Definition step_adam (eps : R) (g m v : list R) (it : nat) (b1 b2 : R) : result (list R * list R * list R) :=
  let* m' := zipw (fun x y => b1 * x + (1 - b1) * y) m g in
  let mt := map (fun x => x / (1 - b1 ^ (it + 1))) m' in
  let* v' := zipw (fun x y => b2 * x + (1 - b2) * (y * y)) v g in
  let vt := map (fun x => x / (1 - b2 ^ (it + 1))) v' in
  let* ga := zipw (fun x y => x / (sqrt y + eps)) mt vt in
  Ok (ga, m', v').
(** the default of line 149 of minimize.py *)
Definition epsilon : R := 1 / 10 ^ 8.

(** Snapping, lines 131-135: the array is written in place. *)
Definition snap (lbs ubs p : list R) : result (list R) :=
  let* p1 := zipw (fun x l => if Rltb x l then l else x) p lbs in
  zipw (fun x u => if Rltb u x then u else x) p1 ubs.

Section Run.
Context {A : Type}.
Implicit Types (s : minst A) (obj : objective A).

(** Calling the objective with the array x and arguments args; the call is logged. (minimize.py 115) *)
Definition ask obj s (x : list R) (args : list (arg A)) : minst A * result (R * list R) :=
  let h := mi_calls s ++ [Call x args (View (mi_iter s) (mi_of s) (cur s) (mi_nep s))] in
  (Mi (mi_iter s) (mi_of s) (mi_params s) (mi_bounds s) (mi_nep s) (mi_last s) (mi_heap s) h, obj h).

(** One pass through the loop of Minimize.adam, lines 111-138, for a given iteration;
    mv holds mopt and vopt once iteration 0 has set them.  callback (lines 137-138) may
    raise but does not write to the optimiser. *)
Definition adam_epoch obj (callback : option (view -> result unit)) (nep : nat) (step b1 b2 : R) (args : list (arg A)) (bounds_given : bool)
    (iteration : nat) (mv : list R * list R) s : minst A * result (list R * list R) :=
  let s1 := Mi (mi_iter s + 1) (mi_of s) (mi_params s) (mi_bounds s) (mi_nep s) (mi_last s) (mi_heap s) (mi_calls s) in
  let (s2, out) := ask obj s1 (cur s1) args in
  match out with
  | Raise e => (s2, Raise e)
  | Ok (of, grad) =>
    let s3 := Mi (mi_iter s2) (mi_of s2 ++ [of]) (mi_params s2) (mi_bounds s2) (mi_nep s2) (mi_last s2) (mi_heap s2) (mi_calls s2) in
    let mv0 := if Nat.eqb iteration 0 then (map (fun _ => 0) grad, map (fun _ => 0) grad) else mv in
    match step_adam epsilon grad (fst mv0) (snd mv0) iteration b1 b2 with
    | Raise e => (s3, Raise e)
    | Ok (ga, m', v') =>
      let moved := if Nat.ltb (iteration + 1) nep then zipw (fun p g => p - step * g) (cur s3) ga else Ok (cur s3) in
      match moved with
      | Raise e => (s3, Raise e)
      | Ok p =>
        let s4 := if Nat.ltb (iteration + 1) nep
          then Mi (mi_iter s3) (mi_of s3) (List.length (mi_heap s3)) (mi_bounds s3) (mi_nep s3) (mi_last s3) (mi_heap s3 ++ [p]) (mi_calls s3)
          else s3 in
        let snapped := if bounds_given then
            match mi_bounds s4 with
            | None => Raise TypeError
            | Some bs => let* lbs := limits bs 0 in let* ubs := limits bs 1 in snap lbs ubs (cur s4)
            end
          else Ok (cur s4) in
        match snapped with
        | Raise e => (s4, Raise e)
        | Ok q =>
          let s5 := if bounds_given
            then Mi (mi_iter s4) (mi_of s4) (mi_params s4) (mi_bounds s4) (mi_nep s4) (mi_last s4) (write (mi_heap s4) (mi_params s4) q) (mi_calls s4)
            else s4 in
          match callback with
          | None => (s5, Ok (m', v'))
          | Some cb => match cb (View (mi_iter s5) (mi_of s5) (cur s5) (mi_nep s5)) with Ok _ => (s5, Ok (m', v')) | Raise e => (s5, Raise e) end
          end
        end
      end
    end
  end.

(** for iteration in range(Nepochs), lines 111-138; todo passes are left. *)
Fixpoint adam_loop obj callback nep step b1 b2 args given (todo iteration : nat) (mv : list R * list R) s : minst A * result unit :=
  match todo with
  | O => (s, Ok tt)
  | S t =>
    let (s', r) := adam_epoch obj callback nep step b1 b2 args given iteration mv s in
    match r with
    | Raise e => (s', Raise e)
    | Ok mv' => adam_loop obj callback nep step b1 b2 args given t (iteration + 1) mv' s'
    end
  end.

(** args with the optimiser at the end when pass_self, lines 106-109 and 210-213. *)
Definition with_self (pass_self : bool) (args : list A) : list (arg A) := map AUser args ++ (if pass_self then [ASelf] else []).

(** "if bounds:", line 131: a number would be false for 0 only, but numbers do not get
    through _parse_bounds. *)
Definition truthy (b : pyv) : bool :=
  match b with PNone => false | PNum r => negb (Reqb r 0) | PTuple l | PList l => negb (Nat.eqb (List.length l) 0) end.

(** Minimize.adam, lines 68-140.  pstart is the place of the caller's array on the heap.
    The result is the array self.params (its place) and of_list.  A negative Nepochs
    does the same as 0. *)
Definition adam obj (pstart : nat) (nep : nat) (bounds : pyv) (step b1 b2 : R) (args : list A) (pass_self : bool)
    (callback : option (view -> result unit)) s : minst A * result (nat * list R) :=
  let s0 := Mi (mi_iter s) (mi_of s) pstart (mi_bounds s) (mi_nep s) (mi_last s) (mi_heap s) (mi_calls s) in
  match parse_bounds (List.length (cur s0)) bounds with
  | Raise e => (s0, Raise e)
  | Ok bs =>
    let s1 := Mi 0 [] pstart bs nep (mi_last s) (mi_heap s) (mi_calls s) in
    let (s2, r) := adam_loop obj callback nep step b1 b2 (with_self pass_self args) (truthy bounds) nep 0 ([], []) s1 in
    match r with Raise e => (s2, Raise e) | Ok _ => (s2, Ok (mi_params s2, mi_of s2)) end
  end.

(** scipy.optimize.minimize as an arbitrary terminating strategy: it asks for values,
    calls the callback, and in the end returns a point. (minimize.py 235-253) *)
Inductive scipy := SEval (x : list R) (k : R * list R -> scipy) | SCallback (x : list R) (k : scipy) | SDone (x : list R).

(** The inner functions of and cb of Minimize.lbfgs, lines 206-233, driven by scipy. *)
Fixpoint drive obj (callback : option (view -> result unit)) (args : list (arg A)) (p : scipy) s : minst A * result (list R) :=
  match p with
  | SDone x => (s, Ok x)
  | SEval x k =>
    let (s1, out) := ask obj s x args in
    match out with
    | Raise e => (s1, Raise e)
    | Ok o => drive obj callback args (k o) (Mi (mi_iter s1) (mi_of s1) (mi_params s1) (mi_bounds s1) (mi_nep s1) (Some (fst o)) (mi_heap s1) (mi_calls s1))
    end
  | SCallback x k =>
    let s1 := Mi (mi_iter s + 1) (mi_of s) (mi_params s) (mi_bounds s) (mi_nep s) (mi_last s) (mi_heap s) (mi_calls s) in
    match mi_last s1 with
    | None => (s1, Raise AttributeError)
    | Some o =>
      let s2 := Mi (mi_iter s1) (mi_of s1 ++ [o]) (List.length (mi_heap s1)) (mi_bounds s1) (mi_nep s1) (mi_last s1) (mi_heap s1 ++ [x]) (mi_calls s1) in
      match callback with
      | None => drive obj callback args k s2
      | Some cb => match cb (View (mi_iter s2) (mi_of s2) (cur s2) (mi_nep s2)) with Ok _ => drive obj callback args k s2 | Raise e => (s2, Raise e) end
      end
    end
  end.

(** Minimize.lbfgs, lines 161-258.  scipy gets the starting point, the bounds and the
    largest number of iterations.  The result of res=True is not modelled. *)
Definition lbfgs obj (solver : list R -> option (list pyv) -> nat -> scipy) (pstart nep : nat) (bounds : pyv) (args : list A) (pass_self : bool)
    (callback : option (view -> result unit)) s : minst A * result (list R * list R) :=
  let s0 := Mi (mi_iter s) (mi_of s) pstart (mi_bounds s) (mi_nep s) (mi_last s) (mi_heap s) (mi_calls s) in
  match parse_bounds (List.length (cur s0)) bounds with
  | Raise e => (s0, Raise e)
  | Ok bs =>
    let s1 := Mi 0 [] pstart bs nep (mi_last s) (mi_heap s) (mi_calls s) in
    let (s2, out) := ask obj s1 (cur s1) (map AUser args) in
    match out with
    | Raise e => (s2, Raise e)
    | Ok (of, _) =>
      let s3 := Mi (mi_iter s2) (mi_of s2 ++ [of]) (mi_params s2) (mi_bounds s2) (mi_nep s2) (mi_last s2) (mi_heap s2) (mi_calls s2) in
      let (s4, r) := drive obj callback (with_self pass_self args) (solver (cur s3) bs nep) s3 in
      match r with Raise e => (s4, Raise e) | Ok x => (s4, Ok (x, mi_of s4)) end
    end
  end.
End Run.
