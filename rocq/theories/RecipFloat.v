(** Binary64 copy of the part of legume/gme/gme.py:211-235 that computes the
    candidate lengths and nudges gmax, and of the reciprocal basis
    legume/phc/lattice.py:36-38, with Coq's primitive floats (round to nearest
    even, as numpy).  numpy evaluates x**2 as x*x.  Only non-negative finite
    values reach the truncation. *)
From Coq Require Import ZArith List Floats Uint63.
Import ListNotations.
Open Scope float_scope.

Definition pi_f : float := 0x1.921fb54442d18p+1.
Definition step_f : float := 0x1.b7cdfd9d7bdbbp-34. (* 1e-10 *)

Definition of_Z_f (z : Z) : float :=
  match z with
  | Z0 => 0
  | Zpos _ => PrimFloat.of_uint63 (Uint63.of_Z z)
  | Zneg p => - PrimFloat.of_uint63 (Uint63.of_Z (Zpos p))
  end.
(** np.int_ *)
Definition trunc_f (x : float) : Z :=
  match Prim2SF x with
  | S754_finite s m e =>
      let v := (if (0 <=? e)%Z then Zpos m * 2 ^ e else Zpos m / 2 ^ (- e))%Z in
      if s then Z.opp v else v
  | _ => 0%Z
  end.

Definition f2 := (float * float)%type.
(** lattice.py:31-38 with a3 = (0, 0, 1) *)
Definition b1_f (a1 a2 : f2) : f2 :=
  let c := (snd a2 * 1 - 0 * 0, 0 * 0 - fst a2 * 1) in
  let c3 := fst a2 * 0 - snd a2 * 0 in
  let d := fst a1 * fst c + snd a1 * snd c + 0 * c3 in
  (2 * pi_f * fst c / d, 2 * pi_f * snd c / d).
Definition b2_f (a1 a2 : f2) : f2 :=
  let c := (0 * 0 - 1 * snd a1, 1 * fst a1 - 0 * 0) in
  let c3 := 0 * snd a1 - 0 * fst a1 in
  let d := fst a2 * fst c + snd a2 * snd c + 0 * c3 in
  (2 * pi_f * fst c / d, 2 * pi_f * snd c / d).
Definition norm_f (v : f2) : float := PrimFloat.sqrt (fst v * fst v + snd v * snd v).

Definition range_f (n : Z) : list Z := map (fun k => (Z.of_nat k - n)%Z) (seq 0 (Z.to_nat (2 * n + 1))).
(** gme.py:215-229 *)
Definition gnorm_f (a1 a2 : f2) (gmax : float) : list float :=
  let b1 := b1_f a1 a2 in
  let b2 := b2_f a1 a2 in
  let n1 := trunc_f (4 * pi_f * gmax / norm_f b1) in
  let n2 := trunc_f (4 * pi_f * gmax / norm_f b2) in
  map (fun ij => norm_f (fst b1 * of_Z_f (fst ij) + fst b2 * of_Z_f (snd ij),
                         snd b1 * of_Z_f (fst ij) + snd b2 * of_Z_f (snd ij)))
      (list_prod (range_f n1) (range_f n2)).

Definition in_f (x : float) (l : list float) : bool := existsb (fun y => PrimFloat.eqb x y) l.
(** gme.py:232-235; [None]: still running when the fuel is used up *)
Fixpoint nudge_f (fuel : nat) (gnorm : list float) (gmax : float) : option float :=
  match fuel with
  | O => None
  | S f => if in_f (gmax * 2 * pi_f) gnorm then nudge_f f gnorm (gmax + step_f) else Some gmax
  end.

(** A square lattice of constant a = 2^-21 (0.48e-6, i.e. half a micron in
    metres) with gmax = 3/a *)
Definition a_w : float := 0x1p-21.
Definition g_w : float := 0x1.8p+22.
Lemma g_w_in : in_f (g_w * 2 * pi_f) (gnorm_f (a_w, 0) (0, a_w) g_w) = true.
Proof. vm_compute. reflexivity. Qed.
Lemma g_w_fix : g_w + step_f = g_w.
Proof. vm_compute. reflexivity. Qed.
Lemma float_loop fuel : nudge_f fuel (gnorm_f (a_w, 0) (0, a_w) g_w) g_w = None.
Proof.
  induction fuel as [|f IH]; [reflexivity|]. cbn [nudge_f]. rewrite g_w_in, g_w_fix. exact IH.
Qed.
Definition two_pi_gmax (gmax : float) : float := gmax * 2 * pi_f.
Definition unit_x : f2 := (1, 0).
Definition unit_y : f2 := (0, 1).
Definition two_f : float := 2.
(** with a = 1 and gmax = 2 one step is enough *)
Lemma float_loop_ok : exists g, nudge_f 2 (gnorm_f unit_x unit_y two_f) two_f = Some g /\ PrimFloat.ltb two_f g = true.
Proof. eexists. split; vm_compute; reflexivity. Qed.
