(** C64, C102-C106: the hand-written gradients of primitives.py. *)
From Verif Require Import Py CBase LatticeModel LatticeSpec RecipModel RecipSpec PrimSpec PrimModel PrimProofs PrimProofs2 PrimProofs3 PrimProofs4 PrimProofs5 PrimProofs6 PrimProofs7 PrimProofs8.
Open Scope R_scope.
Open Scope list_scope.

(** C64.  extend: indices may be negative but may not hit the same place twice. *)
Theorem C64_extend vals dvals inds m ps g : lcurve (List.length inds) vals dvals ->
  mapM (position m) inds = Ok ps -> NoDup ps -> List.length g = m ->
  exists Z w, (forall s, extend (vals s) inds m = Ok (Z s)) /\ vjp_extend inds g = Ok w /\
    derivable_pt_lim (fun s => pair1 m (entries g) (entries (Z s))) 0 (pair1 (List.length inds) (entries w) (entries dvals)).
Proof. exact (extend_adjoint vals dvals inds m ps g). Qed.
Print Assumptions C64_extend.
Example C64_extend_case : lcurve (List.length [-1; 0]%Z) (line [RtoC 1; Ci] [Ci; RtoC 2]) [Ci; RtoC 2] /\
  mapM (position 3) [-1; 0]%Z = Ok [2; 0]%nat /\ NoDup [2; 0]%nat.
Proof.
  split; [exact (line_curve [RtoC 1; Ci] [Ci; RtoC 2] eq_refl)|]. split; [reflexivity|].
  constructor; [intros [?|[]]; discriminate|]. constructor; [intros []|constructor].
Qed.

(** When extend fails, and how: the number of values, then the indices. *)
Theorem C64_extend_total vals inds m :
  (~ (List.length vals = List.length inds \/ List.length vals = 1%nat) -> extend vals inds m = Raise ValueError) /\
  ((List.length vals = List.length inds \/ List.length vals = 1%nat) ->
    (~ Forall (fun z => (- Z.of_nat m <= z < Z.of_nat m)%Z) inds -> extend vals inds m = Raise IndexError) /\
    (Forall (fun z => (- Z.of_nat m <= z < Z.of_nat m)%Z) inds -> exists z, extend vals inds m = Ok z /\ List.length z = m)).
Proof. exact (extend_total vals inds m). Qed.
Print Assumptions C64_extend_total.
(** One value may be given for several places; the hand-written gradient then has
    one entry per place, so it is not a gradient with respect to the value. *)
Theorem C64_extend_single v inds m ps : mapM (position m) inds = Ok ps ->
  (exists z, extend [v] inds m = Ok z /\ forall k, (k < m)%nat -> nth k z (RtoC 0) = if existsb (Nat.eqb k) ps then v else RtoC 0) /\
  forall g w, List.length g = m -> vjp_extend inds g = Ok w -> List.length w = List.length inds.
Proof. exact (fun H => conj (extend_single v inds m ps H) (fun g w _ => vjp_extend_len inds g w)). Qed.
Print Assumptions C64_extend_single.

(** spdot: the sparse matrix is constant. *)
Theorem C64_spdot m n c S g B dB : curve2 n c B dB ->
  derivable_pt_lim (fun s => pair2 m c g (spdot n S (B s))) 0 (pair2 n c (vjp_spdot m S g) dB).
Proof. exact (spdot_adjoint m n c S g B dB). Qed.
Print Assumptions C64_spdot.
Example C64_spdot_case : curve2 2 2 shear dshear.
Proof. exact shear_curve. Qed.

(** inv: whatever inverse is returned along the curve; that it is differentiable
    is part of the conclusion. *)
Theorem C64_inv n A Y dA g : curve2 n n A dA -> nearby (fun s => inverse_of n (A s) (Y s)) ->
  derivable_pt_lim (fun s => pair2 n n g (Y s)) 0 (pair2 n n (vjp_inv n (Y 0) g) dA).
Proof. exact (fun HA HY => inv_adjoint n A Y dA HA HY g). Qed.
Print Assumptions C64_inv.
Example C64_inv_case : curve2 2 2 shear dshear /\ nearby (fun s => inverse_of 2 (shear s) (shear (- s))).
Proof. exact (conj shear_curve shear_inv). Qed.

(** interp: queries between the first and the last node. *)
Theorem C64_interp x xp g yp dyp : increasing xp -> (2 <= List.length xp)%nat ->
  (forall q, In q x -> nth 0 xp 0 <= q <= nth (List.length xp - 1) xp 0) -> List.length g = List.length x -> lcurve (List.length xp) yp dyp ->
  exists w Z, vjp_interp x xp g = Ok w /\ (forall s, interp x xp (yp s) = Ok (Z s)) /\
    derivable_pt_lim (fun s => pair1 (List.length x) (entries g) (entries (Z s))) 0 (pair1 (List.length xp) (entries w) (entries dyp)).
Proof. exact (interp_adjoint x xp g yp dyp). Qed.
Print Assumptions C64_interp.
Example C64_interp_case : increasing [0; 1; 3] /\ (forall q, In q [2; 0; 3] -> nth 0 [0; 1; 3] 0 <= q <= nth (List.length [0; 1; 3] - 1) [0; 1; 3] 0) /\
  lcurve (List.length [0; 1; 3]) (line [RtoC 1; Ci; RtoC 0] [Ci; RtoC 2; Ci]) [Ci; RtoC 2; Ci].
Proof.
  split; [|split; [|exact (line_curve [RtoC 1; Ci; RtoC 0] [Ci; RtoC 2; Ci] eq_refl)]].
  - intros i j [H1 H2]. cbn [List.length] in H2. destruct i as [|[|[|i]]], j as [|[|[|j]]]; try lia; cbn; lra.
  - intros q Hq. cbn [In List.length Nat.sub nth] in *. lra.
Qed.
(** ... above the last node there is no gradient at all, although the forward
    function extends constantly. *)
Theorem C64_interp_above x xp g q : In q x -> (forall a, In a xp -> a < q) -> vjp_interp x xp g = Raise IndexError.
Proof. exact (interp_above x xp g q). Qed.
Print Assumptions C64_interp_above.

(** When interp fails; otherwise it is constant outside the nodes. *)
Theorem C64_interp_total x xp yp : (interp x xp yp = Raise ValueError <-> xp = [] \/ List.length xp <> List.length yp) /\
  (xp <> [] -> List.length xp = List.length yp -> exists z, interp x xp yp = Ok z /\ List.length z = List.length x /\
    forall i, (i < List.length x)%nat ->
      (nth i x 0 < nth 0 xp 0 -> nth i z (RtoC 0) = nth 0 yp (RtoC 0)) /\
      ((forall a, In a xp -> a <= nth i x 0) -> nth i z (RtoC 0) = last yp (RtoC 0))).
Proof. exact (interp_total x xp yp). Qed.
Print Assumptions C64_interp_total.
Example C64_interp_total_case : interp [5; -1] [0; 1] [Ci; RtoC 2] = Ok [RtoC 2; Ci] /\ interp [5] [0; 1] [Ci] = Raise ValueError.
Proof.
  split; [|reflexivity]. unfold interp. cbn [List.length Nat.eqb orb negb map interp1 interp_scan]. unfold Rltb, Rleb.
  repeat match goal with |- context [Rlt_dec ?a ?b] => destruct (Rlt_dec a b); try lra | |- context [Rle_dec ?a ?b] => destruct (Rle_dec a b); try lra end. reflexivity.
Qed.

(** toeplitz_block: the two products together ... *)
Theorem C64_toeplitz n p v T1 T2 dT1 dT2 : (0 < n)%nat -> (0 < p)%nat -> nearby (fun s => consistent n p (T1 s) (T2 s)) ->
  curve1 (n * p) (fun s => entries (T1 s)) (entries dT1) -> curve1 (n * p) (fun s => entries (T2 s)) (entries dT2) ->
  derivable_pt_lim (fun s => pair2 (n * p) (n * p) v (toeplitz_block n (T1 s) (T2 s))) 0
    (pair1 (n * p) (vjp_tb1 n (n * p) v) (entries dT1) + pair1 (n * p) (vjp_tb2 n (n * p) v) (entries dT2)).
Proof. exact (tb_adjoint n p v T1 T2 dT1 dT2). Qed.
Print Assumptions C64_toeplitz.
Example C64_toeplitz_case : nearby (fun s => consistent 2 2 (line [RtoC 1; Ci; Ci; RtoC 3] [RtoC 1; RtoC 2; Ci; Ci] s) (line [RtoC 1; Copp Ci; Ci; RtoC 5] [RtoC 1; RtoC 2; Ci; RtoC 7] s)).
Proof.
  exists 1. split; [lra|]. intros s _. split; [reflexivity|]. split; [reflexivity|]. split.
  - intros [|[|k]] Hk; [reflexivity|reflexivity|lia].
  - intros [|[|j]] Hj; [lia| |lia]. apply injective_projections; cbn; ring.
Qed.
(** ... and the lists the solvers pass are of this kind. *)
Theorem C64_solver_lists L gmax ft : 0 <= gmax -> independent (lt_b1 L) (lt_b2 L) -> conj_symmetric ft ->
  exists n1 n2, rc_n1 (recip_tbt L gmax) = Z.of_nat n1 /\ rc_n2 (recip_tbt L gmax) = Z.of_nat n2 /\ (0 < n1)%nat /\ (0 < n2)%nat /\
    consistent n1 n2 (map ft (G1_of (rc_g (recip_tbt L gmax)))) (map ft (G2_of (rc_g (recip_tbt L gmax)) n1 n2)).
Proof. exact (solver_lists L gmax ft). Qed.
Print Assumptions C64_solver_lists.
Example C64_solver_lists_case : conj_symmetric (fun g => (fst g * fst g, snd g)).
Proof. intros [a b]. apply injective_projections; cbn; ring. Qed.

(** C102.  eigh: the gradient with respect to the eigenvalues alone, also at
    degenerate eigenvalues, for both triangles ... *)
Theorem C102_eigenvalues (low : bool) n X dX w V wg : curve2 n n X dX ->
  nearby (fun s => eigenpairs n n (if low then herm_low (X s) else herm_up (X s)) (w s) (V s)) ->
  (forall i j, (i < n)%nat -> (j < n)%nat -> ccont (fun s => V s i j)) ->
  derivable_pt_lim (fun s => pairR n wg (w s)) 0 (pair2 n n (vjp_eigh low n (w 0) (V 0) wg (fun _ _ => RtoC 0)) dX).
Proof. exact (fun HX HE => eigh_values low n X dX w V HX HE wg). Qed.
Print Assumptions C102_eigenvalues.
(** ... and with respect to both, when the eigenvalues are distinct as soon as
    the loss looks at the eigenvectors. *)
Theorem C102_both (low : bool) n X dX w V dV wg vg : curve2 n n X dX ->
  nearby (fun s => eigenpairs n n (if low then herm_low (X s) else herm_up (X s)) (w s) (V s)) -> curve2 n n V dV ->
  (forall j, (j < n)%nat -> phase_ok n (fun i => V 0 i j) (fun i => dV i j) (fun i => vg i j)) ->
  ((exists i j, (i < n)%nat /\ (j < n)%nat /\ vg i j <> RtoC 0) -> forall i j, (i < n)%nat -> (j < n)%nat -> i <> j -> w 0 i <> w 0 j) ->
  derivable_pt_lim (fun s => pairR n wg (w s) + pair2 n n vg (V s)) 0 (pair2 n n (vjp_eigh low n (w 0) (V 0) wg vg) dX).
Proof. exact (fun HX HE HV => eigh_adjoint low n X dX w V HX HE dV HV wg vg). Qed.
Print Assumptions C102_both.
Example C102_case : curve2 2 2 proj dproj /\
  nearby (fun s => eigenpairs 2 2 (if true then herm_low (proj s) else herm_up (proj s)) (pw s) (rot s)) /\ curve2 2 2 rot drot /\
  (forall j vg, (j < 2)%nat -> phase_ok 2 (fun i => rot 0 i j) (fun i => drot i j) vg) /\
  forall i j, (i < 2)%nat -> (j < 2)%nat -> i <> j -> pw 0 i <> pw 0 j.
Proof.
  split; [exact proj_curve|]. split; [exact (rot_pairs true)|]. split; [exact rot_curve|]. split; [exact rot_phase|].
  intros [|[|i]] [|[|j]] Hi Hj N; try lia; cbn; lra.
Qed.

(** C103.  eigsh: k of the n eigenpairs; conjugate gradient solves the system it
    is given in every round that calls it. *)
Theorem C103_eigsh n k H dH w V dV cg wg vg : curve2 n n H dH -> hermitian n (H 0) ->
  nearby (fun s => eigenpairs n k (H s) (w s) (V s)) -> curve2 n k V dV ->
  (forall j b, (j < k)%nat -> (exists i, (i < n)%nat /\ vg i j <> RtoC 0) ->
     (forall a, (a < n)%nat -> b a = Cminus (vg a j) (Cmult (Cconj (V 0 a j)) (csum n (fun c => Cmult (V 0 c j) (vg c j))))) ->
     let A : cmat := fun a b => Cminus (H 0 b a) (Cmult (RtoC (w 0 j)) (mid b a)) in
     forall a, (a < n)%nat -> mvec n A (cg j n A b) a = b a) ->
  (forall j, (j < k)%nat -> phase_ok n (fun i => V 0 i j) (fun i => dV i j) (fun i => vg i j)) ->
  derivable_pt_lim (fun s => pairR k wg (w s) + pair2 n k vg (V s)) 0 (pair2 n n (vjp_eigsh n k cg (H 0) (w 0) (V 0) wg vg) dH).
Proof. exact (fun HH Hh HE HV Hcg HP => eigsh_adjoint n k H dH w V dV cg HH Hh HE HV wg vg Hcg HP). Qed.
Print Assumptions C103_eigsh.
Example C103_case : let cg := fun (_ _ : nat) (_ : cmat) (b : cvec) => b in let vg : cmat := fun i _ => if Nat.eqb i 1 then RtoC 1 else RtoC 0 in
  hermitian 2 (proj 0) /\ nearby (fun s => eigenpairs 2 1 (proj s) (pw s) (rot s)) /\ curve2 2 1 rot drot /\
  (forall j b, (j < 1)%nat -> (exists i, (i < 2)%nat /\ vg i j <> RtoC 0) ->
     (forall a, (a < 2)%nat -> b a = Cminus (vg a j) (Cmult (Cconj (rot 0 a j)) (csum 2 (fun c => Cmult (rot 0 c j) (vg c j))))) ->
     let A : cmat := fun a b => Cminus (proj 0 b a) (Cmult (RtoC (pw 0 j)) (mid b a)) in
     forall a, (a < 2)%nat -> mvec 2 A (cg j 2%nat A b) a = b a).
Proof.
  intros cg vg. split; [intros [|[|i]] [|[|j]] Hi Hj; try lia; apply injective_projections; cbn; ring|].
  split; [apply rot_pairs'; lia|]. split; [intros i j Hi Hj; apply rot_curve; lia|].
  intros j b Hj _ Hb A a Ha. assert (j = 0%nat) by lia. subst j. unfold mvec, cg. cbn [csum]. rewrite !Hb by lia. unfold A, vg.
  destruct a as [|[|a]]; [| |lia]; apply injective_projections; cbn; rewrite ?sin_0, ?cos_0; ring.
Qed.

(** C104.  fsolve: the gradient of the implicit function, for any continuous
    branch of roots; its differentiability is part of the conclusion. *)
Theorem C104_fsolve m f x y a b dy g : partials m f (x 0) (y 0) a (fun i => nth i b 0) -> List.length b = m -> a <> 0 ->
  nearby (fun s => f (x s) (y s) = 0) -> continuity_pt x 0 -> curveR m y dy ->
  List.length (vjp_fsolve a b g) = m /\
  derivable_pt_lim (fun s => g * x s) 0 (rsumf m (fun i => nth i (vjp_fsolve a b g) 0 * dy i)).
Proof. exact (fsolve_adjoint m f x y a b dy g). Qed.
Print Assumptions C104_fsolve.
(** no gradient for the function and the two bounds; argument i after them has the
    i-th maker exactly if the i-th flag is set *)
Theorem C104_arguments ginds : List.length (fsolve_makers ginds) = (3 + List.length ginds)%nat /\
  (forall j, (j < 3)%nat -> nth j (fsolve_makers ginds) (Some 0%nat) = None) /\
  forall i, (i < List.length ginds)%nat -> nth (3 + i) (fsolve_makers ginds) None = if nth i ginds false then Some i else None.
Proof. exact (makers_of ginds). Qed.
Print Assumptions C104_arguments.
Example C104_case : partials 1 (fun x y => x * x - y 0%nat) 1 (fun _ => 1) 2 (fun i => nth i [-1] 0) /\
  nearby (fun s => (1 + s) * (1 + s) - (fun _ : nat => (1 + s) * (1 + s)) 0%nat = 0).
Proof. split; [exact parab_partials|]. exists 1. split; [lra|]. intros. ring. Qed.

(** C105.  sqrt: the derivative of sqrt(x + 1e-10); bounded, and off by a factor
    of at most 1 - 5e-11 / x. *)
Theorem C105_sqrt x g : 0 <= x ->
  derivable_pt_lim (fun t => g * sqrt (t + 1 / 10 ^ 10)) x (vjp_sqrt x g) /\ Rabs (vjp_sqrt x g) <= 50000 * Rabs g /\
  (0 < x -> Rabs (vjp_sqrt x g - g / (2 * sqrt x)) <= 1 / (2 * 10 ^ 10 * x) * Rabs (g / (2 * sqrt x))).
Proof. exact (fun Hx => conj (sqrt_regularised x g Hx) (conj (sqrt_bounded x g Hx) (sqrt_close x g))). Qed.
Print Assumptions C105_sqrt.
(** fmap: the chain rule, given the gradients of the functions. *)
Theorem C105_fmap grad fns p0 np v P dP : (0 < List.length fns)%nat -> List.length v = List.length fns ->
  (forall f, In f fns -> gradient np f p0 (grad f)) -> P 0 = p0 -> (forall s, List.length (P s) = np) ->
  (forall j, (j < np)%nat -> derivable_pt_lim (fun s => nth j (P s) 0) 0 (dP j)) ->
  exists w, vjp_fmap grad fns np v = Ok w /\ List.length w = np /\
    derivable_pt_lim (fun s => rsumf (List.length fns) (fun i => nth i v 0 * nth i (fmap fns (P s)) 0)) 0 (rsumf np (fun j => nth j w 0 * dP j)).
Proof. exact (fmap_adjoint grad fns p0 np v P dP). Qed.
Print Assumptions C105_fmap.
Example C105_fmap_case : gradient 2 (fun p => nth 0 p 0 * nth 1 p 0) [3; 5] [5; 3].
Proof.
  split; [reflexivity|]. intros P dP H0 _ H. pose proof (derivable_pt_lim_mult _ _ 0 _ _ (H 0%nat ltac:(lia)) (H 1%nat ltac:(lia))) as D.
  cbv beta in D. rewrite H0 in D. cbn [nth] in D. unfold rsumf, rsuml. cbn [map seq fold_right nth].
  replace (5 * dP 0%nat + (3 * dP 1%nat + 0)) with (dP 0%nat * 5 + 3 * dP 1%nat) by ring. exact D.
Qed.

(** C106.  eig has no gradient: the maker uses four names the module does not have. *)
Theorem C106_eig_refuted : exists n h xr e u ge gu, (forall G : cmat, vjp_eig n h primitives_globals xr e u ge gu <> Ok G).
Proof. exists 1%nat, (EigHelpers (fun v i _ => v i) (fun m => m) (mmul 1) (fun m => m)), false, (fun _ => RtoC 1), mid, (fun _ => RtoC 1), mid. intros G. rewrite eig_fails. discriminate. Qed.
Print Assumptions C106_eig_refuted.
Theorem C106_eig_partial n h xr e u ge gu : vjp_eig n h primitives_globals xr e u ge gu = Raise NameError.
Proof. exact (eig_fails n h xr e u ge gu). Qed.
Print Assumptions C106_eig_partial.
