(** Properties C39-C42 and C79: reflection symmetry. *)
From Verif Require Import Py CBase LatticeModel LatticeSpec RecipSpec SlabModel MatElModel MatElSpec MatElProofs3
  SymSpec SymModel SymProofs5 SymProofs6 SymProofs7 SymProofs8 SymProofs9.
Open Scope R_scope.

(** C39.  The matrix for angle th is the reflection in the line at that angle:
    it leaves the direction of k alone, undoes itself, preserves lengths and
    angles and reverses orientation. *)
Theorem C39_reflection th g h r :
  app2 (sym_mat th) g = reflect (rad th) g /\
  app2 (sym_mat th) (app2 (sym_mat th) g) = g /\
  LatticeSpec.inner (app2 (sym_mat th) g) (app2 (sym_mat th) h) = LatticeSpec.inner g h /\
  det (app2 (sym_mat th) g) (app2 (sym_mat th) h) = - det g h /\
  app2 (sym_mat th) (r * cos (rad th), r * sin (rad th)) = (r * cos (rad th), r * sin (rad th)).
Proof.
  exact (conj (app2_reflect th g) (conj
    (eq_trans (eq_trans (app2_reflect th _) (f_equal (reflect (rad th)) (app2_reflect th g))) (reflect_invol (rad th) g))
    (conj (eq_trans (f_equal2 LatticeSpec.inner (app2_reflect th g) (app2_reflect th h)) (reflect_inner (rad th) g h))
    (conj (eq_trans (f_equal2 det (app2_reflect th g) (app2_reflect th h)) (reflect_det (rad th) g h))
          (eq_trans (app2_reflect th _) (reflect_dir (rad th) r)))))).
Qed.
Print Assumptions C39_reflection.
(** Partial: the reciprocal lattice is mapped onto itself for whole-degree
    angles, the two named lattices and axis-aligned rectangular ones.  Missing:
    tilted rectangular lattices and angles accepted only through rounding, for
    which it is false. *)
Theorem C39_maps_lattice_partial args L angles d a : lattice_init args = Ok L ->
  (exists s, args = LatName s) \/ (exists a1 a2, args = LatVecs a1 a2 /\ independent a1 a2 /\ axis_aligned a1 a2) ->
  refl_mats (lt_type L) angles = Ok d -> In a angles -> (exists z, a = IZR z) ->
  exists m, dict_get a d = Ok m /\ forall g, in_lattice (lt_b1 L) (lt_b2 L) (app2 m g) <-> in_lattice (lt_b1 L) (lt_b2 L) g.
Proof. exact (C39_lat args L angles d a). Qed.
Print Assumptions C39_maps_lattice_partial.
Theorem C39_tilted_lattice_refuted : exists args L angles d a m g, lattice_init args = Ok L /\ lt_type L = LRectangular /\
  independent (lt_a1 L) (lt_a2 L) /\
  refl_mats (lt_type L) angles = Ok d /\ In a angles /\ dict_get a d = Ok m /\
  in_lattice (lt_b1 L) (lt_b2 L) g /\ ~ in_lattice (lt_b1 L) (lt_b2 L) (app2 m g).
Proof. exact C39_ref. Qed.
Print Assumptions C39_tilted_lattice_refuted.
Theorem C39_rounded_angle_refuted : exists L angles d a m g, lattice_init (LatName "square") = Ok L /\
  refl_mats (lt_type L) angles = Ok d /\ In a angles /\ dict_get a d = Ok m /\
  in_lattice (lt_b1 L) (lt_b2 L) g /\ ~ in_lattice (lt_b1 L) (lt_b2 L) (app2 m g).
Proof. exact C39_ref_rounding. Qed.
Print Assumptions C39_rounded_angle_refuted.
Example C39_example : exists L d, lattice_init (LatName "hexagonal") = Ok L /\ refl_mats (lt_type L) [IZR 30; IZR (-90)] = Ok d.
Proof.
  destruct (lattice_init (LatName "hexagonal")) as [L|e] eqn:H; [|discriminate H].
  assert (T : lt_type L = LHexagonal) by (unfold lattice_init, parse_input in H; simpl in H; injection H as <-; reflexivity).
  destruct (refl_mats_ok (lt_type L) [IZR 30; IZR (-90)]) as [d Hd]; [rewrite T; discriminate| |eauto].
  rewrite T. intros a [<-|[<-|[]]]; rewrite round8_IZR; apply table_in; [exists 13%nat|exists 9%nat]; (split; [lia|reflexivity]).
Qed.

(** Exactly the multiples of 45, 30 or 90 degrees from -360 to 360 are accepted,
    up to 5e-9 degrees, for square, hexagonal and rectangular lattices; nothing is
    for others. *)
Theorem C39_accepted_angles ty angles :
  (exists d, refl_mats ty angles = Ok d) <->
  exists step, angle_step ty = Some step /\
    forall a, In a angles -> exists q : Z, (-360 <= step * q <= 360)%Z /\ Rabs (a - IZR (step * q)) <= 5 / 10 ^ 9.
Proof. exact (angles_accepted ty angles). Qed.
Print Assumptions C39_accepted_angles.
(** everything else is refused with a ValueError *)
Theorem C39_refused_angles ty angles e : refl_mats ty angles = Raise e <->
  e = ValueError /\ ~ exists step, angle_step ty = Some step /\
    forall a, In a angles -> exists q : Z, (-360 <= step * q <= 360)%Z /\ Rabs (a - IZR (step * q)) <= 5 / 10 ^ 9.
Proof.
  rewrite <- angles_accepted. unfold refl_mats. split.
  - intros H. split; [|intros (d & Hd); congruence]. destruct ty; try destruct (forallb _ angles); congruence.
  - intros (-> & N). destruct ty; try destruct (forallb _ angles) eqn:E; try reflexivity; exfalso; apply N; rewrite ?E; eauto.
Qed.
Print Assumptions C39_refused_angles.
Example C39_accepted_example : exists q : Z, (-360 <= 45 * q <= 360)%Z /\ Rabs (135 + 1 / 10 ^ 9 - IZR (45 * q)) <= 5 / 10 ^ 9.
Proof.
  exists 3%Z. split; [lia|]. assert (10 ^ 9 = 1000000000) as -> by (simpl; ring). replace (IZR (45 * 3)) with 135 by (simpl; ring).
  rewrite Rabs_right; lra.
Qed.

(** C40.  Partial: without the shift delta_gx, or when no plane wave is within
    |delta_gx| of a threshold, the plane waves that support a mode are mapped to
    themselves by the reflection and the search finds exactly the partner of
    each.  With the shift it fails in general. *)
Theorem C40_used_set_invariant_partial th gvec k mate delta garr te tm eps mode gm :
  permuted_by (reflect (rad th)) gvec mate -> separated gvec -> reflect (rad th) k = k ->
  delta = 0 \/ (forall g i, In g garr -> (i < List.length gvec)%nat -> Rabs delta < Rabs (len (kplus k (nth i gvec (0, 0))) - (g - / 10 ^ 10))) ->
  get_guided (List.length gvec) (gk_len (gk_data gvec k delta)) garr te tm eps mode = Ok gm ->
  (forall i, In i (md_ind gm) -> In (mate i) (md_ind gm)) /\
  exists mt, mates (reflect (rad th)) (take_g gvec (md_ind gm)) mt /\
    forall j, (j < List.length (md_ind gm))%nat ->
      nth (mt j) (md_ind gm) 0%nat = mate (nth j (md_ind gm) 0%nat) /\
      ind_g (take_g gvec (md_ind gm)) (app2 (sym_mat th) (nth j (take_g gvec (md_ind gm)) (0, 0))) = Ok [mt j].
Proof. exact (C40_lem th gvec k mate delta garr te tm eps mode gm). Qed.
Print Assumptions C40_used_set_invariant_partial.
Theorem C40_shift_refuted : exists gm, let gvec := [(1, 0); (-1, 0)] in
  permuted_by (reflect (rad 90)) gvec (fun i => (1 - i)%nat) /\ separated gvec /\ reflect (rad 90) (0, 0) = (0, 0) /\
  get_guided 2 (gk_len (gk_data gvec (0, 0) (1 / 10 ^ 15))) [1 + / 10 ^ 10] cx_te [] [1; 2; 1] 0 = Ok gm /\
  In 0%nat (md_ind gm) /\ ~ In 1%nat (md_ind gm) /\
  ind_g (take_g gvec (md_ind gm)) (app2 (sym_mat 90) (nth 0 (take_g gvec (md_ind gm)) (0, 0))) = Raise ValueError.
Proof. exact C40_cx. Qed.
Print Assumptions C40_shift_refuted.
Example C40_example : permuted_by (reflect (rad 0)) ex_g ex_mate /\ separated ex_g /\ reflect (rad 0) (1 / 2, 0) = (1 / 2, 0) /\
  exists gm, get_guided 3 (gk_len (gk_data ex_g (1 / 2, 0) 0)) [1 / 4; 1] ex_te ex_tm [1; 2; 1] 1 = Ok gm.
Proof.
  split; [exact ex_perm|]. split; [exact ex_sep|]. split; [rewrite refl0; apply f_equal2; ring|]. eexists. reflexivity.
Qed.

(** C41.  For plane waves paired by the reflection, both routines build a real
    orthogonal matrix whose columns are even, then odd, under the reflection
    (TE functions carry an extra sign); the even columns span all even vectors,
    the odd ones all odd vectors, and the counts differ by the signed number of
    self-paired plane waves. *)
Theorem C41_even_odd_basis th gvec l inds mate mt s : reflect_pairs th gvec l inds mate mt s ->
  let sz := map (@List.length nat) inds in let n := list_sum sz in let T := refl_op mt s in
  forall build, build = basis_dense \/ build = basis_sparse ->
  exists b, build (sym_mat th) gvec l sz inds = Ok b /\ sb_rows b = n /\ sb_cols b = n /\ (sb_even b + sb_odd b)%nat = n /\
    (forall i c, is_real (sb_v b i c)) /\ parity_basis n (sb_even b) T (sb_v b) /\
    RtoC (INR (sb_even b) - INR (sb_odd b)) = csum n (fun i => if Nat.eqb (mt i) i then RtoC (s i) else RtoC 0) /\
    (forall v, (forall i, (i < n)%nat -> T v i = v i) <-> in_span n (sb_v b) (sb_even b) v) /\
    (forall v, (forall i, (i < n)%nat -> T v i = (- v i)%C) <-> in_span n (fun i c => sb_v b i (sb_even b + c)%nat) (sb_odd b) v).
Proof. exact (C41_lem th gvec l inds mate mt s). Qed.
Print Assumptions C41_even_odd_basis.
Example C41_example : reflect_pairs 0 ex_g [0%nat] [[0%nat; 1%nat; 2%nat]] (fun _ => lmate ex_mate [0%nat; 1%nat; 2%nat]) ex_mate (fun _ => - 1).
Proof. exact ex_pairs. Qed.

(** C42.  A matrix commuting with the reflection is separated without loss, by
    both routines and for any threshold; if all functions have one parity the
    code raises an exception instead. *)
Theorem C42_dense_separation th gvec l inds mate mt s H thr : reflect_pairs th gvec l inds mate mt s ->
  let sz := map (@List.length nat) inds in let n := list_sum sz in let T := refl_op mt s in
  (forall v i, (i < n)%nat -> mvec n H (T v) i = T (mvec n H v) i) -> 0 <= thr ->
  exists b, basis_dense (sym_mat th) gvec l sz inds = Ok b /\ (sb_even b + sb_odd b)%nat = n /\
  ((0 < sb_even b)%nat -> (0 < sb_odd b)%nat ->
   exists E O, separate thr (Arr n n H) b = Ok (E, O) /\ square E (sb_even b) /\ square O (sb_odd b) /\
     splits n T H (sb_v b) (sb_even b) (sb_odd b) (ent E) (ent O)) /\
  (sb_even b = 0%nat \/ sb_odd b = 0%nat -> separate thr (Arr n n H) b = Raise ValueError).
Proof. exact (C42_dense_lem th gvec l inds mate mt s H thr). Qed.
Print Assumptions C42_dense_separation.
Theorem C42_sparse_separation th gvec l inds mate mt s H thr : reflect_pairs th gvec l inds mate mt s ->
  let sz := map (@List.length nat) inds in let n := list_sum sz in let T := refl_op mt s in
  (forall v i, (i < n)%nat -> mvec n H (T v) i = T (mvec n H v) i) -> 0 <= thr ->
  exists b, basis_sparse (sym_mat th) gvec l sz inds = Ok b /\ (sb_even b + sb_odd b)%nat = n /\
  ((0 < sb_even b)%nat -> (0 < sb_odd b)%nat ->
   exists E O, separate_sparse thr (Arr n n H) b = Ok (E, O) /\ square E (sb_even b) /\ square O (sb_odd b) /\
     splits n T H (sb_v b) (sb_even b) (sb_odd b) (ent E) (ent O)) /\
  (sb_even b = 0%nat \/ sb_odd b = 0%nat -> separate_sparse thr (Arr n n H) b = Raise ValueError).
Proof. exact (C42_sparse_lem th gvec l inds mate mt s H thr). Qed.
Print Assumptions C42_sparse_separation.
(** the three plane waves of C41_example with a matrix commuting with the reflection *)
Example C42_example : forall v i, (i < 3)%nat ->
  mvec 3 ex_H (refl_op ex_mate (fun _ => - 1) v) i = refl_op ex_mate (fun _ => - 1) (mvec 3 ex_H v) i.
Proof. exact ex_comm. Qed.

(** C79.  For a structure symmetric under the reflection (the plane-wave set and
    the inverse permittivities are unchanged by it, and so is k) the GME matrix
    commutes with the reflection, and both routines separate it.  The shift
    delta_gx and the 1e-20 regulariser are 0 and no G + k vanishes. *)
Theorem C79_symmetric_structure_separates th gvec k mate inds garr (te tm : gtable) eps ds einv thr :
  permuted_by (reflect (rad th)) gvec mate -> separated gvec -> reflect (rad th) k = k ->
  (forall i, (i < List.length gvec)%nat -> 0 < len (kplus k (nth i gvec (0, 0)))) ->
  herm_layers einv ->
  (forall il i j, (i < List.length gvec)%nat -> (j < List.length gvec)%nat -> einv il (mate i) (mate j) = einv il i j) ->
  (forall m oms cs, entry te tm m = Some (oms, cs) -> (0 < List.length oms <= List.length garr)%nat) ->
  inds <> [] -> (forall m, In m inds -> entry te tm m <> None) -> 0 <= thr ->
  exists ms M mt s,
    construct_mat 0 gvec k 0 inds garr te tm eps ds einv = Ok M /\ map fst ms = inds /\
    Forall (fun x => get_guided (List.length gvec) (gk_len (gk_data gvec k 0)) garr te tm eps (fst x) = Ok (snd x)) ms /\
    let ixs := map (fun x => md_ind (snd x)) ms in
    let sz := map (@List.length nat) ixs in let n := list_sum sz in
    nr M = n /\ nc M = n /\
    (forall a j, (a < List.length ms)%nat -> (j < nth a sz 0)%nat ->
       s (offset sz a + j)%nat = (if Nat.even (nth a inds 0%nat) then - 1 else 1) /\
       exists j', (j' < nth a sz 0)%nat /\ mt (offset sz a + j)%nat = (offset sz a + j')%nat /\
         nth j' (nth a ixs []) 0%nat = mate (nth j (nth a ixs []) 0%nat)) /\
    (exists b, basis_dense (sym_mat th) gvec inds sz ixs = Ok b /\ (sb_even b + sb_odd b)%nat = n /\
      ((0 < sb_even b)%nat -> (0 < sb_odd b)%nat ->
        exists E O, separate thr M b = Ok (E, O) /\ square E (sb_even b) /\ square O (sb_odd b) /\
          splits n (refl_op mt s) (ent M) (sb_v b) (sb_even b) (sb_odd b) (ent E) (ent O)) /\
      (sb_even b = 0%nat \/ sb_odd b = 0%nat -> separate thr M b = Raise ValueError)) /\
    (exists b, basis_sparse (sym_mat th) gvec inds sz ixs = Ok b /\ (sb_even b + sb_odd b)%nat = n /\
      ((0 < sb_even b)%nat -> (0 < sb_odd b)%nat ->
        exists E O, separate_sparse thr M b = Ok (E, O) /\ square E (sb_even b) /\ square O (sb_odd b) /\
          splits n (refl_op mt s) (ent M) (sb_v b) (sb_even b) (sb_odd b) (ent E) (ent O)) /\
      (sb_even b = 0%nat \/ sb_odd b = 0%nat -> separate_sparse thr M b = Raise ValueError)).
Proof. exact (C79_lem th gvec k mate inds garr te tm eps ds einv thr). Qed.
Print Assumptions C79_symmetric_structure_separates.
(** the inverse of a symmetric permittivity matrix is symmetric *)
Theorem C79_inverse_symmetric n mate A B : (forall i, (i < n)%nat -> (mate i < n)%nat /\ mate (mate i) = i) ->
  (forall i j, (i < n)%nat -> (j < n)%nat -> A (mate i) (mate j) = A i j) ->
  meq n n (mmul n A B) mid -> meq n n (mmul n B A) mid ->
  forall i j, (i < n)%nat -> (j < n)%nat -> B (mate i) (mate j) = B i j.
Proof. exact (inverse_invariant n mate A B). Qed.
Print Assumptions C79_inverse_symmetric.
(** its hypotheses for the three plane waves, a TE and a TM mode *)
Example C79_example : permuted_by (reflect (rad 0)) ex_g ex_mate /\ separated ex_g /\ reflect (rad 0) (1 / 2, 0) = (1 / 2, 0) /\
  (forall i, (i < 3)%nat -> 0 < len (kplus (1 / 2, 0) (nth i ex_g (0, 0)))) /\
  (let einv (il i j : nat) := if Nat.eqb i j then RtoC 2 else RtoC 1 in
   herm_layers einv /\ forall il i j, (i < 3)%nat -> (j < 3)%nat -> einv il (ex_mate i) (ex_mate j) = einv il i j) /\
  (forall m oms cs, entry ex_te ex_tm m = Some (oms, cs) -> (0 < List.length oms <= List.length [1 / 4; 1])%nat) /\
  (forall m, In m [0%nat; 1%nat] -> entry ex_te ex_tm m <> None).
Proof.
  split; [exact ex_perm|]. split; [exact ex_sep|]. split; [rewrite refl0; apply f_equal2; ring|]. split.
  { intros [|[|[|i]]] Hi; try lia; unfold len, LatticeSpec.inner, kplus, ex_g; cbn [nth fst snd]; apply sqrt_lt_R0; nra. }
  split; [split|split; [exact ex_tab|]].
  - intros il i j. rewrite (Nat.eqb_sym j i). destruct (Nat.eqb i j); symmetry; apply Cconj_R.
  - intros il [|[|[|i]]] [|[|[|j]]] Hi Hj; try lia; reflexivity.
  - intros m [<-|[<-|[]]]; discriminate.
Qed.
