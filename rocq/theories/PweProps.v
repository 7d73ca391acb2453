(** Property theorems for the plane-wave expansion: C49-C51, C84-C87, C115. *)
From Coq Require Import Permutation List Ascii.
From Verif Require Import Py CBase LatticeModel LatticeSpec PhcModel PhcSpec RecipModel RecipSpec MatElModel FieldsSpec FieldsModel RunModel RunSpec PweSpec PweModel.
From Verif Require Import PweProofs PweProofs2 PweProofs3 PweProofs4 PweProofs5 PweProofs6 PweProofs7 PweProofs8.
From Verif Require Import CellSpec.
Open Scope R_scope.
Open Scope list_scope.

(** C49.  For a Hermitian positive inverse permittivity both matrices are
    Hermitian and positive, and their eigenvalues are non-negative. *)
Theorem C49_matrices_positive s k B : let n := List.length (rc_g (pw_rc s)) in herm_on n B -> psd n B ->
  herm_on n (mat_te s k B) /\ psd n (mat_te s k B) /\ herm_on n (mat_tm s k B) /\ psd n (mat_tm s k B) /\
  (forall ls V, eigensystem n (mat_te s k B) ls V \/ eigensystem n (mat_tm s k B) ls V -> forall l, In l ls -> 0 <= l /\ Rabs l = l).
Proof.
  exact (fun H P => conj (te_herm s k B H) (conj (te_psd s k B P) (conj (tm_herm s k B H) (conj (tm_psd s k B P)
    (fun ls V E l I => match E with
       | or_introl E => conj (psd_eigs _ _ _ _ (te_psd s k B P) E l I) (Rabs_pos_eq l (psd_eigs _ _ _ _ (te_psd s k B P) E l I))
       | or_intror E => conj (psd_eigs _ _ _ _ (tm_psd s k B P) E l I) (Rabs_pos_eq l (psd_eigs _ _ _ _ (tm_psd s k B P) E l I)) end))))).
Qed.
Print Assumptions C49_matrices_positive.
(** A run on a layer with a positive permittivity matrix succeeds and returns, at
    every k-point, the numeig lowest bands sqrt(eigenvalue)/(2 pi) of the TE or TM
    problem, with no absolute value. *)
Theorem C49_bands argsort eigh inv : sorts argsort -> diagonalises eigh -> inverts inv ->
  forall args L ly gmax e ks pol m, lattice_init args = Ok L -> independent (lt_a1 L) (lt_a2 L) -> 0 <= gmax ->
  conj_symmetric (layer_ft_at (lt_ec_area L) ly) -> ks <> [] -> lower pol = "te"%string \/ lower pol = "tm"%string ->
  let gs := rc_g (recip_tbt L gmax) in let n := List.length gs in let eps := ft_matrix (layer_ft_at (lt_ec_area L) ly) gs in
  (exists B, is_inverse n eps B) -> psd n eps ->
  exists s' fs vs B, pwe_run argsort eigh inv (pwe_init L ly gmax e) ks pol m = (s', Ok tt) /\ is_inverse n eps B /\
    pw_freqs s' = Some fs /\ pw_vecs s' = Some vs /\ List.length fs = List.length ks /\ List.length vs = List.length ks /\
    (forall i k, nth_error ks i = Some k -> lowest n m (form_of (lower pol) gs k B) (nth i fs []) (nth i vs [])) /\
    pw_rc s' = recip_tbt L gmax /\ pw_einv s' = Some B /\ pw_pol s' = Some (lower pol) /\ pw_k s' = Some ks.
Proof. exact (bands argsort eigh inv). Qed.
Print Assumptions C49_bands.
Example C49_example : exists L, lattice_init (LatName "square") = Ok L /\ independent (lt_a1 L) (lt_a2 L) /\
  conj_symmetric (layer_ft_at (lt_ec_area L) (slab_of 12)) /\
  let gs := rc_g (recip_tbt L 3) in let n := List.length gs in
  (1 < n)%nat /\ (exists B, is_inverse n (ft_matrix (layer_ft_at (lt_ec_area L) (slab_of 12)) gs) B) /\ psd n (ft_matrix (layer_ft_at (lt_ec_area L) (slab_of 12)) gs).
Proof. exact uniform_hyps. Qed.
(** uniform permittivity: the folded light line *)
Theorem C49_uniform argsort eigh inv : sorts argsort -> diagonalises eigh -> inverts inv ->
  forall args L eps z1 z2 gmax e ks pol m, lattice_init args = Ok L -> independent (lt_a1 L) (lt_a2 L) -> 0 <= gmax -> 0 < eps ->
  ks <> [] -> lower pol = "te"%string \/ lower pol = "tm"%string ->
  let gs := rc_g (recip_tbt L gmax) in
  (forall g g', In g gs -> In g' gs -> is_g0 (diff g g') -> g = g') ->
  exists s' fs vs, pwe_run argsort eigh inv (pwe_init L (shapes_layer z1 z2 eps) gmax e) ks pol m = (s', Ok tt) /\
    pw_freqs s' = Some fs /\ pw_vecs s' = Some vs /\ List.length fs = List.length ks /\ List.length vs = List.length ks /\
    forall i k, nth_error ks i = Some k -> smallest m (map (fun g => len (shifted k g) / (2 * PI * sqrt eps)) gs) (nth i fs []).
Proof. exact (uniform_bands argsort eigh inv). Qed.
Print Assumptions C49_uniform.
(** the separation hypothesis holds for the square lattice, at any cutoff *)
Example C49_uniform_example L gmax : lattice_init (LatName "square") = Ok L -> 0 <= gmax ->
  forall g g', In g (rc_g (recip_tbt L gmax)) -> In g' (rc_g (recip_tbt L gmax)) -> is_g0 (diff g g') -> g = g'.
Proof. exact (square_sep L gmax). Qed.
(** inverse permittivity times s: eigenvalues times s.  In terms of the result of
    the program: permittivity times c, frequencies divided by sqrt c *)
Theorem C49_scaling argsort eigh inv : sorts argsort -> diagonalises eigh -> inverts inv ->
  forall args L ly ly' c gmax e ks pol m, lattice_init args = Ok L -> independent (lt_a1 L) (lt_a2 L) -> 0 <= gmax ->
  conj_symmetric (layer_ft_at (lt_ec_area L) ly) -> ks <> [] -> lower pol = "te"%string \/ lower pol = "tm"%string -> 0 < c ->
  (forall g, layer_ft_at (lt_ec_area L) ly' g = (RtoC c * layer_ft_at (lt_ec_area L) ly g)%C) ->
  let gs := rc_g (recip_tbt L gmax) in let n := List.length gs in let eps := ft_matrix (layer_ft_at (lt_ec_area L) ly) gs in
  (exists B, is_inverse n eps B) -> psd n eps ->
  exists fs, pw_freqs (fst (pwe_run argsort eigh inv (pwe_init L ly gmax e) ks pol m)) = Some fs /\
    pw_freqs (fst (pwe_run argsort eigh inv (pwe_init L ly' gmax e) ks pol m)) = Some (map (map (fun f => f / sqrt c)) fs).
Proof. exact (scaled_layer argsort eigh inv). Qed.
Print Assumptions C49_scaling.

(** C50.  The argument is stored, and nothing that can be computed from the object
    depends on it. *)
Theorem C50_eps_eff_refuted : exists L ly e e', lattice_init (LatName "square") = Ok L /\ e <> e' /\
  pw_epseff (pwe_init L ly 3 (Some e)) <> pw_epseff (pwe_init L ly 3 (Some e')) /\
  forall argsort eigh inv ks pol m, pw_freqs (fst (pwe_run argsort eigh inv (pwe_init L ly 3 (Some e)) ks pol m)) = pw_freqs (fst (pwe_run argsort eigh inv (pwe_init L ly 3 (Some e')) ks pol m)).
Proof. exact eps_eff_example. Qed.
Print Assumptions C50_eps_eff_refuted.
Theorem C50_eps_eff_never_read argsort eigh inv L ly gmax e e' ks pol m :
  let r := pwe_run argsort eigh inv (pwe_init L ly gmax e) ks pol m in
  let r' := pwe_run argsort eigh inv (pwe_init L ly gmax e') ks pol m in
  snd r = snd r' /\ pw_freqs (fst r) = pw_freqs (fst r') /\ pw_vecs (fst r) = pw_vecs (fst r') /\ pw_einv (fst r) = pw_einv (fst r') /\
  (forall x y, pwe_get_eps (fst r) x y = pwe_get_eps (fst r') x y) /\
  (forall dl field kind mind, pwe_ft_field dl (fst r) field kind mind = pwe_ft_field dl (fst r') field kind mind).
Proof. exact (eps_eff_unused argsort eigh inv L ly gmax e e' ks pol m). Qed.
Print Assumptions C50_eps_eff_never_read.

(** C51.  Full statement: D = c/omega curl H with one constant c.  False: there is
    no such constant, even for two modes of an empty lattice. *)
Theorem C51_curl_refuted : exists L ly ks, lattice_init (LatName "square") = Ok L /\
  forall argsort eigh inv, sorts argsort -> diagonalises eigh -> inverts inv -> exists s' fs,
    pwe_run argsort eigh inv (pwe_init L ly 0 None) ks "te" 1 = (s', Ok tt) /\ pw_freqs s' = Some fs /\
    forall dl, 0 <= dl -> forall c : C, exists i k H D, nth_error ks i = Some k /\ pwe_ft_field dl s' "H" i 0 = Ok (Some H) /\ pwe_ft_field dl s' "D" i 0 = Ok (Some D) /\
      at3 D 0 <> scale3 (c / RtoC (2 * PI * nth 0 (nth i fs []) 0))%C (curl_at (shifted k (gat (rc_g (pw_rc s')) 0)) (at3 H 0)).
Proof. exact no_constant. Qed.
Print Assumptions C51_curl_refuted.
(** What holds: both fields are transverse to k+G (plus the shift dl = 1e-10 along
    x that the code adds), and |k+G| D = +-(1/omega) curl H: D lacks a factor |k+G|,
    and its sign is + for 'te' and - for 'tm'. *)
Theorem C51_fields_partial s ks fs vs : pw_vecs s = Some vs -> pw_freqs s = Some fs -> pw_k s = Some ks ->
  forall kind mind k f n h, nth_error ks kind = Some k -> nth_error (nth kind fs []) mind = Some f -> nth_error (nth kind vs []) mind = Some (n, h) ->
  List.length fs = List.length ks -> List.length vs = List.length ks ->
  forall dl pol, pw_pol s = Some pol -> pol = "te"%string \/ pol = "tm"%string ->
  let q i := (fst (nthg (rc_g (pw_rc s)) i) + fst k + dl, snd (nthg (rc_g (pw_rc s)) i) + snd k) in
  exists H D, pwe_ft_field dl s "H" kind mind = Ok (Some H) /\ pwe_ft_field dl s "D" kind mind = Ok (Some D) /\
    forall i, q i <> (0, 0) -> dot_at (q i) (at3 H i) = RtoC 0 /\ dot_at (q i) (at3 D i) = RtoC 0 /\
      scale3 (RtoC (len (q i))) (at3 D i) = scale3 (RtoC (if String.eqb pol "te" then 1 else -1) / RtoC (f * 2 * PI))%C (curl_at (q i) (at3 H i)).
Proof. exact (relation s ks fs vs). Qed.
Print Assumptions C51_fields_partial.

(** C84.  The modes solve Maxwell's equations: with H from ft_field_xy,
    D = (i/omega) curl H and E = eps^-1 D, curl E = i omega H; and H is not zero.
    For 'te' with the shift that the code uses, for 'tm' without it. *)
Theorem C84_modes argsort eigh inv : sorts argsort -> diagonalises eigh -> inverts inv ->
  forall args L ly gmax e ks pol m, lattice_init args = Ok L -> independent (lt_a1 L) (lt_a2 L) -> 0 <= gmax ->
  conj_symmetric (layer_ft_at (lt_ec_area L) ly) -> ks <> [] -> lower pol = "te"%string \/ lower pol = "tm"%string ->
  let gs := rc_g (recip_tbt L gmax) in let n := List.length gs in let eps := ft_matrix (layer_ft_at (lt_ec_area L) ly) gs in
  (exists B, is_inverse n eps B) -> psd n eps ->
  exists s' fs B, pwe_run argsort eigh inv (pwe_init L ly gmax e) ks pol m = (s', Ok tt) /\ pw_freqs s' = Some fs /\
    is_inverse n eps B /\
    forall dl i k b, nth_error ks i = Some k -> (b < Nat.min m n)%nat ->
      (lower pol = "te"%string \/ (dl = 0 /\ forall j, (j < n)%nat -> shifted k (gat gs j) <> (0, 0))) ->
      let om := 2 * PI * nth b (nth i fs []) 0 in
      exists H, pwe_ft_field dl s' "H" i b = Ok (Some H) /\ (exists j, (j < n)%nat /\ at3 H j <> (RtoC 0, RtoC 0, RtoC 0)) /\
        (om <> 0 -> mode_of n gs k B om (at3 H)).
Proof. exact (maxwell argsort eigh inv). Qed.
Print Assumptions C84_modes.

(** C85.  The Toeplitz blocks make up the matrix eps(G_i - G_j), which is
    Hermitian, and get_eps_xy sums every difference once and is real. *)
Theorem C85_matrix args L ly gmax e : lattice_init args = Ok L -> independent (lt_a1 L) (lt_a2 L) -> 0 <= gmax ->
  conj_symmetric (layer_ft_at (lt_ec_area L) ly) ->
  let s := pwe_init L ly gmax e in let gs := rc_g (pw_rc s) in let n := List.length gs in
  (forall i j, (i < n)%nat -> (j < n)%nat -> pwe_eps_mat s i j = layer_ft_at (lt_ec_area L) ly (diff (gat gs i) (gat gs j))) /\
  herm_on n (pwe_eps_mat s).
Proof. exact (pwe_matrix args L ly gmax e). Qed.
Print Assumptions C85_matrix.
Theorem C85_eps_map args L ly gmax e x y : lattice_init args = Ok L -> independent (lt_a1 L) (lt_a2 L) -> 0 <= gmax ->
  conj_symmetric (layer_ft_at (lt_ec_area L) ly) ->
  let s := pwe_init L ly gmax e in let gs := rc_g (pw_rc s) in
  exists ds, NoDup ds /\ (forall D, In D ds <-> exists g g', In g gs /\ In g' gs /\ D = diff g g') /\
    pwe_get_eps s x y = series (map (fun D => (layer_ft_at (lt_ec_area L) ly D, D)) ds) x y /\ snd (pwe_get_eps s x y) = 0.
Proof. exact (pwe_eps_map args L ly gmax e x y). Qed.
Print Assumptions C85_eps_map.

(** C86.  The frequencies depend on the crystal alone, not on which eigenvectors
    the solver returns, how it orders them, or how ties are sorted. *)
Theorem C86_solver_independent argsort eigh inv argsort' eigh' inv' :
  sorts argsort -> diagonalises eigh -> inverts inv -> sorts argsort' -> diagonalises eigh' -> inverts inv' ->
  forall args L ly gmax e ks pol m, lattice_init args = Ok L -> independent (lt_a1 L) (lt_a2 L) -> 0 <= gmax ->
  conj_symmetric (layer_ft_at (lt_ec_area L) ly) -> lower pol = "te"%string \/ lower pol = "tm"%string ->
  let gs := rc_g (recip_tbt L gmax) in let n := List.length gs in let eps := ft_matrix (layer_ft_at (lt_ec_area L) ly) gs in
  (exists B, is_inverse n eps B) -> psd n eps ->
  pw_freqs (fst (pwe_run argsort eigh inv (pwe_init L ly gmax e) ks pol m)) = pw_freqs (fst (pwe_run argsort' eigh' inv' (pwe_init L ly gmax e) ks pol m)).
Proof. exact (solver_free argsort eigh inv argsort' eigh' inv'). Qed.
Print Assumptions C86_solver_independent.

(** C87.  A run of an object that has been run before ends like a run of a fresh
    one; a successful run also leaves the same object behind. *)
Theorem C87_rerun argsort eigh inv L ly gmax e s ks pol m : reachable argsort eigh inv L ly gmax e s ->
  snd (pwe_run argsort eigh inv s ks pol m) = snd (pwe_run argsort eigh inv (pwe_init L ly gmax e) ks pol m) /\
  (snd (pwe_run argsort eigh inv s ks pol m) = Ok tt ->
   fst (pwe_run argsort eigh inv s ks pol m) = fst (pwe_run argsort eigh inv (pwe_init L ly gmax e) ks pol m)).
Proof. exact (rerun argsort eigh inv L ly gmax e s ks pol m). Qed.
Print Assumptions C87_rerun.
(** a failed run: the old frequencies stay, the old eigenvectors are gone *)
Theorem C87_bad_polarisation argsort eigh inv s k ks pol m : lower pol <> "te"%string -> lower pol <> "tm"%string ->
  let r := pwe_run argsort eigh inv s (k :: ks) pol m in
  snd r = Raise ValueError /\ pw_freqs (fst r) = pw_freqs s /\ pw_vecs (fst r) = Some [] /\ pw_pol (fst r) = Some (lower pol).
Proof. exact (bad_pol argsort eigh inv s k ks pol m). Qed.
Print Assumptions C87_bad_polarisation.
Theorem C87_no_k argsort eigh inv s pol m : let r := pwe_run argsort eigh inv s [] pol m in
  snd r = Raise UnboundLocalError /\ pw_freqs (fst r) = Some [] /\ pw_vecs (fst r) = Some [].
Proof. exact (no_k argsort eigh inv s pol m). Qed.
Print Assumptions C87_no_k.

(** C115.  get_field_xy: the requested components (and no others) of the field
    whose coefficients ft_field_xy gives, at every point of the mesh; an unknown
    component is a ValueError, an unknown field a TypeError. *)
Theorem C115_components dl s field kind mind component Nx Ny Fx Fy Fz : NoDup (rc_g (pw_rc s)) ->
  pwe_ft_field dl s field kind mind = Ok (Some (Fx, Fy, Fz)) ->
  exists xg yg, xy_grid (pw_lat s) Nx Ny PerNone = Ok (xg, yg) /\
  ((forall c, letter c component -> c = "x"%char \/ c = "y"%char \/ c = "z"%char) ->
    exists fi, pwe_get_field dl s field kind mind component Nx Ny = Ok (fi, xg, yg) /\ NoDup (map fst fi) /\ (forall c, In c (map fst fi) <-> letter c component) /\
      forall c a, In (c, a) fi -> exists F, ((c = "x"%char /\ F = Fx) \/ (c = "y"%char /\ F = Fy) \/ (c = "z"%char /\ F = Fz)) /\
        a = map (fun y => map (fun x => wave (rc_g (pw_rc s)) F x y) xg) yg) /\
  ((exists c, letter c component /\ ~ (c = "x"%char \/ c = "y"%char \/ c = "z"%char)) -> pwe_get_field dl s field kind mind component Nx Ny = Raise ValueError).
Proof. exact (get_field_ok dl s field kind mind component Nx Ny Fx Fy Fz). Qed.
Print Assumptions C115_components.
Theorem C115_field_name dl s field kind mind component Nx Ny D : pwe_ft_field dl s "D" kind mind = Ok D ->
  lower field <> "h"%string -> lower field <> "d"%string -> lower field <> "e"%string ->
  pwe_get_field dl s field kind mind component Nx Ny = Raise TypeError.
Proof. exact (get_field_name dl s field kind mind component Nx Ny D). Qed.
Print Assumptions C115_field_name.
(** E is the inverse permittivity matrix of the run applied to D ... *)
Theorem C115_E_field dl s kind mind B D : pw_einv s = Some B -> pwe_ft_field dl s "D" kind mind = Ok (Some D) ->
  exists E, pwe_ft_field dl s "E" kind mind = Ok (Some E) /\ forall i, at3 E i = apply3 (List.length (rc_g (pw_rc s))) B (at3 D) i.
Proof. exact (e_field dl s kind mind B D). Qed.
Print Assumptions C115_E_field.
(** ... and the magnetic fields of the bands at one k are lattice periodic (without
    the factor e^{ik.r}) and orthonormal in the mean over the cell. *)
Theorem C115_orthonormal argsort eigh inv : sorts argsort -> diagonalises eigh -> inverts inv ->
  forall args L ly gmax e ks pol m, lattice_init args = Ok L -> independent (lt_a1 L) (lt_a2 L) -> 0 <= gmax ->
  conj_symmetric (layer_ft_at (lt_ec_area L) ly) -> ks <> [] -> lower pol = "te"%string \/ lower pol = "tm"%string ->
  let gs := rc_g (recip_tbt L gmax) in let n := List.length gs in let eps := ft_matrix (layer_ft_at (lt_ec_area L) ly) gs in
  (exists B, is_inverse n eps B) -> psd n eps ->
  exists s', pwe_run argsort eigh inv (pwe_init L ly gmax e) ks pol m = (s', Ok tt) /\
    forall dl i k, nth_error ks i = Some k ->
      (lower pol = "te"%string \/ forall g, In g gs -> (fst g + fst k + dl, snd g + snd k) <> (0, 0)) ->
      exists H : nat -> (nat -> C) * (nat -> C) * (nat -> C), forall b, (b < Nat.min m n)%nat ->
        pwe_ft_field dl s' "H" i b = Ok (Some (H b)) /\
        let at_ b x y := (wave gs (fst (fst (H b))) x y, wave gs (snd (fst (H b))) x y, wave gs (snd (H b)) x y) in
        (forall r x y, in_lattice (lt_a1 L) (lt_a2 L) r -> at_ b (x + fst r) (y + snd r) = at_ b x y) /\
        forall b', (b' < Nat.min m n)%nat ->
          cell_mean (lt_a1 L) (lt_a2 L) (fun x y => dot3 (at_ b x y) (at_ b' x y)) (if Nat.eqb b b' then RtoC 1 else RtoC 0).
Proof.
  exact (fun Hs He Hi args L ly gmax e ks pol m => fields_orthonormal argsort eigh inv Hs He Hi args L ly gmax e ks pol m).
Qed.
Print Assumptions C115_orthonormal.
(** the hypotheses hold for a uniform layer on the square lattice with more than
    one plane wave *)
Example C115_example : exists L, lattice_init (LatName "square") = Ok L /\ independent (lt_a1 L) (lt_a2 L) /\
  conj_symmetric (layer_ft_at (lt_ec_area L) (slab_of 12)) /\
  let gs := rc_g (recip_tbt L 3) in let n := List.length gs in
  (1 < n)%nat /\ NoDup gs /\ (exists B, is_inverse n (ft_matrix (layer_ft_at (lt_ec_area L) (slab_of 12)) gs) B) /\ psd n (ft_matrix (layer_ft_at (lt_ec_area L) (slab_of 12)) gs).
Proof.
  destruct uniform_hyps as (L & HL & Hi & Hc & H). exists L. split; [exact HL|]. split; [exact Hi|]. split; [exact Hc|]. cbv zeta in *. destruct H as (A & B & D).
  split; [exact A|]. split; [|split; [exact B|exact D]].
  destruct (RecipProofs.tbt_set _ L 3 HL Hi ltac:(lra)) as (n1 & n2 & _ & _ & _ & _ & _ & ND & _). exact ND.
Qed.
