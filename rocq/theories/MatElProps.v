(** Properties C29, C30, C77 and C109: the GME matrix and its elements. *)
From Verif Require Import Py CBase SlabSpec SlabModel MatElModel MatElSpec MatElProofs MatElProofs2 MatElProofs3 MatElProofs4.
Open Scope R_scope.

(** C29.  The assembled matrix is square with one row per pair of a present mode
    and a plane wave supporting it, Hermitian with a real diagonal; block (p, q)
    above the diagonal holds the elements of modes p and q. *)
Theorem C29_matrix_hermitian dl gvec k dgx inds garr (te tm : gtable) eps ds einv :
  (forall m oms cs, entry te tm m = Some (oms, cs) -> (0 < List.length oms <= List.length garr)%nat) ->
  (exists m, In m inds /\ entry te tm m <> None) ->
  exists ms M, construct_mat dl gvec k dgx inds garr te tm eps ds einv = Ok M /\
    map fst ms = present te tm inds /\
    Forall (fun x => get_guided (List.length gvec) (gk_len (gk_data gvec k dgx)) garr te tm eps (fst x) = Ok (snd x) /\
      NoDup (md_ind (snd x)) /\ forall i, In i (md_ind (snd x)) <-> supports gvec k dgx garr te tm (fst x) i) ms /\
    let sz := map (fun x => List.length (md_ind (snd x))) ms in
    nr M = list_sum sz /\ nc M = list_sum sz /\
    (forall i j, (ent M i j) = Cconj (ent M j i)) /\
    (forall p r, (p < List.length ms)%nat -> (r < nth p sz 0)%nat ->
       ent M (offset sz p + r) (offset sz p + r) = RtoC (fst (ent (mat_block dl eps ds einv (gk_data gvec k dgx) (nth p ms dgm) (nth p ms dgm)) r r))) /\
    (forall p q r s, (p < List.length ms)%nat -> (q < List.length ms)%nat -> (r < nth p sz 0)%nat -> (s < nth q sz 0)%nat ->
       (offset sz p + r < offset sz q + s)%nat ->
       ent M (offset sz p + r) (offset sz q + s) = ent (mat_block dl eps ds einv (gk_data gvec k dgx) (nth p ms dgm) (nth q ms dgm)) r s).
Proof. exact (matrix_ok dl gvec k dgx inds garr te tm eps ds einv). Qed.
Print Assumptions C29_matrix_hermitian.
(** ... and no present mode at all is a RuntimeError. *)
Theorem C29_no_modes dl gvec k dgx inds garr (te tm : gtable) eps ds einv :
  (forall m, In m inds -> entry te tm m = None) ->
  construct_mat dl gvec k dgx inds garr te tm eps ds einv = Raise RuntimeError.
Proof. exact (no_mode dl gvec k dgx inds garr te tm eps ds einv). Qed.
Print Assumptions C29_no_modes.
Example C29_example :
  (forall m oms cs, entry ex_te ex_tm m = Some (oms, cs) -> (0 < List.length oms <= List.length [1; 2])%nat) /\
  (exists m, In m [1%nat; 0%nat; 2%nat] /\ entry ex_te ex_tm m <> None) /\ entry ex_te ex_tm 2 = None /\
  supports [(0, 0); (2, 0)] (0, 0) 0 [1; 2] ex_te ex_tm 1 1.
Proof.
  split; [exact ex_tab|]. split; [exists 1%nat; split; [left; auto|discriminate]|]. split; [reflexivity|].
  split; [simpl; lia|]. exists [3/2], [ex_c], 2. split; [reflexivity|]. split; [reflexivity|]. simpl.
  replace ((2 + 0 + 0) * (2 + 0 + 0) + (0 + 0) * (0 + 0)) with (2 * 2) by ring. rewrite sqrt_square by lra. lra.
Qed.

(** C30.  For Hermitian inverse permittivities the block computed for (a, b) is
    the adjoint of the one for (b, a), with the sign of the 1e-20 regulariser
    flipped; without it (dl = 0) it is the adjoint. *)
Theorem C30_elements_adjoint dl eps ds einv d a b i j : herm_layers einv ->
  Cconj (ent (mat_block dl eps ds einv d b a) j i) = ent (mat_block (- dl) eps ds einv d a b) i j.
Proof. exact (block_adj dl eps ds einv d a b i j). Qed.
Print Assumptions C30_elements_adjoint.
(** Hence without the regulariser filling in the lower triangle loses nothing:
    every entry is the element of its own ordered pair, ... *)
Theorem C30_all_pairs gvec k dgx inds garr (te tm : gtable) eps ds einv : herm_layers einv ->
  (forall m oms cs, entry te tm m = Some (oms, cs) -> (0 < List.length oms <= List.length garr)%nat) ->
  (exists m, In m inds /\ entry te tm m <> None) ->
  exists ms M, construct_mat 0 gvec k dgx inds garr te tm eps ds einv = Ok M /\
    map fst ms = present te tm inds /\
    Forall (fun x => get_guided (List.length gvec) (gk_len (gk_data gvec k dgx)) garr te tm eps (fst x) = Ok (snd x)) ms /\
    let sz := map (fun x => List.length (md_ind (snd x))) ms in
    nr M = list_sum sz /\ nc M = list_sum sz /\
    (forall p q r s, (p < List.length ms)%nat -> (q < List.length ms)%nat -> (r < nth p sz 0)%nat -> (s < nth q sz 0)%nat ->
       ent M (offset sz p + r) (offset sz q + s) = ent (mat_block 0 eps ds einv (gk_data gvec k dgx) (nth p ms dgm) (nth q ms dgm)) r s).
Proof. exact (matrix_pairs gvec k dgx inds garr te tm eps ds einv). Qed.
Print Assumptions C30_all_pairs.
(** ... and the matrices for two orders of the same requested modes agree entry
    for entry. *)
Theorem C30_order_free gvec k dgx inds inds' garr (te tm : gtable) eps ds einv : herm_layers einv ->
  (forall m oms cs, entry te tm m = Some (oms, cs) -> (0 < List.length oms <= List.length garr)%nat) ->
  (exists m, In m inds /\ entry te tm m <> None) -> (forall m, In m inds <-> In m inds') ->
  exists ms ms' M M',
    construct_mat 0 gvec k dgx inds garr te tm eps ds einv = Ok M /\
    construct_mat 0 gvec k dgx inds' garr te tm eps ds einv = Ok M' /\
    (forall m, In m (map fst ms) <-> In m inds /\ entry te tm m <> None) /\
    (forall m, In m (map fst ms') <-> In m inds /\ entry te tm m <> None) /\
    let sz := map (fun x : nat * gmode => List.length (md_ind (snd x))) in
    nr M = list_sum (sz ms) /\ nr M' = list_sum (sz ms') /\
    forall p q p' q' r s, (p < List.length ms)%nat -> (q < List.length ms)%nat -> (p' < List.length ms')%nat -> (q' < List.length ms')%nat ->
      fst (nth p ms dgm) = fst (nth p' ms' dgm) -> fst (nth q ms dgm) = fst (nth q' ms' dgm) ->
      nth p (sz ms) 0%nat = nth p' (sz ms') 0%nat /\ nth q (sz ms) 0%nat = nth q' (sz ms') 0%nat /\
      ((r < nth p (sz ms) 0)%nat -> (s < nth q (sz ms) 0)%nat ->
       ent M (offset (sz ms) p + r) (offset (sz ms) q + s) = ent M' (offset (sz ms') p' + r) (offset (sz ms') q' + s)).
Proof. exact (order_free gvec k dgx inds inds' garr te tm eps ds einv). Qed.
Print Assumptions C30_order_free.
Example C30_example : herm_layers (fun il i j => if Nat.eqb i j then RtoC (INR il) else if (i <? j)%nat then Ci else Copp Ci) /\
  (exists m, In m [1%nat; 0%nat] /\ entry ex_te ex_tm m <> None) /\ (forall m, In m [1%nat; 0%nat] <-> In m [0%nat; 1%nat]).
Proof.
  split; [|split; [exists 1%nat; split; [left; auto|discriminate]|simpl; tauto]].
  intros il i j. rewrite (Nat.eqb_sym j i). destruct (Nat.eqb_spec i j) as [->|N].
  - symmetry. apply Cconj_R.
  - destruct (Nat.ltb_spec i j), (Nat.ltb_spec j i); try lia; cring.
Qed.

(** C77.  A matrix element is the sum over layers of the inverse permittivity's
    Fourier component times the overlap integral of the two basis functions' curl
    fields. *)
Theorem C77_elements_are_overlaps dl eps ds einv gvec k dgx a b i j :
  let d := gk_data gvec k dgx in let Nl := List.length eps in
  let gi := md_g (snd a) i in let gj := md_g (snd b) j in
  let F (m : nat * gmode) i il z := curl_field (Nat.even (fst m)) (gk_x d (md_g (snd m) i)) (gk_y d (md_g (snd m) i))
     (md_om (snd m) i) (nth il eps 0%R) (md_chi (snd m) il i) (md_A (snd m) il i) (md_B (snd m) il i) z in
  (forall il, (il < Nl)%nat ->
    layer_fit dl il Nl (md_chi (snd a) il i) (md_A (snd a) il i) (md_B (snd a) il i)
                       (md_chi (snd b) il j) (md_A (snd b) il j) (md_B (snd b) il j)) ->
  exists V : nat -> C,
    (forall il, (il < Nl)%nat -> is_layer_int dl il Nl ds (fun z => hdot (F a i il z) (F b j il z)) (V il)) /\
    ent (mat_block dl eps ds einv d a b) i j = csum Nl (fun il => Cmult (einv il gi gj) (V il)).
Proof. exact (overlap dl eps ds einv (gk_data gvec k dgx) a b i j eq_refl eq_refl). Qed.
Print Assumptions C77_elements_are_overlaps.
(** the three layers of a slab, different wave vectors in the core *)
Example C77_example : forall il, (il < 3)%nat ->
  layer_fit (1 / 10 ^ 20) il 3 (if Nat.eqb il 1 then RtoC 1 else Ci) (fst (ex_c il)) (snd (ex_c il))
                   (if Nat.eqb il 1 then RtoC 2 else Ci) (fst (ex_c il)) (snd (ex_c il)).
Proof.
  intros [|[|[|il]]] H; unfold layer_fit, ex_c; simpl Nat.eqb; cbv iota; [| | |lia].
  - split; [reflexivity|]. split; [simpl; lra|]. split; [left; reflexivity|right; simpl; lra].
  - right. repeat split; intros E; apply (f_equal fst) in E; simpl in E; lra.
  - split; [reflexivity|]. split; [simpl; lra|]. split; [right; simpl; lra|left; reflexivity].
Qed.

(** C109.  The frequency and the amplitudes a guided mode has at a plane wave
    are the linear interpolation of its table at |G + k|, all with the same
    weights; the vertical wave vector is computed from the interpolated
    frequency. *)
Theorem C109_modes_interpolated ng gk garr (te tm : gtable) eps m oms cs m' :
  entry te tm m = Some (oms, cs) -> (0 < List.length oms <= List.length garr)%nat -> List.length cs = List.length oms ->
  let gs := skipn (List.length garr - List.length oms) garr in
  ascending gs -> agree gs (map RtoC oms) ->
  get_guided ng gk garr te tm eps m = Ok m' ->
  forall i, let x := gk (md_g m' i) in
    lerp gs (map RtoC oms) x (RtoC (md_om m' i)) /\
    forall il, md_chi m' il i = chi (md_om m' i) x (nth il eps 0) /\
      (agree gs (map (fun c => fst (c il)) cs) -> lerp gs (map (fun c => fst (c il)) cs) x (md_A m' il i)) /\
      (agree gs (map (fun c => snd (c il)) cs) -> lerp gs (map (fun c => snd (c il)) cs) x (md_B m' il i)).
Proof. exact (guided_interpolated ng gk garr te tm eps m oms cs m'). Qed.
Print Assumptions C109_modes_interpolated.
(** mode 0 of the table above, found at 1 and 2, used at 5/4: a quarter of the way
    from 1 to 3/2 *)
Example C109_example : ascending [1; 2] /\ agree [1; 2] (map RtoC [1; 3/2]) /\
  exists m', get_guided 1 (fun _ => 5/4) [1; 2] ex_te ex_tm [1; 12; 1] 0 = Ok m' /\ md_ind m' = [0%nat] /\ md_om m' 0%nat = 9/8.
Proof.
  split; [|split].
  - intros [|[|i]] [|[|j]] H; cbn [List.length nth] in *; try lia; lra.
  - intros [|[|i]] [|[|j]] H1 H2 E; cbn [List.length nth] in *; try lia; auto; lra.
  - eexists. split; [reflexivity|].
    assert (E : argwhere_gt 1 (fun _ => 5/4) (1 - / 10 ^ 10) = [0%nat]).
    { unfold argwhere_gt. cbn [seq filter]. unfold Rltb. destruct Rlt_dec as [|N]; [reflexivity|].
      exfalso; apply N. assert (0 < / 10 ^ 10) by (apply Rinv_0_lt_compat; lra). lra. }
    cbn [md_ind md_om]. split; [exact E|].
    unfold MatElModel.interp, last_n. cbn [List.length Nat.sub skipn combine map]. unfold Rltb.
    destruct Rlt_dec; [lra|]. cbn [interp_from]. unfold Rltb. destruct Rlt_dec; [|lra].
    unfold Cdiv, Cminus, Cinv, Cmult, Cplus, Copp, RtoC. cbn [fst snd]. field.
Qed.
