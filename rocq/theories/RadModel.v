(** Model of the radiative losses: gme.py _get_rad (345-354),
    _compute_rad_components (1588-1781), compute_rad (1783-1814),
    compute_rad_sp (1816-1857) and run_im (1181-1229).
    Simplifications: reals for floats; numpy's inf/nan on a division by zero is
    Coq's total division (a theorem below shows where that happens); the option
    'gradients' only chooses between two equal arrays without autograd;
    timing and printing are left out.  The progress of the loop over the basis
    is by the numbers modes_numg, as in the code. *)
From Verif Require Import Py CBase SlabModel MatElModel.
Open Scope R_scope.
Open Scope list_scope.

(** bd.argwhere(gk**2 <= eps*omr**2), gme.py 1651-1657 *)
Definition rad_inds (ng : nat) (gk : nat -> R) (eps_clad omr : R) : list nat :=
  filter (fun i => Rleb (gk i * gk i) (eps_clad * (omr * omr))) (seq 0 ng).

(** _get_rad with the index list it is called for, packed like a guided mode:
    matrix_elements gets Ys in the place of As and Xs in the place of Bs,
    gme.py 1671-1681 and 1700-1711 *)
Definition get_rad (gk : nat -> R) (ind : list nat) (omr : R) (pol : string) (clad : nat) (eps ds : list R) : result gmode :=
  let gkr := map gk ind in
  let* xy := rad_modes pol clad omr gkr eps ds in
  let g j := nth j gkr 0 in
  let co j := nth j xy ([], []) in
  Ok (GMode ind (fun _ => omr)
        (fun il j => nth il (snd (co j)) (RtoC 0))
        (fun il j => nth il (fst (co j)) (RtoC 0))
        (fun il j => chi omr (g j) (nth il eps 0))).

(** the overlap of guided mode number [fst m] with the radiative mode [r] of
    polarisation te (true) or tm (false), gme.py 1697-1711 and 1722-1736 *)
Definition rad_overlap (dl : R) (eps ds : list R) (einv : nat -> cmat) (d : gkdata) (m : nat * gmode) (te : bool) (r : gmode) : arr2 :=
  match Nat.even (fst m), te with
  | true, true => mat_te_te dl eps ds einv (snd m) r (qq_mat d)
  | false, true => mat_tm_te dl eps ds einv (snd m) r (pq_mat d)
  | true, false => mat_te_tm dl eps ds einv (snd m) r (fun i j => pq_mat d j i)
  | false, false => mat_tm_tm dl eps ds einv (snd m) r (gk_len d) (pp_mat d)
  end.

(** an eigenvector: its length and its entries *)
Notation evect := (nat * (nat -> C))%type (only parsing).

(** sum(rad * conj(evec[count:count+n])[:, newaxis], axis=0), with the factor
    -i for te, gme.py 1713-1720 and 1738-1743.  A length mismatch is numpy's
    ValueError (broadcasting of a length-1 slice is left out). *)
Definition rad_term (te : bool) (o : arr2) (evec : evect) (count n : nat) : result (nat -> C) :=
  if (Nat.eqb (nr o) n && Nat.leb (count + n) (fst evec))%bool then
    let s j := csum n (fun i => Cmult (ent o i j) (Cconj (snd evec (count + i)%nat))) in
    Ok (if te then fun j => Cmult (Copp Ci) (s j) else s)
  else Raise ValueError.

(** the loop over the basis for one cladding and polarisation, gme.py 1688-1744 *)
Fixpoint rad_loop (ov : nat * gmode -> arr2) (te : bool) (evec : evect) (get : nat -> result gmode)
  (count : nat) (inc numg : list nat) (acc : nat -> C) : result (nat -> C) :=
  match inc with
  | [] => Ok acc
  | m :: t =>
    let* g := get m in
    match numg with
    | [] => Raise IndexError
    | n :: ns =>
      let* s := rad_term te (ov (m, g)) evec count n in
      rad_loop ov te evec get (count + n) t ns (fun j => Cplus (acc j) (s j))
    end
  end.

(** density of states of the leaky modes, gme.py 1746-1749 *)
Definition rad_dos (eps_clad omr g : R) : R := eps_clad / sqrt (eps_clad * (omr * omr) - g * g) / 4 / PI.

(** the coupling constants to one cladding and polarisation, in the order of the
    diffraction orders, gme.py 1758-1767 *)
Definition coupling (ng : nat) (gk : nat -> R) (eps_clad omr : R) (rc : nat -> C) : list C :=
  let ind := rad_inds ng gk eps_clad omr in
  map (fun j => Cmult (RtoC (sqrt (PI * rad_dos eps_clad omr (gk (nth j ind 0%nat))))) (rc j)) (seq 0 (List.length ind)).

(** sum(square(abs(c))) (gme/gme.py 1769-1775) *)
Definition power (c : list C) : R := rsuml (map (fun z => Cmod z * Cmod z) c).
(** imag(sqrt(omr**2 + 1j*r)), gme.py 1777-1779 *)
Definition im_sqrt (omr r : R) : R := snd (csqrt (Cplus (RtoC (omr * omr)) (Cmult Ci (RtoC r)))).

(** what is stored for one mode: the three rates, the couplings (l_te, l_tm,
    u_te, u_tm) and the diffraction orders (l, u) (gme/gme.py 1751-1779) *)
Record rad_res := RadRes { rr_tot : R; rr_te : R; rr_tm : R;
  rr_lte : list C; rr_ltm : list C; rr_ute : list C; rr_utm : list C;
  rr_gl : list (R * R); rr_gu : list (R * R) }.

(** what the routine reads from the object at one k-point: reciprocal vectors,
    k, delta_gx, permittivities and thicknesses, inverse permittivity matrices,
    eps_avg of the two claddings, _get_guided for this k, gmode_include and
    modes_numg (gme/gme.py 1588-1781) *)
Record rad_env := RadEnv { re_gvec : list (R * R); re_k : R * R; re_dgx : R; re_eps : list R; re_ds : list R;
  re_einv : nat -> cmat; re_clad_l : R; re_clad_u : R; re_get : nat -> result gmode;
  re_inc : list nat; re_numg : list nat }.

(** one pass of the loop over the modes, gme.py 1648-1779 *)
Definition rad_one (dl : R) (e : rad_env) (freq : R) (evec : evect) : result rad_res :=
  let d := gk_data (re_gvec e) (re_k e) (re_dgx e) in
  let gk := gk_len d in
  let ng := List.length (re_gvec e) in
  let omr := 2 * PI * freq in
  let il := rad_inds ng gk (re_clad_l e) omr in
  let iu := rad_inds ng gk (re_clad_u e) omr in
  let* lte := get_rad gk il omr "te" 0 (re_eps e) (re_ds e) in
  let* ltm := get_rad gk il omr "tm" 0 (re_eps e) (re_ds e) in
  let* ute := get_rad gk iu omr "te" 1 (re_eps e) (re_ds e) in
  let* utm := get_rad gk iu omr "tm" 1 (re_eps e) (re_ds e) in
  let amp te r := rad_loop (fun m => rad_overlap dl (re_eps e) (re_ds e) (re_einv e) d m te r) te evec (re_get e)
                    0 (re_inc e) (re_numg e) (fun _ => RtoC 0) in
  let* alte := amp true lte in
  let* altm := amp false ltm in
  let* aute := amp true ute in
  let* autm := amp false utm in
  let clte := coupling ng gk (re_clad_l e) omr alte in
  let cltm := coupling ng gk (re_clad_l e) omr altm in
  let cute := coupling ng gk (re_clad_u e) omr aute in
  let cutm := coupling ng gk (re_clad_u e) omr autm in
  let te := power clte + power cute in
  let tm := power cltm + power cutm in
  Ok (RadRes (im_sqrt omr (te + tm)) (im_sqrt omr te) (im_sqrt omr tm) clte cltm cute cutm
        (map (fun i => nth i (re_gvec e) (0, 0)) il) (map (fun i => nth i (re_gvec e) (0, 0)) iu)).

(** the checks and the loop, gme.py 1614-1620 and 1645-1781.  [freqs] are the
    frequencies stored for this k-point, [evecs i] is column i of the stored
    eigenvectors; np.max of an empty list is a ValueError. *)
Definition rad_components (dl : R) (e : rad_env) (numeig : nat) (freqs : list R) (evecs : list evect) (minds : list nat)
  : result (list rad_res) :=
  match minds with
  | [] => Raise ValueError
  | _ =>
    if existsb (fun i => Nat.leb numeig i) minds then Raise ValueError
    else mapM (fun im => match nth_error freqs im, nth_error evecs im with
                         | Some f, Some v => rad_one dl e f v
                         | _, _ => Raise IndexError end) minds
  end.

(** compute_rad / compute_rad_sp, gme.py 1808-1814, 1849-1857: rates divided by 2 pi *)
Definition to_freq (y : R) : R := y / 2 / PI.
(** gme.py 1783-1814 *)
Definition compute_rad dl e numeig freqs evecs minds : result (list R * list rad_res) :=
  let* rs := rad_components dl e numeig freqs evecs minds in
  Ok (map (fun r => to_freq (rr_tot r)) rs, rs).
(** gme.py 1816-1857 *)
Definition compute_rad_sp dl e numeig freqs evecs minds : result (list R * list R * list R * list rad_res) :=
  let* rs := rad_components dl e numeig freqs evecs minds in
  Ok (map (fun r => to_freq (rr_tot r)) rs, map (fun r => to_freq (rr_te r)) rs, map (fun r => to_freq (rr_tm r)) rs, rs).

(** one entry of unbalance_sp, gme.py 1217-1221 *)
Definition unbalance (tot te tm : R) : R :=
  if Rltb (Rabs tot) (1 / 10 ^ 15) then 1 / 2 else te / (te + tm + 1 / 10 ^ 15).

(** run_im, gme.py 1181-1229: for every k-point the environment, the frequencies
    and the eigenvectors stored by run.  Returns freqs_im, unbalance_sp and the
    stored couplings. *)
Definition run_im (dl : R) (numeig : nat) (ks : list (rad_env * list R * list evect))
  : result (list (list R) * list (list R) * list (list rad_res)) :=
  match ks with
  | [] => Raise RuntimeError
  | _ =>
    let* rows := mapM (fun x => let '(e, fs, vs) := x in compute_rad_sp dl e numeig fs vs (seq 0 numeig)) ks in
    Ok (map (fun r => fst (fst (fst r))) rows,
        map (fun r => map (fun i => unbalance (nth i (fst (fst (fst r))) 0) (nth i (snd (fst (fst r))) 0) (nth i (snd (fst r)) 0))
                        (seq 0 (List.length (fst (fst (fst r)))))) rows,
        map snd rows)
  end.
