(** Modes computed at every plane wave are modes of the slab (C146). *)
From Coq Require Import Lra Lia Permutation List String.
From Verif Require Import Py CBase SlabModel SlabSpec SlabProofs SlabProofs10 MatElModel MatElSpec MatElProofs3 RunModel RunSpec RunSpec2 RunProofs RunProofs7 RunProofs11 SlabProofs9 OrthProofs2 UnifSpec UnifProofs4 RegSpec RegSpec2 RegProofs5 RegProofs6.
Open Scope R_scope.
Open Scope list_scope.

Lemma lerp_node gs ys x v : lerp gs ys x v -> MatElSpec.agree gs ys -> MatElSpec.ascending gs -> forall n j, (n = List.length gs - 1 - j)%nat -> (j < List.length gs)%nat -> x = nth j gs 0 -> v = nth j ys (RtoC 0).
Proof.
  intros (L0 & L1 & L2) Ag As. cbv zeta in *. induction n as [|n IH]; intros j Hn Hj Hx.
  - replace j with (List.length gs - 1)%nat in * by lia. apply L1. lra.
  - assert (A1 := As j (S j) ltac:(lia)). specialize (L2 j ltac:(lia) ltac:(lra)). destruct (Req_dec (nth j gs 0) (nth (S j) gs 0)) as [Q|Q].
    + rewrite (Ag j (S j) ltac:(lia) Hj Q) || rewrite (Ag j (S j) Hj ltac:(lia) Q). apply IH; lia || lra.
    + rewrite Hx in L2. assert (N : RtoC (nth (S j) gs 0 - nth j gs 0) <> RtoC 0) by (intros X; apply (f_equal fst) in X; cbn in X; lra).
      replace (RtoC (nth j gs 0 - nth j gs 0)) with (RtoC 0) in L2 by (f_equal; ring).
      assert (Z : ((v - nth j ys (RtoC 0)) * RtoC (nth (S j) gs 0 - nth j gs 0) = RtoC 0)%C).
      { transitivity (v * RtoC (nth (S j) gs 0 - nth j gs 0) - nth j ys (RtoC 0) * RtoC (nth (S j) gs 0 - nth j gs 0))%C; [ring|]. rewrite L2. ring. }
      destruct (Ceq_dec (v - nth j ys (RtoC 0))%C (RtoC 0)) as [D|D]; [|exfalso; apply (Cmult_neq_0 _ _ D N Z)].
      replace v with ((v - nth j ys (RtoC 0)) + nth j ys (RtoC 0))%C by ring. rewrite D. ring.
Qed.

(** every row is a search at its node or, when the nodes are too close, the previous row *)
Lemma loop_calls_near root pol eps ds n step tol gs : forall st rs, guided_loop root pol eps ds n step tol st gs = Ok rs ->
  forall i, (i < List.length gs)%nat -> (exists lb ub, guided_mode_given_g root pol (Rmax (nth i gs 0) (/ 10 ^ 4)) eps ds n lb ub step tol = Ok (nth i rs ([], []))) \/
    (exists j, i = S j /\ Rabs (nth i gs 0 - nth j gs 0) <= / 10 ^ 8 /\ nth i rs ([], []) = nth j rs ([], [])) \/ (i = 0%nat /\ st <> None).
Proof.
  induction gs as [|g t IH]; intros st rs H i Hi; cbn [List.length] in Hi; [lia|]. cbn [guided_loop] in H.
  destruct (guided_step root pol eps ds n step tol st g) as [r|] eqn:E; [cbn [bind] in H|discriminate H].
  destruct (guided_loop _ _ _ _ _ _ _ (Some (g, r)) t) as [rs'|] eqn:E'; [cbn [bind] in H|discriminate H].
  apply (f_equal (fun x => match x with Ok a => a | _ => [] end)) in H. subst rs. destruct i as [|i].
  - destruct st as [x|]; [right; right; split; [reflexivity|discriminate]|]. left. unfold guided_step in E. destruct (rmaxl _) as [m|]; [cbn [bind] in E|discriminate E].
    cbn [nth]. eexists; eexists; exact E.
  - cbn [nth]. destruct (IH _ _ E' i ltac:(lia)) as [A|[(j & -> & D & A)|[-> _]]]; [left; exact A|right; left; exists (S j); auto|].
    destruct t as [|g' t]; [cbn in Hi; lia|]. cbn [guided_loop] in E'. destruct (guided_step _ _ _ _ _ _ _ _ g') as [r'|] eqn:Es; [cbn [bind] in E'|discriminate E'].
    destruct (guided_loop _ _ _ _ _ _ _ (Some (g', r')) t) as [rs''|] eqn:E''; [cbn [bind] in E'|discriminate E']. 
    apply (f_equal (fun x => match x with Ok a => a | _ => [] end)) in E'. subst rs'. cbn [nth].
    unfold guided_step in Es. destruct (rmaxl _) as [m|]; [cbn [bind] in Es|discriminate Es]. destruct r as [om co].
    destruct (if Nat.eqb (List.length om) n then _ else _) as [ub|]; [cbn [bind] in Es|discriminate Es].
    destruct (Rltb _ _) eqn:Q; [left; eexists; eexists; exact Es|]. right. left. exists 0%nat. split; [reflexivity|]. cbn [nth]. split.
    + apply Rnot_lt_le. intros X. rewrite (proj2 (Rltb_true _ _) X) in Q. discriminate Q.
    + apply (f_equal (fun x => match x with Ok a => a | _ => ([], []) end)) in Es. symmetry. exact Es.
Qed.

Section Exact.
Variable root : (R -> R) -> R -> R -> R.
Variable te : bool.
Variables e0 el : R.
Variables ei ds : list R.
Variable n : nat.
Variables step tol : R.
Let pol := (if te then "TE" else "TM")%string.
Let eps := e0 :: ei ++ [el].
Hypothesis Hroot : forall g, finds_roots root (D22real pol g eps ds).
Hypothesis Hl : List.length ds = List.length ei.
Hypothesis Hne : ei <> [].
Hypothesis HP : Forall (fun e => 0 < e) eps.
Hypothesis Hs : 0 < step.
Hypothesis Ht : 0 < tol < 1.
Hypothesis Hn : (0 < n)%nat.
Hypothesis Off : off_lines pol e0 el ei ds.

(** nodes that the search does not merge: row i is a search at node i *)
Lemma rows_exact gs rs : guided_modes root pol gs eps ds n step tol = Ok rs ->
  (forall i j, (i < List.length gs)%nat -> (j < List.length gs)%nat -> / 10 ^ 4 <= nth i gs 0 /\ (nth i gs 0 = nth j gs 0 \/ / 10 ^ 8 < Rabs (nth i gs 0 - nth j gs 0))) ->
  forall i, (i < List.length gs)%nat -> let r := nth i rs ([], []) in let g := nth i gs 0 in
    increasing (fst r) /\ (exists lb ub, guided_mode_given_g root pol g eps ds n lb ub step tol = Ok r) /\
    forall w, In w (fst r) -> D22real pol g eps ds w = 0 /\ 0 < w /\ (exists e, In e ei /\ g * g < e * (w * w)) /\ e0 * (w * w) < g * g /\ el * (w * w) < g * g.
Proof.
  intros E Sep. destruct (guided_all root te e0 el ei ds n step tol Hroot Hl Hne HP Hs Ht Hn gs) as (rs' & E' & L & H).
  fold pol eps in E'. rewrite E in E'. injection E' as <-.
  induction i as [i IH] using lt_wf_ind. intros Hi. cbv zeta. 
  assert (Cp : forall j, i = S j -> Rabs (nth i gs 0 - nth j gs 0) <= / 10 ^ 8 -> nth i rs ([], []) = nth j rs ([], []) -> 
    increasing (fst (nth i rs ([], []))) /\ (exists lb ub, guided_mode_given_g root pol (nth i gs 0) eps ds n lb ub step tol = Ok (nth i rs ([], []))) /\
    forall w, In w (fst (nth i rs ([], []))) -> D22real pol (nth i gs 0) eps ds w = 0 /\ 0 < w /\ (exists e, In e ei /\ nth i gs 0 * nth i gs 0 < e * (w * w)) /\ e0 * (w * w) < nth i gs 0 * nth i gs 0 /\ el * (w * w) < nth i gs 0 * nth i gs 0).
  { intros j -> Q1 Q2. destruct (Sep (S j) j Hi ltac:(lia)) as [_ [X|X]]; [|lra]. rewrite Q2, X. apply (IH j); lia. }
  assert (Mx : Rmax (nth i gs 0) (/ 10 ^ 4) = nth i gs 0) by (apply Rmax_left; apply (Sep i i Hi Hi)).
  destruct (H i Hi) as [(_ & m & ub & _ & _ & _ & Sp & W & _)|(j & Q & R0 & R)]; [|apply (Cp j Q R0 R)].
  destruct (loop_calls_near root pol eps ds n step tol gs None rs E i Hi) as [(lb & ub' & G)|[(j & Q & R0 & R)|[_ X]]]; [| |congruence].
  - rewrite Mx in *. split; [apply Sp|]. split; [exists lb, ub'; exact G|]. intros w Hw. split; [apply Sp; exact Hw|apply W; exact Hw].
  - apply (Cp j Q R0 R).
Qed.

(** chi is nonzero in the layers at a frequency found *)
Lemma off_chi g w : D22real pol g eps ds w = 0 -> 0 < w -> (exists e, In e ei /\ g * g < e * (w * w)) -> Forall (fun e => chi w g e <> RtoC 0) ei /\ (List.length ei = 1%nat -> Forall (fun e => g * g < e * (w * w)) ei).
Proof.
  intros Dw W0 (e & Ie & We).
  assert (S1 : List.length ei = 1%nat -> Forall (fun e => g * g < e * (w * w)) ei).
  { intros L1. destruct ei as [|x [|? ?]]; try discriminate L1. destruct Ie as [<-|[]]. constructor; [exact We|constructor]. }
  split; [|exact S1]. apply Forall_forall. intros x Hx Z. assert (X : (chi w g x * chi w g x)%C = RtoC (x * (w * w) - g * g)) by apply chi_sq. rewrite Z in X. apply (f_equal fst) in X. cbn in X.
  destruct Off as [L1|Of].
  - specialize (S1 L1). rewrite Forall_forall in S1. specialize (S1 x Hx). lra.
  - apply (Of g w x Dw Hx W0). lra.
Qed.

Lemma exact_mode garr rs (tt' tm' : gtable) m oms cs ng gk x : guided_modes root pol garr eps ds n step tol = Ok rs -> MatElSpec.ascending garr ->
  (forall i j, (i < List.length garr)%nat -> (j < List.length garr)%nat -> / 10 ^ 4 <= nth i garr 0 /\ (nth i garr 0 = nth j garr 0 \/ / 10 ^ 8 < Rabs (nth i garr 0 - nth j garr 0))) ->
  tabulates rs (if Nat.even m then tt' else tm') -> more_and_more rs -> (forall r co, In r rs -> In co (snd r) -> snd (hd (RtoC 0, RtoC 0) co) <> RtoC 0) ->
  entry tt' tm' m = Some (oms, cs) -> get_guided ng gk garr tt' tm' eps m = Ok x ->
  forall r j, (List.length garr - List.length oms <= j < List.length garr)%nat -> gk (md_g x r) = nth j garr 0 ->
  let row := nth j rs ([], []) in
  nth_error (fst row) (m / 2) = Some (md_om x r) /\ 0 < md_om x r /\ increasing (fst row) /\
  slab_solution te (gk (md_g x r)) (md_om x r) eps ds (fun il => md_chi x il r) (fun il => md_A x il r) (fun il => md_B x il r).
Proof.
  intros E HA Sep HT HM NZ En Hx r j Hj Hg row.
  destruct (nodes_agree root pol garr eps ds n step tol rs _ (m / 2)%nat oms cs E HA HT HM En) as (L1 & L2 & A1 & A2 & A3). cbv zeta in *.
  destruct (tables_interpolated root pol garr eps ds n step tol rs ng gk tt' tm' eps m oms cs x E HA HT HM En Hx) as [T1 T2]. cbv zeta in T1, T2.
  destruct (guided_paired root pol eps ds n step tol garr None rs Logic.I E) as [Lr P].
  set (sk := (List.length garr - List.length oms)%nat) in *. destruct (T1 (j - sk)%nat ltac:(lia)) as [T3 T4]. replace (sk + (j - sk))%nat with j in T3, T4 by lia. fold row in T3, T4.
  destruct (T2 r) as [I1 I2]. assert (Lg : List.length (skipn sk garr) = List.length oms) by (rewrite skipn_length; lia).
  assert (Nx : gk (md_g x r) = nth (j - sk) (skipn sk garr) 0) by (rewrite nth_skipn; replace (sk + (j - sk))%nat with j by lia; exact Hg).
  assert (Om : md_om x r = nth (j - sk) oms 0).
  { assert (X := lerp_node _ _ _ _ I1 A2 A1 _ (j - sk)%nat eq_refl ltac:(lia) Nx). change (RtoC 0) with (RtoC 0%R) in X. rewrite (map_nth RtoC) in X. apply (f_equal fst) in X. exact X. }
  assert (Ko : nth_error (fst row) (m / 2) = Some (md_om x r)). { rewrite <- T3, Om. apply nth_error_nth'. lia. }
  set (co := nth (m / 2) (snd row) []) in *. set (w := md_om x r) in *.
  assert (Ir : In row rs) by (apply nth_In; lia). assert (Lw : (m / 2 < List.length (fst row))%nat) by (apply nth_error_Some; congruence).
  assert (Pr := P row Ir).
  assert (Ic : In (w, co) (combine (fst row) (snd row))).
  { replace w with (nth (m / 2) (fst row) 0) by (apply nth_error_nth; exact Ko). unfold co. rewrite <- combine_nth by lia. apply nth_In. rewrite combine_length. lia. }
  destruct (rows_exact garr rs E Sep j ltac:(lia)) as (Inc & (lb & ub & G) & W). fold row in Inc, G, W. cbv zeta in *.
  destruct (W w (in_combine_l _ _ _ _ Ic)) as (Dw & W0 & We & W1 & W2). rewrite <- Hg in *.
  destruct (off_chi _ w Dw W0 We) as [Cn S1].
  split; [exact Ko|]. split; [exact W0|]. split; [exact Inc|].
  assert (S : slab_solution te (gk (md_g x r)) w eps ds (fun il => chi w (gk (md_g x r)) (nth il eps 0)) (fun il => fst (nth il co (RtoC 0, RtoC 0))) (fun il => snd (nth il co (RtoC 0, RtoC 0)))).
  { destruct row as [ros rcs] eqn:Er. cbn [fst snd] in *. rewrite <- Er in Ir. apply (searched_solution root te _ e0 el ei ds n lb ub step tol ros rcs w co (Hroot _) Hl Hne HP G Hs Ic W0 W1 W2 S1 Cn).
    apply (NZ row co Ir). rewrite Er. exact (in_combine_r _ _ _ _ Ic). }
  assert (QA : forall il, md_chi x il r = chi w (gk (md_g x r)) (nth il eps 0) /\ md_A x il r = fst (nth il co (RtoC 0, RtoC 0)) /\ md_B x il r = snd (nth il co (RtoC 0, RtoC 0))).
  { intros il. destruct (I2 il) as (J1 & J2 & J3). destruct (A3 il) as [A4 A5]. split; [exact J1|].
    assert (X := lerp_node _ _ _ _ J2 A4 A1 _ (j - sk)%nat eq_refl ltac:(lia) Nx). assert (Y := lerp_node _ _ _ _ J3 A5 A1 _ (j - sk)%nat eq_refl ltac:(lia) Nx).
    pose proof (map_nth (fun c : nat -> C * C => fst (c il)) cs (fun _ => (RtoC 0, RtoC 0)) (j - sk)) as MX. pose proof (map_nth (fun c : nat -> C * C => snd (c il)) cs (fun _ => (RtoC 0, RtoC 0)) (j - sk)) as MY. cbn [fst snd] in MX, MY.
    rewrite MX in X. rewrite MY in Y. rewrite X, Y, T4. split; reflexivity. }
  destruct S. constructor; auto; cbv beta; intros; repeat match goal with |- context [md_chi x ?il r] => rewrite (proj1 (QA il)) | |- context [md_A x ?il r] => rewrite (proj1 (proj2 (QA il))) | |- context [md_B x ?il r] => rewrite (proj2 (proj2 (QA il))) end; auto.
Qed.
End Exact.

(** the waves of a mode are nodes from its first one on *)
Lemma exact_wave o gvec ks k garr te tm eps m oms cs x : grid_for o gvec ks k garr -> lower (o_compute o) = "exact"%string -> o_dgabs o = 0 -> resolved gvec k (o_dgx o) ->
  let gk := gk_len (gk_data gvec k (o_dgx o)) in entry te tm m = Some (oms, cs) -> (0 < List.length oms <= List.length garr)%nat -> get_guided (List.length gvec) gk garr te tm eps m = Ok x ->
  (forall i j, (i < List.length garr)%nat -> (j < List.length garr)%nat -> / 10 ^ 4 <= nth i garr 0 /\ (nth i garr 0 = nth j garr 0 \/ / 10 ^ 8 < Rabs (nth i garr 0 - nth j garr 0))) /\
  forall r, (r < List.length (md_ind x))%nat -> 0 < gk (md_g x r) /\ exists j, (List.length garr - List.length oms <= j < List.length garr)%nat /\ gk (md_g x r) = nth j garr 0.
Proof.
  intros [(_ & l & P & A & L1 & L2)|(X & _)] Hc Hd Rs gk En Lo Hx; [|rewrite Hc in X; discriminate X].
  assert (Eg : forall i, (i < List.length garr)%nat -> nth i garr 0 = nth i l 0). { intros i Hi. rewrite L2 by lia. rewrite Hd. destruct (Nat.eqb _ _); lra. }
  assert (Of : forall i, (i < List.length garr)%nat -> exists G, In G gvec /\ nth i garr 0 = wave_len G k (o_dgx o)).
  { intros i Hi. rewrite Eg by exact Hi. assert (I : In (nth i l 0) l) by (apply nth_In; lia). apply (Permutation_in _ P) in I. apply in_map_iff in I. destruct I as (G & Q & I). exists G. auto. }
  assert (Sep : forall i j, (i < List.length garr)%nat -> (j < List.length garr)%nat -> / 10 ^ 4 <= nth i garr 0 /\ (nth i garr 0 = nth j garr 0 \/ / 10 ^ 8 < Rabs (nth i garr 0 - nth j garr 0))).
  { intros i j Hi Hj. destruct (Of i Hi) as (G & IG & ->). destruct (Of j Hj) as (G' & IG' & ->). destruct (Rs G IG) as [Q1 Q2]. split; [exact Q1|apply Q2; exact IG']. }
  split; [exact Sep|]. intros r Hr. set (sk := (List.length garr - List.length oms)%nat).
  assert (Hw : (md_g x r < List.length gvec)%nat /\ nth sk garr 0 - / 10 ^ 10 < gk (md_g x r)).
  { unfold entry in En. unfold get_guided in Hx. rewrite En in Hx. assert (La : last_n (List.length oms) garr = skipn sk garr) by (unfold last_n, sk; destruct (List.length oms); [lia|reflexivity]). rewrite La in Hx. pose proof (nth_skipn 0 garr sk 0) as N0. rewrite Nat.add_0_r in N0.
    cbv zeta in Hx. destruct (skipn sk garr) as [|g0 gs]; [discriminate Hx|]. cbn [nth] in N0. subst g0.
    match type of Hx with Ok ?y = _ => assert (Y : x = y) by congruence end. rewrite Y in Hr |- *. unfold md_g. cbn [md_ind] in *.
    assert (I := nth_In _ 0%nat Hr). unfold argwhere_gt in I. apply filter_In in I. destruct I as [I1 I2]. apply in_seq in I1. apply Rltb_true in I2. split; [exact (proj2 I1)|exact I2]. }
  destruct Hw as [W1 W2]. set (i := md_g x r) in *.
  assert (Ig : In (gk i) l).
  { eapply Permutation_in; [apply Permutation_sym; exact P|]. apply in_map_iff. exists (nth i gvec (0, 0)). split; [reflexivity|apply nth_In; exact W1]. }
  apply (In_nth _ _ 0) in Ig. destruct Ig as (j & Hj & Qj). rewrite <- (Eg j ltac:(lia)) in Qj. rewrite <- Qj in *.
  assert (T4 : 0 < / 10 ^ 4) by (apply Rinv_0_lt_compat, pow_lt; lra).
  split; [destruct (Sep j j ltac:(lia) ltac:(lia)); lra|]. destruct (Nat.le_gt_cases sk j) as [Hs|Hs]; [exists j; split; [lia|reflexivity]|].
  exists sk. split; [lia|]. assert (A1 : nth j garr 0 <= nth sk garr 0) by (rewrite !Eg by lia; apply A; lia).
  destruct (Sep j sk ltac:(lia) ltac:(lia)) as [_ [Q|Q]]; [exact Q|]. exfalso. rewrite Rabs_left1 in Q by lra.
  assert (/ 10 ^ 10 < / 10 ^ 8) by (apply Rinv_lt_contravar; lra). lra.
Qed.

Lemma exact_modes root d o ks k e0 el ei garr te tm : let eps := e0 :: ei ++ [el] in
  (forall pol g, finds_roots root (D22real pol g eps (d_list d))) -> List.length (d_list d) = List.length ei -> ei <> [] -> Forall (fun e => 0 < e) eps ->
  0 < o_step o -> 0 < o_tol o < 1 -> (forall pol, off_lines pol e0 el ei (d_list d)) ->
  lower (o_compute o) = "exact"%string -> o_dgabs o = 0 -> resolved (dv_gvec d) k (o_dgx o) ->
  RunProofs11.tables_for root d o ks k eps garr te tm ->
  steady root o Nat.even "TE" eps (d_list d) garr -> steady root o Nat.odd "TM" eps (d_list d) garr ->
  slab_modes_at (dv_gvec d) k (o_dgx o) (o_inds o) garr te tm eps (d_list d).
Proof.
  intros eps HR Hl Hne HP Hs Ht Off Hc Hd Rs (G & T1 & T2) S1 S2.
  assert (HA := grid_ascending _ _ _ _ _ G ltac:(lra)). set (gk := gk_len (gk_data (dv_gvec d) k (o_dgx o))).
  set (N := List.length (dv_gvec d)).
  assert (M : forall b, exists rs, (forall i j, (i < List.length garr)%nat -> (j < List.length garr)%nat -> nth i garr 0 = nth j garr 0 -> nth i rs ([], []) = nth j rs ([], [])) /\
    forall m x, Nat.even m = b -> In m (present te tm (o_inds o)) -> get_guided N gk garr te tm eps m = Ok x ->
     forall r, (r < List.length (md_ind x))%nat -> 0 < gk (md_g x r) /\ exists j, (j < List.length garr)%nat /\ gk (md_g x r) = nth j garr 0 /\
      let row := nth j rs ([], []) : list R * list (list (C * C)) in nth_error (fst row) (m / 2) = Some (md_om x r) /\ 0 < md_om x r /\ increasing (fst row) /\
      slab_solution b (gk (md_g x r)) (md_om x r) eps (d_list d) (fun il => md_chi x il r) (fun il => md_A x il r) (fun il => md_B x il r)).
  { intros b.
    assert (T : (forall m, Nat.even m = b -> In m (present te tm (o_inds o)) -> False) \/ exists n rs, (0 < n)%nat /\
      guided_modes root (if b then "TE" else "TM") garr eps (d_list d) n (o_step o) (o_tol o) = Ok rs /\ tabulates rs (if b then te else tm) /\
      more_and_more rs /\ forall r co, In r rs -> In co (snd r) -> snd (hd (RtoC 0, RtoC 0) co) <> RtoC 0).
    { destruct b.
      - destruct T1 as [[X Y]|(n & rs & Hn & Mx & E & _ & Tb)].
        + left. intros m Ev Hm. apply filter_In in Hm. destruct Hm as [Hm _]. rewrite (X m Hm) in Ev. discriminate.
        + right. exists n, rs. destruct (S1 n rs Hn Mx E) as [Q1 Q2]. destruct Hn as (m0 & _ & _ & ->). split; [lia|]. auto.
      - destruct T2 as [[X Y]|(n & rs & Hn & Mx & E & _ & Tb)].
        + left. intros m Ev Hm. apply filter_In in Hm. destruct Hm as [Hm _]. specialize (X m Hm). unfold Nat.odd in X. rewrite Ev in X. discriminate.
        + right. exists n, rs. destruct (S2 n rs Hn Mx E) as [Q1 Q2]. destruct Hn as (m0 & _ & _ & ->). split; [lia|]. auto. }
    destruct T as [T|(n & rs & Hn & E & Tb & MM & NZ)].
    - exists []. split; [intros i j _ _ _; destruct i, j; reflexivity|]. intros m x Ev Hm. exfalso. exact (T m Ev Hm).
    - exists rs. split.
      { intros i j Hi Hj Q. destruct (Nat.le_ge_cases i j) as [K|K]; [|symmetry]; eapply equal_nodes; try exact E; try exact HA; try lia; lra. }
      intros m x Ev Hm Hx r Hr. apply filter_In in Hm. destruct Hm as [_ Hm]. destruct (entry te tm m) as [[oms cs]|] eqn:En; [|discriminate Hm].
      assert (Tb' : tabulates rs (if Nat.even m then te else tm)) by (rewrite Ev; exact Tb).
      destruct (nodes_agree _ _ garr eps (d_list d) n _ _ rs _ (m / 2)%nat oms cs E HA Tb' MM En) as (L1 & _).
      destruct (exact_wave o (dv_gvec d) ks k garr te tm eps m oms cs x G Hc Hd Rs En L1 Hx) as [Sep W]. destruct (W r Hr) as (P0 & j & Hj & Qj).
      split; [exact P0|]. exists j. split; [lia|]. split; [exact Qj|].
      exact (exact_mode root b e0 el ei (d_list d) n (o_step o) (o_tol o) (HR _) Hl Hne HP Hs Ht Hn (Off _) garr rs te tm m oms cs N gk x E HA Sep Tb' MM NZ En Hx r j Hj Qj). }
  split.
  - intros m x Hm Hx r Hr. destruct (M (Nat.even m)) as (rs & _ & Q). destruct (Q m x eq_refl Hm Hx r Hr) as (P0 & j & _ & _ & _ & W0 & _ & Sol). unfold solves. cbn [fst snd]. auto.
  - intros m x m' x' Hm Hm' Hne' Ev Hx Hx' r r' Hr Hr' Hgg X. destruct (M (Nat.even m)) as (rs & Eq & Q).
    destruct (Q m x eq_refl Hm Hx r Hr) as (_ & j & Hj & Gj & K & _ & Inc & _). destruct (Q m' x' (eq_sym Ev) Hm' Hx' r' Hr') as (_ & j' & Hj' & Gj' & K' & _ & _ & _).
    rewrite Hgg in Gj. rewrite (Eq j j' Hj Hj' ltac:(congruence)) in *. rewrite X in K. set (row := fst (nth j' rs ([], []))) in *.
    assert (L : (m / 2 < List.length row)%nat) by (apply nth_error_Some; congruence). assert (L' : (m' / 2 < List.length row)%nat) by (apply nth_error_Some; congruence).
    apply (nth_error_nth _ _ 0) in K. apply (nth_error_nth _ _ 0) in K'.
    assert (D : (m / 2 <> m' / 2)%nat).
    { intros D. apply Hne'. rewrite (Nat.div_mod m 2), (Nat.div_mod m' 2), D by lia. f_equal. rewrite <- !Nat.bit0_mod, !Nat.bit0_odd. unfold Nat.odd. rewrite Ev. reflexivity. }
    destruct (Nat.lt_total (m / 2) (m' / 2)) as [Lt|[Lt|Lt]]; [|contradiction|].
    + specialize (Inc (m / 2)%nat (m' / 2)%nat ltac:(lia)). lra.
    + specialize (Inc (m' / 2)%nat (m / 2)%nat ltac:(lia)). lra.
Qed.
