(** Final forms of the slab-mode lemmas (C31-C36). *)
From Verif Require Import Py CBase SlabModel SlabSpec SlabProofs SlabProofs2 SlabProofs3 SlabProofs4 SlabProofs5 SlabProofs6 SlabProofs7 SlabProofs8.
Open Scope string_scope.
Open Scope list_scope.
Open Scope R_scope.

Lemma chi_branch omega g eps :
  (chi omega g eps * chi omega g eps)%C = RtoC (eps * (omega * omega) - g * g) /\
  (0 <= eps * (omega * omega) - g * g -> snd (chi omega g eps) = 0 /\ 0 <= fst (chi omega g eps)) /\
  (eps * (omega * omega) - g * g < 0 -> evanescent (chi omega g eps)).
Proof.
  split; [apply chi_sq|]. split; intros H.
  - rewrite chi_ge by lra. simpl. split; auto. apply sqrt_pos.
  - apply chi_evan. lra.
Qed.

Lemma vec_scalar pol ws g eps ds : is_te pol || is_tm pol = true ->
  (List.length ds + 2 = List.length eps)%nat ->
  D22s_vec pol ws g eps ds = mapM (fun w => D22 pol w g eps ds) ws.
Proof.
  intros H1 H2. unfold D22s_vec. induction ws as [|w ws IH]; auto. cbn [mapM].
  rewrite IH, (D22_vec_scalar pol w g eps ds H1 H2). reflexivity.
Qed.
Lemma three_layer_iff pol omega g e1 e2 e3 d : is_te pol || is_tm pol = true ->
  0 < e1 -> 0 < e2 -> 0 < e3 ->
  e1 * (omega * omega) < g * g -> e3 * (omega * omega) < g * g -> g * g < e2 * (omega * omega) ->
  D22_3layer pol omega g e1 e2 e3 [d] = Ok (RtoC 0) <-> D22_nlayer pol omega g [e1; e2; e3] [d] = Ok (RtoC 0).
Proof.
  intros. destruct (three_layer pol omega g e1 e2 e3 d) as [a [b [k [Ea [Eb [Hk E]]]]]]; auto.
  rewrite Ea, Eb. split; intros Z; injection Z as Z.
  - rewrite Z in E. f_equal. symmetry in E.
    destruct (Ceq_dec b (RtoC 0)) as [|N]; auto. exfalso. apply (Cmult_neq_0 k b); auto.
  - rewrite E, Z. f_equal. ring.
Qed.

Lemma mk_combine omega g es : forall vs hs,
  mk omega g es vs hs = combine (combine (combine es (map (chi omega g) es)) vs) hs.
Proof. induction es as [|e es IH]; intros [|v vs] [|h hs]; simpl; auto. rewrite IH. reflexivity. Qed.

Lemma interfaces pol (te : bool) omega g e0 es ds : lower pol = (if te then "te" else "tm") ->
  (List.length ds + 1 = List.length es)%nat -> ds <> [] -> 0 < e0 ->
  Forall (fun e => 0 < e /\ chi omega g e <> RtoC 0) es ->
  (List.length es = 2%nat -> e0 * (omega * omega) < g * g /\ g * g < hd 0 es * (omega * omega) /\ last es 0 * (omega * omega) < g * g) ->
  exists ABs, AB_matrices pol omega g (e0 :: es) ds = Ok ABs /\
    List.length ABs = List.length (e0 :: es) /\ hd (RtoC 0, RtoC 0) ABs = (RtoC 0, RtoC 1) /\
    all_matched te (combine (combine (combine (e0 :: es) (map (chi omega g) (e0 :: es))) ABs) (0 :: map (fun d => d / 2) ds ++ [0])) /\
    (snd (last ABs (RtoC 0, RtoC 0)) = RtoC 0 <-> D22 pol omega g (e0 :: es) ds = Ok (RtoC 0)).
Proof.
  intros Hp Hl Hne H0 HR HW.
  assert (Hpp : is_te pol || is_tm pol = true) by (unfold is_te, is_tm; rewrite Hp; destruct te; reflexivity).
  assert (TE : te_of pol te).
  { unfold te_of. unfold is_te, is_tm. rewrite Hp. destruct te; auto. }
  assert (RG : regular omega g es).
  { unfold regular. eapply Forall_impl; [|exact HR]. cbv beta. intros a [? ?]. split; auto. lra. }
  destruct (AB_interfaces pol te omega g e0 es ds TE Hl Hne ltac:(lra) RG) as [ABs [E1 [E2 [E3 [E4 E5]]]]].
  exists ABs. split; auto. split; auto. split; auto. split; [rewrite <- mk_combine; exact E4|].
  assert (T : exists z, D22_nlayer pol omega g (e0 :: es) ds = Ok z).
  { unfold D22_nlayer. rewrite (ST_pol pol te omega g _ _ tt) by auto. rewrite ST_lists by lia. cbn [bind fst snd].
    destruct es as [|e1 es]; [simpl in Hl; lia|]. rewrite Slist_cons.
    destruct (D_loop_total te omega g es e1 (Sf te (ce omega g e0) (ce omega g e1)) ds) as [D' E]; [simpl in Hl; lia|].
    rewrite E. eexists; reflexivity. }
  destruct T as [z Ez]. rewrite (E5 z Ez).
  destruct (Nat.eq_dec (List.length es) 2) as [L|L].
  - destruct es as [|e1 [|e2 [|? ?]]]; try discriminate L. destruct ds as [|d [|? ?]]; try (simpl in Hl; lia).
    destruct (HW eq_refl) as [W1 [W2 W3]]. simpl in W2, W3.
    inversion HR as [|? ? [P1 _] HR1]; subst. inversion HR1 as [|? ? [P2 _] HR2]; subst.
    unfold D22. rewrite (three_layer_iff pol omega g e0 e1 e2 d) by auto. rewrite Ez. split; [congruence|intros E; injection E; auto].
  - replace (D22 pol omega g (e0 :: es) ds) with (D22_nlayer pol omega g (e0 :: es) ds).
    + rewrite Ez. split; [congruence|intros E; injection E; auto].
    + destruct es as [|e1 [|e2 [|? ?]]]; try reflexivity. simpl in L. lia.
Qed.

Lemma guided_all root (te : bool) e0 el ei ds n step tol :
  let pol := if te then "TE" else "TM" in let eps := e0 :: ei ++ [el] in
  (forall g, finds_roots root (D22real pol g eps ds)) ->
  List.length ds = List.length ei -> ei <> [] -> Forall (fun e => 0 < e) eps ->
  0 < step -> 0 < tol < 1 -> (0 < n)%nat -> forall gs,
  exists rs, guided_modes root pol gs eps ds n step tol = Ok rs /\ List.length rs = List.length gs /\
  forall i, (i < List.length gs)%nat ->
    let r := nth i rs ([], []) in let g := Rmax (nth i gs 0) (/ 10 ^ 4) in
    (List.length (snd r) = List.length (fst r) /\
     exists m ub, In m ei /\ (forall x, In x ei -> x <= m) /\ ub <= g / sqrt (Rmax e0 el) /\
       search_spec (D22real pol g eps ds) (g / sqrt m * (1 + tol)) (ub * (1 - tol)) step n (fst r) /\
       (forall w, In w (fst r) -> 0 < w /\ (exists e, In e ei /\ g * g < e * (w * w)) /\ e0 * (w * w) < g * g /\ el * (w * w) < g * g) /\
       ((forall e, In e ei -> e <= Rmax e0 el) -> fst r = [])) \/
    (exists j, i = S j /\ Rabs (nth i gs 0 - nth j gs 0) <= / 10 ^ 8 /\ r = nth j rs ([], [])).
Proof.
  intros pol eps H1 H2 H3 H4 H5 H6 H7 gs.
  destruct (loop_ok root te e0 el ei ds n step tol H1 H2 H3 H4 H5 H6 H7 gs None) as [rs [E [L H]]].
  exists rs. split; [exact E|]. split; [exact L|]. intros i Hi. destruct (H i Hi) as [A|[gp [r [A [B C]]]]].
  - left. exact A.
  - right. destruct i as [|j]; [discriminate A|]. exists j. destruct A as [-> ->]. split; auto.
Qed.

Lemma spelling : exists eps ds g, lower "TE" = "te" /\ lower "te" = "te" /\
  (forall root, (exists r, guided_modes root "TE" [g] eps ds 1 1 (1/10) = Ok r) /\
                guided_modes root "te" [g] eps ds 1 1 (1/10) = Raise PyException) /\
  exists eps', rad_modes "TE" 0 2 [g] eps' [1] <> rad_modes "te" 0 2 [g] eps' [1].
Proof.
  exists ex_eps, ex_ds, 1. split; [reflexivity|]. split; [reflexivity|]. split.
  - intros root. rewrite !ex_step. destruct (ex_TE root) as [om [cs E]]. rewrite E, ex_te. split; [eexists; reflexivity|reflexivity].
  - exists (1 :: 1 :: 1 :: nil). exact rad_differ.
Qed.
