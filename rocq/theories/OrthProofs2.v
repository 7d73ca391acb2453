(** Two modes of one stack are orthogonal (C118). *)
From Verif Require Import Py CBase SlabModel SlabSpec SlabProofs SlabProofs3 SlabProofs5 SlabProofs6 SlabProofs9 SlabProofs10 MatElSpec OrthSpec OrthProofs.
Open Scope string_scope.
Open Scope list_scope.
Open Scope R_scope.

Lemma wave_flip c B z : wave c 0 B (- z) = wave c B 0 z.
Proof.
  unfold wave. replace (Ci * c * RtoC (- z))%C with (- (Ci * c * RtoC z))%C by (rewrite RtoC_opp; ring).
  replace (- - (Ci * c * RtoC z))%C with (Ci * c * RtoC z)%C by ring. ring.
Qed.
Lemma dwave_flip c B z : dwave c 0 B (- z) = (- dwave c B 0 z)%C.
Proof.
  unfold dwave. replace (Ci * c * RtoC (- z))%C with (- (Ci * c * RtoC z))%C by (rewrite RtoC_opp; ring).
  replace (- - (Ci * c * RtoC z))%C with (Ci * c * RtoC z)%C by ring. ring.
Qed.
Lemma Cconj_opp' z : Cconj (- z)%C = (- Cconj z)%C.
Proof. apply Ceq; cbn; ring. Qed.
Lemma density_flip te g c1 B1 c2 B2 z :
  overlap_density te g c1 B1 0 c2 B2 0 z = overlap_density te g c1 0 B1 c2 0 B2 (- z).
Proof. unfold overlap_density. rewrite !wave_flip, !dwave_flip, Cconj_opp'. destruct te; ring. Qed.
Lemma ov_flip te w1 w2 e c1 B1 c2 B2 z :
  ov te w1 w2 e c1 B1 0 c2 B2 0 z = (- ov te w1 w2 e c1 0 B1 c2 0 B2 (- z))%C.
Proof. unfold ov, wr. rewrite !wave_flip, !dwave_flip, Cconj_opp'. destruct te; unfold Cdiv; ring. Qed.

Lemma is_ctail_ext f h v : (forall z, f z = h z) -> is_ctail f v -> is_ctail h v.
Proof. intros H [H1 H2]. split; eapply tail_ext; eauto; intros z; cbv beta; rewrite H; reflexivity. Qed.

Lemma tail_up te g w1 w2 e A1 A2 : w1 * w1 <> w2 * w2 -> 0 < e -> e * (w1 * w1) < g * g -> e * (w2 * w2) < g * g ->
  is_ctail (fun z => overlap_density te g (chi w1 g e) A1 0 (chi w2 g e) A2 0 z)
    (- ov te w1 w2 e (chi w1 g e) A1 0 (chi w2 g e) A2 0 0)%C.
Proof.
  intros Hw He W1 W2. pose proof (chi_evan w1 g e W1) as V1. pose proof (chi_evan w2 g e W2) as V2.
  apply (ctail_derive (ov te w1 w2 e (chi w1 g e) A1 0 (chi w2 g e) A2 0) _ (snd (chi w1 g e) + snd (chi w2 g e))).
  - destruct V1, V2. lra.
  - intros x. apply ov_derive; auto; [lra| |]; apply chi_branch.
  - intros x. apply density_derive.
  - intros x. apply ov_decay_up; auto.
Qed.
Lemma tail_dn te g w1 w2 e B1 B2 : w1 * w1 <> w2 * w2 -> 0 < e -> e * (w1 * w1) < g * g -> e * (w2 * w2) < g * g ->
  is_ctail (fun z => overlap_density te g (chi w1 g e) 0 B1 (chi w2 g e) 0 B2 (- z))
    (ov te w1 w2 e (chi w1 g e) 0 B1 (chi w2 g e) 0 B2 0)%C.
Proof.
  intros Hw He W1 W2. eapply is_ctail_ext; [intros z; apply density_flip|].
  replace (ov te w1 w2 e (chi w1 g e) 0 B1 (chi w2 g e) 0 B2 0) with (- ov te w1 w2 e (chi w1 g e) B1 0 (chi w2 g e) B2 0 0)%C.
  - apply tail_up; auto.
  - rewrite ov_flip, Ropp_0. ring.
Qed.

Definition stack w g es (ABs : list (C * C)) (hs : list R) := combine (combine (combine es (map (chi w g) es)) ABs) hs.

Section Two.
Variables (te : bool) (g w1 w2 : R).
Hypothesis Hw : w1 * w1 <> w2 * w2.
Notation F e x1 x2 z := (ov te w1 w2 e (chi w1 g e) (fst x1) (snd x1) (chi w2 g e) (fst x2) (snd x2) z).

Lemma layers_ov el l1 l2 : forall ei mid1 mid2 ds ep p1 p2 hp,
  List.Forall (fun e => 0 < e) ei -> List.length mid1 = List.length ei -> List.length mid2 = List.length ei -> List.length ds = List.length ei ->
  all_matched te (stack w1 g (ep :: ei ++ [el]) (p1 :: mid1 ++ [l1]) (hp :: map (fun d => d / 2) ds ++ [0])) ->
  all_matched te (stack w2 g (ep :: ei ++ [el]) (p2 :: mid2 ++ [l2]) (hp :: map (fun d => d / 2) ds ++ [0])) ->
  layers_overlap te g (map (chi w1 g) ei) mid1 (map (chi w2 g) ei) mid2 ds (F el l1 l2 (- 0) - F ep p1 p2 hp)%C.
Proof.
  induction ei as [|e ei IH]; intros mid1 mid2 ds ep p1 p2 hp HP L1 L2 L3 M1 M2.
  - destruct mid1; [|discriminate L1]. destruct mid2; [|discriminate L2]. destruct ds; [|discriminate L3].
    cbn [stack combine map app all_matched] in M1, M2.
    destruct M1 as [M1 _], M2 as [M2 _].
    destruct p1 as [a1 b1], p2 as [a2 b2], l1 as [a1' b1'], l2 as [a2' b2'].
    cbn [fst snd]. rewrite (ov_matched te w1 w2 _ _ _ _ _ _ _ _ _ _ _ _ _ _ _ _ M1 M2).
    cbn [map]. match goal with |- layers_overlap _ _ _ _ _ _ _ ?v => replace v with (RtoC 0) by ring end. constructor.
  - destruct mid1 as [|[a1 b1] mid1]; [discriminate L1|]. destruct mid2 as [|[a2 b2] mid2]; [discriminate L2|]. destruct ds as [|d ds]; [discriminate L3|].
    cbn [stack combine map app] in M1, M2.
    destruct M1 as [N1 M1], M2 as [N2 M2].
    inversion HP as [|? ? P0 P1]; subst.
    destruct p1 as [pa1 pb1], p2 as [pa2 pb2].
    assert (E : F ep (pa1, pb1) (pa2, pb2) hp = F e (a1, b1) (a2, b2) (- (d / 2))%R).
    { cbn [fst snd]. exact (ov_matched te w1 w2 _ _ _ _ _ _ _ _ _ _ _ _ _ _ _ _ N1 N2). }
    rewrite E.
    specialize (IH mid1 mid2 ds e (a1, b1) (a2, b2) (d / 2) P1 ltac:(cbn in L1; lia) ltac:(cbn in L2; lia) ltac:(cbn in L3; lia) M1 M2).
    match goal with |- layers_overlap _ _ _ _ _ _ _ ?v => replace v with
      ((F e (a1, b1) (a2, b2) (d / 2)%R - F e (a1, b1) (a2, b2) (- (d / 2))%R) + (F el l1 l2 (- 0)%R - F e (a1, b1) (a2, b2) (d / 2)%R))%C by ring end.
    cbn [map]. constructor; [|exact IH]. cbn [fst snd].
    apply (cint_derive (ov te w1 w2 e (chi w1 g e) a1 b1 (chi w2 g e) a2 b2)).
    + intros x. apply ov_derive; auto; [lra| |]; apply chi_branch.
    + intros x. apply density_derive.
Qed.

Lemma stack_orthogonal e0 el ei ds B1 mid1 A1 B2 mid2 A2 :
  List.Forall (fun e => 0 < e) (e0 :: ei ++ [el]) ->
  List.length mid1 = List.length ei -> List.length mid2 = List.length ei -> List.length ds = List.length ei ->
  e0 * (w1 * w1) < g * g -> e0 * (w2 * w2) < g * g -> el * (w1 * w1) < g * g -> el * (w2 * w2) < g * g ->
  all_matched te (stack w1 g (e0 :: ei ++ [el]) ((RtoC 0, B1) :: mid1 ++ [(A1, RtoC 0)]) (0 :: map (fun d => d / 2) ds ++ [0])) ->
  all_matched te (stack w2 g (e0 :: ei ++ [el]) ((RtoC 0, B2) :: mid2 ++ [(A2, RtoC 0)]) (0 :: map (fun d => d / 2) ds ++ [0])) ->
  mode_overlap te g (Mode (chi w1 g e0) B1 (map (chi w1 g) ei) mid1 (chi w1 g el) A1)
    (Mode (chi w2 g e0) B2 (map (chi w2 g) ei) mid2 (chi w2 g el) A2) ds (RtoC 0).
Proof.
  intros HP L1 L2 L3 W01 W02 Wl1 Wl2 M1 M2.
  inversion HP as [|? ? P0 HP']; subst. apply Forall_app in HP'. destruct HP' as [PI PL]. inversion PL as [|? ? Pl _]; subst.
  eexists _, _, _. cbn [m_c0 m_B0 m_cs m_ABs m_cl m_Al].
  split; [apply (tail_dn te g w1 w2 e0); auto|]. split; [apply (tail_up te g w1 w2 el); auto|].
  split; [exact (layers_ov el _ _ ei mid1 mid2 ds e0 _ _ 0 PI L1 L2 L3 M1 M2)|].
  cbn [fst snd]. rewrite Ropp_0. ring.
Qed.
End Two.

(** ** the modes returned by the search *)
Lemma matched_divs te s e c AB h e' c' AB' h' : s <> RtoC 0 ->
  matched te (e, c, AB, h) (e', c', AB', h') -> matched te (e, c, divs s AB, h) (e', c', divs s AB', h').
Proof.
  intros Hs. destruct AB as [A B], AB' as [A' B']. unfold divs, matched. cbn [fst snd].
  rewrite !wave_div, !dwave_div by auto. intros [M1 M2]. split; [congruence|].
  destruct te; [congruence|]. unfold Cdiv in *.
  transitivity (dwave c A B h * / RtoC e * / s)%C; [ring|]. rewrite M2. ring.
Qed.
Lemma all_matched_divs te w g s : s <> RtoC 0 -> forall es ABs hs,
  all_matched te (stack w g es ABs hs) -> all_matched te (stack w g es (map (divs s) ABs) hs).
Proof.
  intros Hs. induction es as [|e es IH]; intros [|AB ABs] [|h hs]; auto.
  intros H. destruct es as [|e' es]; auto. destruct ABs as [|AB' ABs]; auto. destruct hs as [|h' hs]; auto.
  destruct H as [H1 H2]. split; [apply matched_divs; auto|]. exact (IH (AB' :: ABs) (h' :: hs) H2).
Qed.

(** a returned mode is a matched guided solution divided by the root of its norm *)
Lemma returned_raw root (te : bool) g e0 el ei ds n lb ub step tol oms cs w co :
  finds_roots root (D22real (if te then "TE" else "TM") g (e0 :: ei ++ [el]) ds) ->
  List.length ds = List.length ei -> ei <> [] -> List.Forall (fun e => 0 < e) (e0 :: ei ++ [el]) ->
  guided_mode_given_g root (if te then "TE" else "TM") g (e0 :: ei ++ [el]) ds n lb ub step tol = Ok (oms, cs) ->
  0 < step -> In (w, co) (combine oms cs) -> 0 < w ->
  e0 * (w * w) < g * g -> el * (w * w) < g * g -> (List.length ei = 1%nat -> List.Forall (fun e => g * g < e * (w * w)) ei) ->
  List.Forall (fun e => chi w g e <> RtoC 0) ei ->
  exists N mid A, co = map (divs (csqrt N)) ((RtoC 0, RtoC 1) :: mid ++ [(A, RtoC 0)]) /\ List.length mid = List.length ei /\
    normalization_coeff reg (if te then "TE" else "TM") g (e0 :: ei ++ [el]) ds (chi_array w g (e0 :: ei ++ [el]))
      ((RtoC 0, RtoC 1) :: mid ++ [(A, RtoC 0)]) = Ok N /\
    all_matched te (stack w g (e0 :: ei ++ [el]) ((RtoC 0, RtoC 1) :: mid ++ [(A, RtoC 0)]) (0 :: map (fun d => d / 2) ds ++ [0])).
Proof.
  intros HR Hl Hne HP H Hst Hin Hw W0 Wl W1 HC.
  set (eps := e0 :: ei ++ (el :: nil)) in *. set (pol := if te then "TE" else "TM") in *.
  assert (Hlen : (List.length ds + 2 = List.length eps)%nat) by (unfold eps; simpl; rewrite app_length; simpl; lia).
  assert (Hdn : ds <> nil) by (intros ->; destruct ei; [congruence|discriminate]).
  assert (HD : D22real pol g eps ds w = 0).
  { pose proof H as H'. unfold guided_mode_given_g in H'.
    match type of H' with bind ?X _ = _ => destruct X as [lb'|] eqn:E1; [|discriminate] end. cbn [bind] in H'.
    set (ub' := match ub with Some x => x | None => _ end) in H'.
    assert (G : guided_mode_given_g root pol g eps ds n (Some lb') (Some ub') step tol = Ok (oms, cs)) by exact H'.
    destruct (given_g_search root te g eps ds n Hlen Hdn lb' ub' step tol oms cs HR Hst G) as [SP _].
    apply in_combine_l in Hin. apply SP in Hin. tauto. }
  unfold guided_mode_given_g in H.
  match type of H with bind ?X _ = _ => destruct X as [lb'|] eqn:E1; [|discriminate] end. cbn [bind] in H.
  match type of H with bind ?X _ = _ => destruct X as [zs|] eqn:E2; [|discriminate] end. cbn [bind] in H.
  match type of H with bind ?X _ = _ => destruct X as [sols|] eqn:E3; [|discriminate] end. cbn [bind] in H.
  injection H as <- <-. rewrite combine_fst_snd in Hin.
  destruct (mapM_in _ _ _ E3 _ Hin) as [br [_ Hs]].
  destruct (solve_ok root te g eps ds Hlen Hdn br) as [AB [N [EA [EN ES]]]].
  fold pol in ES, EA, EN. rewrite ES in Hs. injection Hs as Hw' Hco.
  rewrite Hw' in EA, EN.
  destruct (interfaces pol te w g e0 (ei ++ [el]) ds) as [AB' [EA' [LA [HA [MA ZA]]]]]; auto.
  { destruct te; reflexivity. }
  { rewrite app_length; simpl; lia. }
  { inversion HP; auto. }
  { inversion HP as [|? ? _ HP']; subst. apply Forall_forall. intros e He. rewrite Forall_forall in HP', HC.
    split; [apply HP'; auto|]. apply in_app_or in He. destruct He as [He|[<-|[]]]; [apply HC; auto|]. apply evan_neq0, chi_evan; auto. }
  { intros L. rewrite app_length in L. cbn in L. destruct ei as [|e1 [|? ?]]; try (cbn in L; lia).
    specialize (W1 eq_refl). inversion W1; subst. cbn. auto. }
  fold eps in EA', LA, MA, ZA. rewrite EA in EA'. injection EA' as <-.
  assert (ZD : D22 pol w g eps ds = Ok (RtoC 0)) by (apply root_complex; auto).
  apply ZA in ZD.
  destruct AB as [|ab0 AB]; [unfold eps in LA; simpl in LA; discriminate|]. simpl in HA. subst ab0.
  destruct (exists_last (l := AB)) as [mid [[Al Bl] ->]].
  { intros ->. unfold eps in LA. simpl in LA. rewrite app_length in LA. simpl in LA. lia. }
  assert (Lm : List.length mid = List.length ei).
  { unfold eps in LA. simpl in LA. rewrite !app_length in LA. simpl in LA. lia. }
  rewrite last_ends in ZD. cbn [snd] in ZD. subst Bl.
  exists N, mid, Al. split; [symmetry; exact Hco|]. split; auto.
Qed.

(** the mode as the specification sees it: guided, decaying, matched at every interface *)
Lemma returned_mode root (te : bool) g e0 el ei ds n lb ub step tol oms cs w co :
  finds_roots root (D22real (if te then "TE" else "TM") g (e0 :: ei ++ [el]) ds) ->
  List.length ds = List.length ei -> ei <> [] -> List.Forall (fun e => 0 < e) (e0 :: ei ++ [el]) ->
  guided_mode_given_g root (if te then "TE" else "TM") g (e0 :: ei ++ [el]) ds n lb ub step tol = Ok (oms, cs) ->
  0 < step -> In (w, co) (combine oms cs) -> 0 < w ->
  e0 * (w * w) < g * g -> el * (w * w) < g * g -> (List.length ei = 1%nat -> List.Forall (fun e => g * g < e * (w * w)) ei) ->
  List.Forall (fun e => chi w g e <> RtoC 0) ei -> snd (hd (RtoC 0, RtoC 0) co) <> RtoC 0 ->
  exists B mid A, co = (RtoC 0, B) :: mid ++ [(A, RtoC 0)] /\ List.length mid = List.length ei /\
    all_matched te (stack w g (e0 :: ei ++ [el]) co (0 :: map (fun d => d / 2) ds ++ [0])).
Proof.
  intros HR Hl Hne HP H Hst Hin Hw W0 Wl W1 HC HB.
  destruct (returned_raw root te g e0 el ei ds n lb ub step tol oms cs w co) as [N [mid [Al [Hco [Lm [_ MA]]]]]]; auto.
  set (s := csqrt N) in *.
  assert (Hsn : s <> RtoC 0).
  { intros Z. apply HB. rewrite Hco. cbn [map hd snd]. unfold divs. rewrite Z. unfold Cdiv. apply Ceq; simpl; unfold Rdiv; rewrite !Rmult_0_l, ?Rplus_0_l, ?Ropp_0, ?Rmult_0_l; ring. }
  exists (RtoC 1 / s)%C, (map (divs s) mid), (Al / s)%C. split; [|split; [rewrite map_length; auto|]].
  - rewrite Hco. rewrite map_cons, map_app. cbn [map]. unfold divs at 1 3. cbn [fst snd]. unfold Cdiv. rewrite !Cmult_0_l. reflexivity.
  - rewrite Hco. apply all_matched_divs; auto.
Qed.

Lemma modes_orthogonal root (te : bool) g e0 el ei ds n lb ub step tol oms cs w1 co1 w2 co2 :
  finds_roots root (D22real (if te then "TE" else "TM") g (e0 :: ei ++ [el]) ds) ->
  List.length ds = List.length ei -> ei <> [] -> List.Forall (fun e => 0 < e) (e0 :: ei ++ [el]) ->
  guided_mode_given_g root (if te then "TE" else "TM") g (e0 :: ei ++ [el]) ds n lb ub step tol = Ok (oms, cs) ->
  0 < step -> In (w1, co1) (combine oms cs) -> In (w2, co2) (combine oms cs) -> w1 <> w2 ->
  (forall w co, (w, co) = (w1, co1) \/ (w, co) = (w2, co2) ->
    0 < w /\ e0 * (w * w) < g * g /\ el * (w * w) < g * g /\
    (List.length ei = 1%nat -> List.Forall (fun e => g * g < e * (w * w)) ei) /\
    List.Forall (fun e => chi w g e <> RtoC 0) ei /\ snd (hd (RtoC 0, RtoC 0) co) <> RtoC 0) ->
  exists B1 mid1 A1 B2 mid2 A2,
    co1 = (RtoC 0, B1) :: mid1 ++ [(A1, RtoC 0)] /\ co2 = (RtoC 0, B2) :: mid2 ++ [(A2, RtoC 0)] /\
    mode_overlap te g (Mode (chi w1 g e0) B1 (map (chi w1 g) ei) mid1 (chi w1 g el) A1)
      (Mode (chi w2 g e0) B2 (map (chi w2 g) ei) mid2 (chi w2 g el) A2) ds (RtoC 0).
Proof.
  intros HR Hl Hne HP H Hst I1 I2 Hw HH.
  destruct (HH w1 co1 (or_introl eq_refl)) as [P1 [Q1 [R1 [S1 [T1 U1]]]]].
  destruct (HH w2 co2 (or_intror eq_refl)) as [P2 [Q2 [R2 [S2 [T2 U2]]]]].
  destruct (returned_mode root te g e0 el ei ds n lb ub step tol oms cs w1 co1) as [B1 [mid1 [A1 [E1 [L1 M1]]]]]; auto.
  destruct (returned_mode root te g e0 el ei ds n lb ub step tol oms cs w2 co2) as [B2 [mid2 [A2 [E2 [L2 M2]]]]]; auto.
  exists B1, mid1, A1, B2, mid2, A2. split; auto. split; auto.
  subst co1 co2. apply stack_orthogonal; auto.
  intros E. apply Hw. nra.
Qed.

(** with the default window of the search *)
Lemma search_orthogonal root (te : bool) g e0 el ei ds n step tol oms cs :
  finds_roots root (D22real (if te then "TE" else "TM") g (e0 :: ei ++ [el]) ds) ->
  List.length ds = List.length ei -> ei <> [] -> List.Forall (fun e => 0 < e) (e0 :: ei ++ [el]) ->
  0 < g -> 0 < step -> 0 < tol < 1 ->
  guided_mode_given_g root (if te then "TE" else "TM") g (e0 :: ei ++ [el]) ds n None None step tol = Ok (oms, cs) ->
  forall i j, (i < List.length oms)%nat -> (j < List.length oms)%nat -> i <> j ->
  let w1 := nth i oms 0 in let w2 := nth j oms 0 in let co1 := nth i cs [] in let co2 := nth j cs [] in
  List.Forall (fun e => chi w1 g e <> RtoC 0) ei -> List.Forall (fun e => chi w2 g e <> RtoC 0) ei ->
  snd (hd (RtoC 0, RtoC 0) co1) <> RtoC 0 -> snd (hd (RtoC 0, RtoC 0) co2) <> RtoC 0 ->
  exists B1 mid1 A1 B2 mid2 A2,
    co1 = (RtoC 0, B1) :: mid1 ++ [(A1, RtoC 0)] /\ co2 = (RtoC 0, B2) :: mid2 ++ [(A2, RtoC 0)] /\
    mode_overlap te g (Mode (chi w1 g e0) B1 (map (chi w1 g) ei) mid1 (chi w1 g el) A1)
      (Mode (chi w2 g e0) B2 (map (chi w2 g) ei) mid2 (chi w2 g el) A2) ds (RtoC 0).
Proof.
  intros HR Hl Hne HP Hg Hs Ht H i j Hi Hj Hij w1 w2 co1 co2 C1 C2 N1 N2.
  destruct (given_g_window root te g e0 el ei ds n step tol HR Hl Hne HP Hg Hs Ht) as [m [oms' [cs' [_ [_ [E [L [SP [WW _]]]]]]]]].
  rewrite H in E. injection E as <- <-.
  assert (IN : forall k, (k < List.length oms)%nat -> In (nth k oms 0, nth k cs []) (combine oms cs)).
  { intros k Hk. rewrite <- combine_nth by auto. apply nth_In. rewrite combine_length. lia. }
  assert (WH : forall k, (k < List.length oms)%nat -> let w := nth k oms 0 in
    0 < w /\ e0 * (w * w) < g * g /\ el * (w * w) < g * g /\ (List.length ei = 1%nat -> List.Forall (fun e => g * g < e * (w * w)) ei)).
  { intros k Hk w. destruct (WW w) as [Q1 [[e [Q2 Q3]] [Q4 Q5]]]; [apply nth_In; auto|].
    split; auto. split; auto. split; auto. intros L1. destruct ei as [|e1 [|? ?]]; try discriminate L1.
    destruct Q2 as [<-|[]]. constructor; auto. }
  apply (modes_orthogonal root te g e0 el ei ds n None None step tol oms cs); auto.
  - apply IN; auto.
  - apply IN; auto.
  - destruct SP as [_ [INC _]]. unfold w1, w2. destruct (Nat.lt_trichotomy i j) as [K|[K|K]]; [|congruence|].
    + apply Rlt_not_eq, (INC i j). lia.
    + apply Rgt_not_eq, (INC j i). lia.
  - intros w co [E|E]; injection E as -> ->.
    + destruct (WH i Hi) as [Q1 [Q2 [Q3 Q4]]]. unfold w1 in *. split; auto.
    + destruct (WH j Hj) as [Q1 [Q2 [Q3 Q4]]]. unfold w2 in *. split; auto.
Qed.
