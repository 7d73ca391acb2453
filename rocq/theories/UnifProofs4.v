(** The modes found by the search solve the slab; spectrum of the diagonal matrix. *)
From Coq Require Import Permutation.
From Verif Require Import Py CBase ShapesSpec CInt SlabModel SlabSpec SlabProofs SlabProofs2 SlabProofs3 SlabProofs8 SlabProofs9 SlabProofs11 MatElModel MatElSpec MatElProofs MatElProofs2 MatElProofs3 OrthSpec OrthProofs OrthProofs2 OrthProofs3 UnifSpec UnifProofs UnifProofs2 UnifProofs3.
From Verif Require Import RunSpec PweProofs2.
Open Scope string_scope.
Open Scope list_scope.
Open Scope R_scope.

Lemma halves_nth ds il : nth il (0 :: map (fun d => d / 2) ds ++ [0]) 0 = half_of (List.length ds + 2) ds il.
Proof.
  unfold half_of. destruct il as [|il]; [reflexivity|]. change (Nat.eqb (S il) 0) with false. cbv iota. cbn [nth].
  destruct (Nat.eqb_spec (S il) (List.length ds + 2 - 1)) as [E|E].
  - rewrite app_nth2 by (rewrite map_length; lia). rewrite map_length. replace (il - List.length ds)%nat with 0%nat by lia. reflexivity.
  - replace (S il - 1)%nat with il by lia. destruct (Nat.lt_ge_cases il (List.length ds)) as [L|L].
    + rewrite app_nth1 by (rewrite map_length; lia). rewrite (nth_indep _ 0 ((fun d => d / 2) 0)) by (rewrite map_length; lia). apply (map_nth (fun d => d / 2)).
    + rewrite nth_overflow by (rewrite app_length, map_length; cbn; lia). rewrite nth_overflow by lia. lra.
Qed.

Lemma stack_solution te g w e0 el ei ds B mid A : List.Forall (fun e => 0 < e) (e0 :: ei ++ [el]) ->
  List.length ds = List.length ei -> List.length mid = List.length ei ->
  e0 * (w * w) < g * g -> el * (w * w) < g * g ->
  let co := (RtoC 0, B) :: mid ++ [(A, RtoC 0)] in let eps := e0 :: ei ++ [el] in
  all_matched te (stack w g eps co (0 :: map (fun d => d / 2) ds ++ [0])) ->
  slab_solution te g w eps ds (fun il => chi w g (nth il eps 0)) (fun il => fst (nth il co (RtoC 0, RtoC 0))) (fun il => snd (nth il co (RtoC 0, RtoC 0))).
Proof.
  intros HP L1 L2 W0 Wl co eps M.
  assert (Le : List.length eps = (List.length ds + 2)%nat) by (unfold eps; cbn; rewrite app_length; cbn; lia).
  assert (Lc : List.length co = List.length eps) by (unfold co, eps; cbn; rewrite !app_length; cbn; lia).
  assert (Nl : nth (List.length eps - 1) eps 0 = el).
  { rewrite Le. replace (List.length ds + 2 - 1)%nat with (S (List.length ei)) by lia. unfold eps. cbn [nth]. rewrite app_nth2, Nat.sub_diag by lia. reflexivity. }
  assert (Nc : nth (List.length eps - 1) co (RtoC 0, RtoC 0) = (A, RtoC 0)).
  { rewrite Le. replace (List.length ds + 2 - 1)%nat with (S (List.length mid)) by lia. unfold co. cbn [nth]. rewrite app_nth2, Nat.sub_diag by lia. reflexivity. }
  constructor.
  - rewrite Le. lia.
  - intros il L. rewrite List.Forall_forall in HP. apply HP, nth_In, L.
  - intros il L. apply chi_sq.
  - split; [apply chi_evan; exact W0|reflexivity].
  - rewrite Nl, Nc. split; [apply chi_evan; exact Wl|reflexivity].
  - rewrite all_matched_nth in M.
    set (hs := 0 :: map (fun d => d / 2) ds ++ [0]) in *.
    assert (Lh : List.length hs = List.length eps) by (rewrite Le; unfold hs; cbn [List.length]; rewrite app_length, map_length; cbn [List.length]; lia).
    assert (Ls : List.length (stack w g eps co hs) = List.length eps) by (unfold stack; rewrite !combine_length, map_length; lia).
    assert (Ns : forall i, (i < List.length eps)%nat -> nth i (stack w g eps co hs) d4 =
      (nth i eps 0, chi w g (nth i eps 0), nth i co (RtoC 0, RtoC 0), half_of (List.length eps) ds i)).
    { intros i L. unfold stack, d4. rewrite combine_nth by (rewrite !combine_length, map_length; lia).
      rewrite combine_nth by (rewrite !combine_length, map_length; lia). rewrite combine_nth by (rewrite map_length; lia).
      rewrite (nth_indep (map (chi w g) eps) (RtoC 0) (chi w g 0)) by (rewrite map_length; lia). rewrite map_nth.
      unfold hs. rewrite halves_nth, <- Le. reflexivity. }
    intros il L. specialize (M il). rewrite Ls in M. specialize (M L). rewrite !Ns in M by lia.
    rewrite (surjective_pairing (nth il co _)) in M. rewrite (surjective_pairing (nth (S il) co _)) in M. exact M.
Qed.

Lemma searched_solution root (te : bool) g e0 el ei ds n lb ub step tol oms cs w co :
  finds_roots root (D22real (if te then "TE" else "TM") g (e0 :: ei ++ [el]) ds) ->
  List.length ds = List.length ei -> ei <> [] -> List.Forall (fun e => 0 < e) (e0 :: ei ++ [el]) ->
  guided_mode_given_g root (if te then "TE" else "TM") g (e0 :: ei ++ [el]) ds n lb ub step tol = Ok (oms, cs) ->
  0 < step -> In (w, co) (combine oms cs) -> 0 < w ->
  e0 * (w * w) < g * g -> el * (w * w) < g * g -> (List.length ei = 1%nat -> List.Forall (fun e => g * g < e * (w * w)) ei) ->
  List.Forall (fun e => chi w g e <> RtoC 0) ei -> snd (hd (RtoC 0, RtoC 0) co) <> RtoC 0 ->
  let eps := e0 :: ei ++ [el] in
  slab_solution te g w eps ds (fun il => chi w g (nth il eps 0)) (fun il => fst (nth il co (RtoC 0, RtoC 0))) (fun il => snd (nth il co (RtoC 0, RtoC 0))).
Proof.
  intros HR Hl Hne HP H Hst Hin Hw W0 Wl W1 HC HB eps.
  destruct (returned_mode root te g e0 el ei ds n lb ub step tol oms cs w co) as [B [mid [A [-> [Lm M]]]]]; auto.
  apply stack_solution; auto.
Qed.

(** the energy of C35 is the energy here *)
Lemma layers_csum te g : forall cs ABs ds E K, layers_energy te g cs ABs ds E K -> 
  List.length cs = List.length ABs /\ List.length ds = List.length ABs /\
  exists v : nat -> C, (forall i, (i < List.length cs)%nat -> is_CInt (overlap_density te g (nth i cs (RtoC 0)) (fst (nth i ABs (RtoC 0, RtoC 0))) (snd (nth i ABs (RtoC 0, RtoC 0)))
     (nth i cs (RtoC 0)) (fst (nth i ABs (RtoC 0, RtoC 0))) (snd (nth i ABs (RtoC 0, RtoC 0)))) (- nth i ds 0 / 2) (nth i ds 0 / 2) (v i)) /\
    csum (List.length cs) v = RtoC E.
Proof.
  induction 1 as [|c A B d cs ABs ds E K E1 K1 H1 _ H2 (L1 & L2 & v & V1 & V2)].
  - split; [reflexivity|]. split; [reflexivity|]. exists (fun _ => RtoC 0). split; [intros i Hi; cbn in Hi; lia|reflexivity].
  - split; [cbn; lia|]. split; [cbn; lia|].
    exists (fun i => match i with O => RtoC E1 | S i => v i end). split.
    + intros [|i] Hi; cbn [nth].
      * split; cbn [fst snd RtoC]; [|]. 
        -- eapply RInt.is_RInt_ext; [|exact H1]. intros z _. unfold energy_density, overlap_density. destruct te.
           ++ unfold sq. cbn. ring.
           ++ unfold sq. cbn. ring.
        -- eapply RInt.is_RInt_ext; [|apply zint]. intros z _. unfold overlap_density. destruct te; cbn; ring.
      * apply V1. cbn in Hi. lia.
    + cbn [List.length]. rewrite csum_first. rewrite (csum_ext _ _ v) by reflexivity. rewrite V2, <- RtoC_plus. reflexivity.
Qed.

Lemma self_density te g c A B z : overlap_density te g c A B c A B z = RtoC (energy_density te g c A B z).
Proof. unfold energy_density, overlap_density, sq. destruct te; apply Ceq; cbn; ring. Qed.
Lemma self_tail te g c A B (s : R -> R) E : is_tail_int (fun z => energy_density te g c A B (s z)) E ->
  is_ctail (fun z => overlap_density te g c A B c A B (s z)) (RtoC E).
Proof.
  intros H. split; cbn [fst snd RtoC].
  - eapply tail_ext; [|exact H]. intros z. cbv beta. rewrite self_density. reflexivity.
  - eapply tail_ext; [|apply ztail]. intros z. cbv beta. rewrite self_density. reflexivity.
Qed.
Lemma energy_energy te g w e0 el ei ds B mid A E K : List.length mid = List.length ei -> List.length ds = List.length ei ->
  mode_energy te g (chi w g e0) B (map (chi w g) ei) mid (chi w g el) A ds E K ->
  let co := (RtoC 0, B) :: mid ++ [(A, RtoC 0)] in let eps := e0 :: ei ++ [el] in
  is_energy te g (List.length eps) ds (fun il => chi w g (nth il eps 0)) (fun il => fst (nth il co (RtoC 0, RtoC 0))) (fun il => snd (nth il co (RtoC 0, RtoC 0))) E.
Proof.
  intros L1 L2 (E0 & El & Ei & Ki & T0 & Tl & Hi & -> & _) co eps.
  destruct (layers_csum _ _ _ _ _ _ _ Hi) as (Q1 & Q2 & v & V1 & V2). rewrite map_length in *.
  set (n := List.length ei) in *. assert (Le : List.length eps = S (S n)) by (unfold eps; cbn; rewrite app_length; cbn; lia).
  exists (fun il => match il with O => RtoC E0 | S i => if (i <? n)%nat then v i else RtoC El end). split.
  - intros [|i] L; unfold over_layer; rewrite Le.
    + change (Nat.eqb 0 0) with true. cbv iota. unfold eps, co. cbn [nth fst snd]. apply (self_tail te g _ _ _ Ropp). exact T0.
    + change (Nat.eqb (S i) 0) with false. cbv iota. replace (S (S n) - 1)%nat with (S n) by lia.
      destruct (Nat.eqb_spec (S i) (S n)) as [X|X].
      * injection X as ->. rewrite Nat.ltb_irrefl.
        assert (X1 : nth (S n) eps 0 = el) by (unfold eps; cbn [nth]; rewrite app_nth2, Nat.sub_diag by (unfold n; lia); reflexivity).
        assert (X2 : nth (S n) co (RtoC 0, RtoC 0) = (A, RtoC 0)).
        { unfold co. cbn [nth]. rewrite app_nth2, L1, Nat.sub_diag by lia. reflexivity. }
        rewrite X1, X2. cbn [fst snd]. exact (self_tail te g _ _ _ (fun z => z) _ Tl).
      * assert (Hlt : (i < n)%nat) by lia. destruct (Nat.ltb_spec i n) as [_|Y]; [|lia].
        replace (S i - 1)%nat with i by lia. specialize (V1 i Hlt).
        assert (X1 : nth (S i) eps 0 = nth i ei 0) by (unfold eps; cbn [nth]; rewrite app_nth1 by exact Hlt; reflexivity).
        assert (X2 : nth (S i) co (RtoC 0, RtoC 0) = nth i mid (RtoC 0, RtoC 0)) by (unfold co; cbn [nth]; rewrite app_nth1 by lia; reflexivity).
        rewrite X1, X2. rewrite (nth_indep _ (RtoC 0) (chi w g 0)), map_nth in V1 by (rewrite map_length; exact Hlt). exact V1.
  - rewrite Le, csum_first. cbn [csum]. rewrite Nat.ltb_irrefl.
    rewrite (csum_ext n _ v) by (intros i Hi'; destruct (Nat.ltb_spec i n); [reflexivity|lia]). rewrite V2, <- !RtoC_plus. f_equal. ring.
Qed.

Lemma energy_unique te g Nl ds c A B E E' : is_energy te g Nl ds c A B E -> is_energy te g Nl ds c A B E' -> E = E'.
Proof.
  intros [v [V1 V2]] [v' [V1' V2']]. apply RtoC_inj. rewrite <- V2, <- V2'. apply csum_ext. intros il L. eapply over_unique; [apply V1, L|apply V1', L].
Qed.

Lemma searched_energy root (te : bool) g e0 el ei ds n lb ub step tol oms cs w co :
  List.length ds = List.length ei -> ei <> [] -> List.Forall (fun d => 0 < d) ds -> 
  guided_mode_given_g root (if te then "TE" else "TM") g (e0 :: ei ++ [el]) ds n lb ub step tol = Ok (oms, cs) ->
  In (w, co) (combine oms cs) -> e0 * (w * w) < g * g -> el * (w * w) < g * g ->
  List.Forall (fun e => 2 * fst (chi w g e) <> reg) ei ->
  snd (hd (RtoC 0, RtoC 0) co) <> RtoC 0 -> snd (last co (RtoC 0, RtoC 0)) = RtoC 0 ->
  let eps := e0 :: ei ++ [el] in
  exists E K, 0 < E /\ Rabs (E - 1) <= reg * K /\
  is_energy te g (List.length eps) ds (fun il => chi w g (nth il eps 0)) (fun il => fst (nth il co (RtoC 0, RtoC 0))) (fun il => snd (nth il co (RtoC 0, RtoC 0))) E /\
  exists B mid A, co = (RtoC 0, B) :: mid ++ [(A, RtoC 0)] /\ mode_energy te g (chi w g e0) B (map (chi w g) ei) mid (chi w g el) A ds E K.
Proof.
  intros Hl Hne Hd H Hin W0 Wl HF HB HL eps.
  destruct (returned_energy root te g e0 el ei ds n lb ub step tol oms cs w co Hl Hne Hd H Hin W0 Wl HF) as (B0 & mid & Al & Bl & Hco & Lm & X).
  assert (Bl0 : Bl = RtoC 0). { rewrite Hco in HL. rewrite (app_comm_cons mid [(Al, Bl)] (RtoC 0, B0)), last_last in HL. exact HL. }
  rewrite Hco in HB. cbn [hd snd] in HB. destruct (X HB) as (E & K & ME & P & Q). exists E, K. split; [exact P|]. split; [exact Q|].
  rewrite Bl0 in Hco. split; [|exists B0, mid, Al; split; [exact Hco|exact ME]].
  rewrite Hco. exact (energy_energy te g w e0 el ei ds B0 mid Al E K Lm Hl ME).
Qed.
