(** Proofs about radiative losses, continued: totality, phases, stored results. *)
From Verif Require Import Py CBase SlabModel SlabProofs9 MatElModel RadSpec RadModel RadProofs.
Open Scope R_scope.
Open Scope list_scope.

(** ** the routine returns a result on consistent data *)
Lemma pairs_len {A} (l : list A) : List.length (pairs l) = (List.length l - 1)%nat.
Proof. induction l as [|a [|b l] IH]; [reflexivity|reflexivity|]. cbn [pairs List.length] in *. lia. Qed.
Lemma inner_len' {A} (l : list A) : List.length (inner l) = (List.length l - 2)%nat.
Proof.
  unfold inner. rewrite removelast_firstn_len, firstn_length. destruct l; cbn [tl List.length]; lia.
Qed.
Lemma S_T_ok Sf w g eps ds : (List.length ds + 2 = List.length eps)%nat ->
  exists Ss Ts, S_T_matrices Sf w g eps ds = Ok (Ss, Ts) /\ List.length Ss = S (List.length ds) /\ List.length Ts = List.length ds.
Proof.
  intros H. unfold S_T_matrices. rewrite H, Nat.eqb_refl. eexists; eexists. split; [reflexivity|].
  unfold chi_array. split.
  - rewrite map_length, pairs_len, combine_length, map_length. lia.
  - rewrite map_length, combine_length, inner_len', map_length. lia.
Qed.
Lemma rad_chain_ok Ss : forall c Ts, (0 < List.length Ss)%nat -> List.length Ss = List.length Ts -> exists r, rad_chain c Ss Ts = Ok r.
Proof.
  induction Ss as [|S1 Ss IH]; intros c Ts P H; [cbn in P; lia|].
  destruct Ts as [|T1 Ts]; [discriminate H|]. destruct Ss as [|S2 Ss].
  - eexists. reflexivity.
  - destruct Ts as [|T2 Ts]; [discriminate H|].
    change (rad_chain c (S1 :: S2 :: Ss) (T1 :: T2 :: Ts)) with
      (let c' := m2vec T2 (m2vec S1 (m2vec T1 c)) in let* r := rad_chain c' (S2 :: Ss) (T2 :: Ts) in Ok (c' :: r)).
    cbv zeta. destruct (IH (m2vec T2 (m2vec S1 (m2vec T1 c))) (T2 :: Ts)) as [r Hr]; [cbn; lia|cbn in *; lia|].
    rewrite Hr. eexists. reflexivity.
Qed.
Lemma rad_mode_ok pol clad w g eps ds : is_te pol = true \/ is_tm pol = true -> (clad < 2)%nat ->
  (List.length ds + 2 = List.length eps)%nat -> ds <> [] -> exists xy, rad_mode pol clad w g eps ds = Ok xy.
Proof.
  intros Hp Hc Hl Hd. unfold rad_mode. cbv zeta.
  assert (Hr : (List.length (rev ds) + 2 = List.length (rev eps))%nat) by (rewrite !rev_length; exact Hl).
  assert (K : exists Ss Ts, (if is_te pol && Nat.eqb clad 0 then S_T_matrices S_TE w (Rmax g (/ 10 ^ 10)) (rev eps) (rev ds)
     else if is_te pol && Nat.eqb clad 1 then S_T_matrices S_TE w (Rmax g (/ 10 ^ 10)) eps ds
     else if is_tm pol && Nat.eqb clad 0 then S_T_matrices S_TM w (Rmax g (/ 10 ^ 10)) (rev eps) (rev ds)
     else if is_tm pol && Nat.eqb clad 1 then S_T_matrices S_TM w (Rmax g (/ 10 ^ 10)) eps ds
     else Raise UnboundLocalError) = Ok (Ss, Ts) /\ List.length Ss = S (List.length ds) /\ List.length Ts = List.length ds).
  { assert (A : forall Sf, exists Ss Ts, S_T_matrices Sf w (Rmax g (/ 10 ^ 10)) (rev eps) (rev ds) = Ok (Ss, Ts) /\
        List.length Ss = S (List.length ds) /\ List.length Ts = List.length ds).
    { intros Sf. destruct (S_T_ok Sf w (Rmax g (/ 10 ^ 10)) (rev eps) (rev ds) Hr) as [Ss [Ts [E [E1 E2]]]].
      rewrite rev_length in E1, E2. eauto. }
    destruct clad as [|[|c]]; [| |lia]; destruct (is_te pol) eqn:Et; cbn [andb Nat.eqb].
    - apply A.
    - destruct Hp as [Hp|Hp]; [discriminate Hp|]. rewrite Hp. apply A.
    - apply S_T_ok, Hl.
    - destruct Hp as [Hp|Hp]; [discriminate Hp|]. rewrite Hp. apply S_T_ok, Hl. }
  destruct K as [Ss [Ts [E [L1 L2]]]]. rewrite E. cbn [bind fst snd].
  destruct Ss as [|S0 Ss]; [discriminate L1|]. destruct Ts as [|T0 Ts]; [destruct ds; [contradiction|discriminate L2]|].
  destruct (rad_chain_ok Ss (m2vec T0 (m2vec S0 (RtoC 0, RtoC 1))) (T0 :: Ts)) as [r Hr']; [cbn in *; lia|cbn in *; lia|].
  rewrite Hr'. cbn [bind]. destruct (Nat.eqb clad 0); eexists; reflexivity.
Qed.
Lemma get_rad_ok gk ind w pol clad eps ds : is_te pol = true \/ is_tm pol = true -> (clad < 2)%nat ->
  (List.length ds + 2 = List.length eps)%nat -> ds <> [] -> exists r, get_rad gk ind w pol clad eps ds = Ok r.
Proof.
  intros Hp Hc Hl Hd. unfold get_rad, rad_modes.
  destruct (mapM_all_ok (fun g => rad_mode pol clad w g eps ds) (map gk ind)) as [xy E].
  { intros g _. apply rad_mode_ok; assumption. }
  cbv zeta. rewrite E. eexists. reflexivity.
Qed.
Lemma rad_one_ok dl e f v : consistent e (fst v) -> (List.length (re_ds e) + 2 = List.length (re_eps e))%nat -> re_ds e <> [] ->
  exists r, rad_one dl e f v = Ok r.
Proof.
  intros [gs [F [Hn Hs]]] Hl Hd. unfold rad_one. cbv zeta.
  set (d := gk_data (re_gvec e) (re_k e) (re_dgx e)).
  assert (K : forall te r, exists a, rad_loop (fun m => rad_overlap dl (re_eps e) (re_ds e) (re_einv e) d m te r) te v (re_get e) 0
      (re_inc e) (re_numg e) (fun _ => RtoC 0) = Ok a).
  { intros te r. rewrite Hn. apply rad_loop_ok; [exact F|intros; apply ov_rows|rewrite Hs; apply Nat.le_refl]. }
  assert (G : forall ind pol clad, is_te pol = true \/ is_tm pol = true -> (clad < 2)%nat ->
    exists r, get_rad (gk_len d) ind (2 * PI * f) pol clad (re_eps e) (re_ds e) = Ok r) by (intros; apply get_rad_ok; assumption).
  repeat match goal with |- context [get_rad (gk_len d) ?ind ?w ?pol ?clad ?a ?b] =>
    let r := fresh "r" in let Hr := fresh "Hr" in
    destruct (G ind pol clad) as [r Hr]; [first [left; reflexivity|right; reflexivity]|lia|]; rewrite Hr; cbn [bind] end.
  repeat match goal with |- context [rad_loop (fun m => rad_overlap _ _ _ _ _ m ?te ?r) _ _ _ _ _ _ _] =>
    let a := fresh in let Ha := fresh in destruct (K te r) as [a Ha]; rewrite Ha; cbn [bind] end.
  eexists. reflexivity.
Qed.

(** ** changing the phase of the eigenvector *)
Definition scaled (c : C) (v : nat * (nat -> C)) : nat * (nat -> C) := (fst v, fun i => Cmult c (snd v i)).
Lemma rad_loop_scaled ov te v get c inc : forall numg count acc acc',
  (forall j, acc' j = Cmult (Cconj c) (acc j)) ->
  match rad_loop ov te v get count inc numg acc, rad_loop ov te (scaled c v) get count inc numg acc' with
  | Ok a, Ok a' => forall j, a' j = Cmult (Cconj c) (a j)
  | Raise x, Raise x' => x = x'
  | _, _ => False
  end.
Proof.
  induction inc as [|m inc IH]; intros numg count acc acc' H; [exact H|].
  cbn [rad_loop]. destruct (get m) as [g|x]; cbn [bind]; [|reflexivity].
  destruct numg as [|n ns]; [reflexivity|]. unfold rad_term. cbn [scaled fst snd].
  destruct (Nat.eqb (nr (ov (m, g))) n && Nat.leb (count + n) (fst v))%bool; cbn [bind]; [|reflexivity].
  apply IH. intros j. rewrite H.
  assert (E : csum n (fun i => Cmult (ent (ov (m, g)) i j) (Cconj (Cmult c (snd v (count + i)%nat)))) =
    Cmult (Cconj c) (csum n (fun i => Cmult (ent (ov (m, g)) i j) (Cconj (snd v (count + i)%nat))))).
  { rewrite <- csum_scal_l. apply csum_ext. intros i _. rewrite Cconj_mult. ring. }
  destruct te; rewrite E; ring.
Qed.
Lemma coupling_scaled ng gk ec w c a a' : (forall j, a' j = Cmult c (a j)) ->
  coupling ng gk ec w a' = map (Cmult c) (coupling ng gk ec w a).
Proof.
  intros H. unfold coupling. cbv zeta. rewrite map_map. apply map_ext. intros j. rewrite H. ring.
Qed.
Lemma total_scaled c l : total (map (Cmult c) l) = (fst c * fst c + snd c * snd c) * total l.
Proof.
  unfold total. induction l as [|z l IH]; cbn [map fold_right]; [ring|]. rewrite IH. destruct c, z. simpl. ring.
Qed.
Lemma conj_norm c : (fst (Cconj c) * fst (Cconj c) + snd (Cconj c) * snd (Cconj c) = fst c * fst c + snd c * snd c)%R.
Proof. destruct c; simpl; ring. Qed.
Lemma rad_one_scaled dl e f v c r : fst c * fst c + snd c * snd c = 1 -> rad_one dl e f v = Ok r ->
  exists r', rad_one dl e f (scaled c v) = Ok r' /\
    rr_tot r' = rr_tot r /\ rr_te r' = rr_te r /\ rr_tm r' = rr_tm r /\
    rr_lte r' = map (Cmult (Cconj c)) (rr_lte r) /\ rr_ltm r' = map (Cmult (Cconj c)) (rr_ltm r) /\
    rr_ute r' = map (Cmult (Cconj c)) (rr_ute r) /\ rr_utm r' = map (Cmult (Cconj c)) (rr_utm r) /\
    rr_gl r' = rr_gl r /\ rr_gu r' = rr_gu r.
Proof.
  intros Hc H. unfold rad_one in *. cbv zeta in *.
  set (d := gk_data (re_gvec e) (re_k e) (re_dgx e)) in *.
  repeat match type of H with bind (get_rad ?a ?b ?w ?p ?cl ?x ?y) _ = _ =>
    destruct (get_rad a b w p cl x y) as [?r|]; [cbn [bind] in *|discriminate H] end.
  assert (K : forall te r, match rad_loop (fun m => rad_overlap dl (re_eps e) (re_ds e) (re_einv e) d m te r) te v (re_get e) 0 (re_inc e) (re_numg e) (fun _ => RtoC 0),
    rad_loop (fun m => rad_overlap dl (re_eps e) (re_ds e) (re_einv e) d m te r) te (scaled c v) (re_get e) 0 (re_inc e) (re_numg e) (fun _ => RtoC 0) with
    | Ok a, Ok a' => forall j, a' j = Cmult (Cconj c) (a j)
    | Raise x, Raise x' => x = x'
    | _, _ => False end).
  { intros te r'. apply rad_loop_scaled. intros _. ring. }
  repeat match type of H with context [rad_loop (fun m => rad_overlap _ _ _ _ _ m ?te ?r) _ _ _ _ _ _ _] =>
    let a := fresh "a" in let a' := fresh "b" in let Q := fresh "Q" in
    generalize (K te r); 
    destruct (rad_loop (fun m => rad_overlap dl (re_eps e) (re_ds e) (re_einv e) d m te r) te v (re_get e) 0 (re_inc e) (re_numg e) (fun _ => RtoC 0)) as [a|]; [|discriminate H];
    destruct (rad_loop (fun m => rad_overlap dl (re_eps e) (re_ds e) (re_einv e) d m te r) te (scaled c v) (re_get e) 0 (re_inc e) (re_numg e) (fun _ => RtoC 0)) as [a'|]; [|intros []];
    intros Q; cbn [bind] in * end.
  injection H as <-. eexists. split; [reflexivity|].
  cbn [rr_tot rr_te rr_tm rr_lte rr_ltm rr_ute rr_utm rr_gl rr_gu].
  repeat match goal with Q : forall j, ?b j = Cmult (Cconj c) (?a j) |- _ =>
    rewrite !(fun ec => coupling_scaled (List.length (re_gvec e)) (gk_len d) ec (2 * PI * f) (Cconj c) a b Q); clear Q end.
  rewrite !power_total, !total_scaled, !conj_norm, Hc, !Rmult_1_l. repeat split.
Qed.

(** ** what is stored *)
Lemma rad_components_in dl e n fs vs minds rs : rad_components dl e n fs vs minds = Ok rs ->
  List.length rs = List.length minds /\ forall i im, nth_error minds i = Some im ->
    exists f v r, nth_error fs im = Some f /\ nth_error vs im = Some v /\ nth_error rs i = Some r /\ rad_one dl e f v = Ok r.
Proof.
  unfold rad_components. intros H. destruct minds as [|m ms]; [discriminate H|]. set (l := m :: ms) in *.
  destruct (existsb _ l); [discriminate H|]. split; [exact (mapM_ok_length _ _ _ H)|].
  intros i im Hi. destruct (mapM_ok_nth _ _ _ H i im Hi) as [r [Hf Hr]].
  destruct (nth_error fs im) as [f|]; [|discriminate Hf]. destruct (nth_error vs im) as [v|]; [|discriminate Hf].
  exists f, v, r. auto.
Qed.
Lemma pos_to_freq y : 0 <= y -> 0 <= to_freq y.
Proof. intros H. unfold to_freq. pose proof PI_RGT_0. unfold Rdiv. repeat apply Rmult_le_pos; try lra. apply Rlt_le, Rinv_0_lt_compat; lra. Qed.
Lemma to_freq_0 : to_freq 0 = 0.
Proof. unfold to_freq, Rdiv. ring. Qed.
