(** The loop over g (C33), spelling of the polarisation (C36) and examples. *)
From Verif Require Import Py CBase SlabModel SlabSpec SlabProofs SlabProofs2 SlabProofs5 SlabProofs6.
Open Scope string_scope.
Open Scope list_scope.
Open Scope R_scope.

Section Loop.
Variables (root : (R -> R) -> R -> R -> R) (te : bool) (e0 el : R) (ei ds : list R) (n : nat) (step tol : R).
Let pol := (if te then "TE" else "TM").
Let eps := e0 :: ei ++ [el].
Hypothesis Hroot : forall g, finds_roots root (D22real pol g eps ds).
Hypothesis Hlen : List.length ds = List.length ei.
Hypothesis Hne : ei <> [].
Hypothesis Hpos : Forall (fun e => 0 < e) eps.
Hypothesis Hs : 0 < step.
Hypothesis Ht : 0 < tol < 1.
Hypothesis Hn : (0 < n)%nat.

(** a fresh search at g *)
Definition searched (g : R) (oms : list R) : Prop :=
  exists m ub, In m ei /\ (forall x, In x ei -> x <= m) /\ ub <= g / sqrt (Rmax e0 el) /\
    search_spec (D22real pol g eps ds) (g / sqrt m * (1 + tol)) (ub * (1 - tol)) step n oms /\
    (forall w, In w oms -> in_window g e0 el ei w) /\
    ((forall e, In e ei -> e <= Rmax e0 el) -> oms = []).

Lemma sqrt_max l m : (forall e, In e l -> 0 < e) -> rmaxl (map sqrt l) = Ok m -> exists e, In e l /\ m = sqrt e /\ forall x, In x l -> x <= e.
Proof.
  intros HP E. destruct (rmaxl_spec _ _ E) as [H1 H2]. apply in_map_iff in H1. destruct H1 as [e [<- He]].
  exists e. split; auto. split; auto. intros x Hx. apply sqrt_le_0; try (left; apply HP; auto).
  apply H2. apply in_map. auto.
Qed.

Lemma step_ok st g : exists r, guided_step root pol eps ds n step tol st g = Ok r /\
  ((List.length (snd r) = List.length (fst r) /\ searched (Rmax g (/ 10 ^ 4)) (fst r)) \/
   exists gp, st = Some (gp, r) /\ Rabs (g - gp) <= / 10 ^ 8).
Proof.
  set (gv := Rmax g (/ 10 ^ 4)).
  assert (Hgv : 0 < gv).
  { unfold gv. eapply Rlt_le_trans; [|apply Rmax_r]. apply Rinv_0_lt_compat. apply pow_lt. lra. }
  assert (PI : forall e, In e ei -> 0 < e).
  { intros e He. rewrite Forall_forall in Hpos. apply Hpos. right. apply in_or_app. auto. }
  destruct (rmaxl_ok (map sqrt ei)) as [sm Em]; [destruct ei; [congruence|discriminate]|].
  destruct (sqrt_max ei sm PI Em) as [m [M1 [-> M2]]].
  assert (CMP : forall ub, ub <= gv / sqrt (Rmax e0 el) ->
    exists r, guided_mode_given_g root pol gv eps ds n (Some (gv / sqrt m)) (Some ub) step tol = Ok r /\
      List.length (snd r) = List.length (fst r) /\ searched gv (fst r)).
  { intros ub Hub.
    destruct (given_g_ok root te gv eps ds n (len_eps e0 el ei ds Hlen) (ds_ne ei ds Hlen Hne) (gv / sqrt m) ub step tol) as [cs [E L]].
    eexists; split; [exact E|]. cbn [fst snd]. split; auto.
    destruct (given_g_search root te gv eps ds n (len_eps e0 el ei ds Hlen) (ds_ne ei ds Hlen Hne) _ _ step tol _ _ (Hroot gv) Hs E) as [Sp _].
    exists m, ub. split; auto. split; auto. split; auto. split; [exact Sp|].
    apply (search_window te gv e0 el ei ds n step tol Hpos Hgv Ht m ub); auto. }
  assert (Etop : Rmax (hd 0 eps) (last eps 0) = Rmax e0 el).
  { unfold eps. rewrite last_ends. reflexivity. }
  assert (Ein : inner eps = ei) by apply inner_ends'.
  unfold guided_step. fold gv. rewrite Ein, Em. cbn [bind]. rewrite Etop.
  destruct st as [[gp [omegas coeffs]]|].
  - assert (UB : exists ub, ub <= gv / sqrt (Rmax e0 el) /\
      (if Nat.eqb (List.length omegas) n then
                  match omegas with
                  | [] => Raise IndexError
                  | _ => Ok (Rmin (gv / sqrt (Rmax e0 el)) (last omegas 0%R + step + (g - gp))%R)
                  end
                else Ok (gv / sqrt (Rmax e0 el))) = Ok ub).
    { destruct (Nat.eqb (List.length omegas) n) eqn:En; [|eexists; split; [|reflexivity]; lra].
      apply Nat.eqb_eq in En. destruct omegas as [|o os]; [simpl in En; lia|].
      eexists; split; [|reflexivity]. apply Rmin_l. }
    destruct UB as [ub [Hub ->]]. cbn [bind].
    destruct (Rltb (/ 10 ^ 8) (Rabs (g - gp))) eqn:Eg.
    + destruct (CMP ub Hub) as [r [Er Hr]]. exists r. split; [exact Er|]. left. exact Hr.
    + apply Rltb_false in Eg. exists (omegas, coeffs). split; auto. right. exists gp. auto.
  - destruct (CMP (gv / sqrt (Rmax e0 el))) as [r [Er Hr]]; [lra|]. exists r. split; [exact Er|]. left. exact Hr.
Qed.

Definition dflt : list R * list (list (C * C)) := ([], []).
Lemma loop_ok gs : forall st, exists rs, guided_loop root pol eps ds n step tol st gs = Ok rs /\
  List.length rs = List.length gs /\
  forall i, (i < List.length gs)%nat ->
    (List.length (snd (nth i rs dflt)) = List.length (fst (nth i rs dflt)) /\ searched (Rmax (nth i gs 0) (/ 10 ^ 4)) (fst (nth i rs dflt))) \/
    (exists gp r, (match i with O => st = Some (gp, r) | S j => gp = nth j gs 0 /\ r = nth j rs dflt end) /\
       Rabs (nth i gs 0 - gp) <= / 10 ^ 8 /\ nth i rs dflt = r).
Proof.
  induction gs as [|g gs IH]; intros st.
  - exists []. simpl. repeat split; auto. intros i Hi. lia.
  - destruct (step_ok st g) as [r [E Hr]].
    destruct (IH (Some (g, r))) as [rs [E2 [L2 H2]]].
    exists (r :: rs). cbn [guided_loop]. rewrite E. cbn [bind]. rewrite E2. cbn [bind]. split; auto.
    split; [simpl; lia|]. intros [|i] Hi.
    + cbn [nth]. destruct Hr as [Hr|[gp [Hr1 Hr2]]]; auto. right. exists gp, r. auto.
    + simpl in Hi. specialize (H2 i ltac:(lia)). cbn [nth].
      destruct H2 as [H2|[gp [r' [H3 [H4 H5]]]]]; auto. right. exists gp, r'. split; auto.
      destruct i as [|i].
      * injection H3 as <- <-. auto.
      * exact H3.
Qed.
End Loop.

(** ** polarisation spelling *)
Lemma lower_exact (s : string) : is_te s = true -> forall (t : bool), is_te (if t then "TE" else "TM") = t.
Proof. intros _ []; reflexivity. Qed.

Definition upper (pol : string) : string := if is_te pol then "TE" else if is_tm pol then "TM" else pol.
Lemma upper_te pol : is_te (upper pol) = is_te pol.
Proof. unfold upper. destruct (is_te pol) eqn:E; auto. destruct (is_tm pol) eqn:E2; auto. Qed.
Lemma upper_tm pol : is_tm (upper pol) = is_tm pol.
Proof.
  unfold upper. destruct (is_te pol) eqn:E.
  - unfold is_te, is_tm in *. apply String.eqb_eq in E. rewrite E. reflexivity.
  - destruct (is_tm pol) eqn:E2; auto.
Qed.

Lemma D22_3_upper pol w g e1 e2 e3 ds : D22_3layer (upper pol) w g e1 e2 e3 ds = D22_3layer pol w g e1 e2 e3 ds.
Proof. unfold D22_3layer. rewrite upper_te, upper_tm. reflexivity. Qed.
Lemma D22_upper pol w g eps ds : D22 (upper pol) w g eps ds = D22 pol w g eps ds.
Proof.
  assert (N : D22_nlayer (upper pol) w g eps ds = D22_nlayer pol w g eps ds)
    by (unfold D22_nlayer; rewrite upper_te, upper_tm; reflexivity).
  unfold D22. destruct eps as [|a [|b [|c [|d t]]]]; auto. apply D22_3_upper.
Qed.
Lemma vec_loop_upper pol w g es : forall m ds, vec_loop (upper pol) m w g es ds = vec_loop pol m w g es ds.
Proof.
  induction es as [|e1 [|e2 t] IH]; intros m ds; auto.
  change (vec_loop (upper pol) m w g (e1 :: e2 :: t) ds) with
    (match ds with [] => Raise IndexError | d :: ds' => let* m' := S_T_prod (upper pol) m w g e1 e2 d in vec_loop (upper pol) m' w g (e2 :: t) ds' end).
  change (vec_loop pol m w g (e1 :: e2 :: t) ds) with
    (match ds with [] => Raise IndexError | d :: ds' => let* m' := S_T_prod pol m w g e1 e2 d in vec_loop pol m' w g (e2 :: t) ds' end).
  destruct ds as [|d ds]; auto.
  replace (S_T_prod (upper pol) m w g e1 e2 d) with (S_T_prod pol m w g e1 e2 d)
    by (unfold S_T_prod, S_vec; rewrite upper_te, upper_tm; reflexivity).
  destruct (S_T_prod pol m w g e1 e2 d) as [m'|e]; cbn [bind]; auto.
Qed.
Lemma D22s_upper pol pts g eps ds : D22s_vec (upper pol) pts g eps ds = D22s_vec pol pts g eps ds.
Proof.
  unfold D22s_vec. induction pts as [|w pts IH]; auto. cbn [mapM]. rewrite IH.
  replace (D22s_one (upper pol) w g eps ds) with (D22s_one pol w g eps ds); auto.
  assert (V : forall a b c1 c2, S_vec (upper pol) a b c1 c2 = S_vec pol a b c1 c2).
  { intros. unfold S_vec. rewrite upper_te, upper_tm. reflexivity. }
  unfold D22s_one.
  destruct eps as [|a [|b [|c [|d t]]]]; auto; rewrite ?D22_3_upper, ?V; auto;
    destruct (S_vec pol a b (chi w g a) (chi w g b)) as [[[[? ?] ?] ?]|]; cbn [bind]; rewrite ?vec_loop_upper; auto.
Qed.
Lemma AB_upper pol w g eps ds : is_te pol || is_tm pol = true -> AB_matrices (upper pol) w g eps ds = AB_matrices pol w g eps ds.
Proof.
  intros H. unfold AB_matrices. rewrite upper_te, upper_tm. reflexivity.
Qed.
Lemma norm_upper dl pol g eps ds cs AB N : is_te pol || is_tm pol = true ->
  normalization_coeff dl pol g eps ds cs AB = Ok N -> normalization_coeff dl (upper pol) g eps ds cs AB = Ok N.
Proof.
  intros H. unfold normalization_coeff. destruct (Nat.eqb _ _); [|discriminate].
  destruct (String.eqb pol "TM") eqn:E1.
  - apply String.eqb_eq in E1. subst. auto.
  - destruct (String.eqb pol "TE") eqn:E2; [|discriminate]. apply String.eqb_eq in E2. subst. auto.
Qed.
Lemma solve_upper root pol g eps ds br r : is_te pol || is_tm pol = true ->
  solve_mode root pol g eps ds br = Ok r -> solve_mode root (upper pol) g eps ds br = Ok r.
Proof.
  intros H. unfold solve_mode. rewrite upper_te, upper_tm, H.
  assert (E : D22real (upper pol) g eps ds = D22real pol g eps ds).
  { unfold D22real. apply FunctionalExtensionality.functional_extensionality. intros w. rewrite D22_upper. reflexivity. }
  rewrite E, AB_upper by auto.
  destruct (AB_matrices pol _ g eps ds) as [AB|e]; cbn [bind]; [|discriminate].
  destruct (normalization_coeff reg pol _ _ _ _ AB) as [N|e] eqn:EN; cbn [bind]; [|discriminate].
  rewrite (norm_upper _ _ _ _ _ _ _ _ H EN). auto.
Qed.
Lemma mapM_mono {A B} (f h : A -> result B) l r : (forall x y, f x = Ok y -> h x = Ok y) -> mapM f l = Ok r -> mapM h l = Ok r.
Proof.
  intros H. revert r. induction l as [|x t IH]; intros r; cbn [mapM]; auto.
  destruct (f x) as [y|] eqn:E; cbn [bind]; [|discriminate]. rewrite (H _ _ E). cbn [bind].
  destruct (mapM f t) as [ys|] eqn:E2; cbn [bind]; [|discriminate]. rewrite (IH ys eq_refl). auto.
Qed.
Lemma given_upper root pol g eps ds n lb ub step tol r : is_te pol || is_tm pol = true ->
  guided_mode_given_g root pol g eps ds n lb ub step tol = Ok r ->
  guided_mode_given_g root (upper pol) g eps ds n lb ub step tol = Ok r.
Proof.
  intros H. unfold guided_mode_given_g.
  destruct (match lb with Some x => Ok x | None => let* m := rmaxl (inner eps) in Ok (g / sqrt m) end) as [l|e]; cbn [bind]; auto.
  rewrite D22s_upper. destruct (D22s_vec pol _ g eps ds) as [zs|e]; cbn [bind]; [|discriminate].
  destruct (mapM (solve_mode root pol g eps ds) _) as [sols|e] eqn:E; cbn [bind]; [|discriminate].
  rewrite (mapM_mono _ (solve_mode root (upper pol) g eps ds) _ _ (fun x y => solve_upper root pol g eps ds x y H) E). auto.
Qed.
Lemma step_upper root pol eps ds n step tol st g r : is_te pol || is_tm pol = true ->
  guided_step root pol eps ds n step tol st g = Ok r -> guided_step root (upper pol) eps ds n step tol st g = Ok r.
Proof.
  intros H. unfold guided_step. destruct (rmaxl (map sqrt (inner eps))) as [m|e]; cbn [bind]; [|discriminate].
  destruct st as [[gp [omegas coeffs]]|].
  - match goal with |- (let* ub := ?X in _) = _ -> _ => destruct X as [ub|e] end; cbn [bind]; [|discriminate].
    destruct (Rltb _ _); auto. apply given_upper; auto.
  - apply given_upper; auto.
Qed.
Lemma guided_upper root pol gs eps ds n step tol r : is_te pol || is_tm pol = true ->
  guided_modes root pol gs eps ds n step tol = Ok r -> guided_modes root (upper pol) gs eps ds n step tol = Ok r.
Proof.
  intros H. unfold guided_modes. generalize (None : gstate). revert r.
  induction gs as [|g gs IH]; intros r st; cbn [guided_loop]; auto.
  destruct (guided_step root pol eps ds n step tol st g) as [x|e] eqn:E; cbn [bind]; [|discriminate].
  rewrite (step_upper _ _ _ _ _ _ _ _ _ _ H E). cbn [bind].
  destruct (guided_loop root pol eps ds n step tol (Some (g, x)) gs) as [y|e] eqn:E2; cbn [bind]; [|discriminate].
  rewrite (IH _ _ E2). auto.
Qed.
Lemma rad_tm pol clad w gs eps ds : is_tm pol = true -> rad_modes pol clad w gs eps ds = rad_modes "tm" clad w gs eps ds.
Proof.
  intros H. unfold rad_modes.
  assert (T : is_te pol = false).
  { unfold is_te, is_tm in *. apply String.eqb_eq in H. rewrite H. reflexivity. }
  assert (N : String.eqb pol "te" = false).
  { apply String.eqb_neq. intros ->. discriminate. }
  induction gs as [|g gs IH]; auto. cbn [mapM]. rewrite IH.
  replace (rad_mode pol clad w g eps ds) with (rad_mode "tm" clad w g eps ds); auto.
  unfold rad_mode. rewrite H, T, N. reflexivity.
Qed.
