(** Normalisation integral (C35). *)
From Verif Require Import Py CBase ShapesSpec CInt SlabModel SlabSpec SlabProofs SlabProofs2.
From Coquelicot Require Import Hierarchy RInt RInt_analysis Derive AutoDerive Continuity Complex Rcomplements Lim_seq Rbar.
Open Scope R_scope.

Lemma cexp_iz (a : C) (z : R) :
  cexp (Cmult (Cmult Ci a) (RtoC z)) = (exp (- snd a * z) * cos (fst a * z), exp (- snd a * z) * sin (fst a * z)).
Proof.
  unfold cexp, expi. apply Ceq; simpl.
  - replace ((0 * fst a - 1 * snd a) * z - (0 * snd a + 1 * fst a) * 0) with (- snd a * z) by ring.
    replace ((0 * fst a - 1 * snd a) * 0 + (0 * snd a + 1 * fst a) * z) with (fst a * z) by ring. ring.
  - replace ((0 * fst a - 1 * snd a) * z - (0 * snd a + 1 * fst a) * 0) with (- snd a * z) by ring.
    replace ((0 * fst a - 1 * snd a) * 0 + (0 * snd a + 1 * fst a) * z) with (fst a * z) by ring. ring.
Qed.
Lemma cexp_miz (a : C) (z : R) :
  cexp (Copp (Cmult (Cmult Ci a) (RtoC z))) = (exp (snd a * z) * cos (fst a * z), - exp (snd a * z) * sin (fst a * z)).
Proof.
  replace (Copp (Cmult (Cmult Ci a) (RtoC z))) with (Cmult (Cmult Ci (Copp a)) (RtoC z)) by ring.
  rewrite cexp_iz. simpl. replace (- - snd a * z) with (snd a * z) by ring.
  replace (- fst a * z) with (- (fst a * z)) by ring. rewrite cos_neg, sin_neg. f_equal. ring.
Qed.

Lemma is_cderive_ext f g x l : (forall t, f t = g t) -> is_cderive f x l -> is_cderive g x l.
Proof.
  intros H [H1 H2]. split; eapply is_derive_ext; eauto; intros; simpl; rewrite H; auto.
Qed.
Lemma is_cderive_scal f x l (k : C) : is_cderive f x l -> is_cderive (fun t => Cmult k (f t)) x (Cmult k l).
Proof.
  intros [H1 H2]. split; simpl.
  - apply (is_derive_minus (fun t => fst k * fst (f t)) (fun t => snd k * snd (f t))); apply is_derive_scal; auto.
  - apply (is_derive_plus (fun t => fst k * snd (f t)) (fun t => snd k * fst (f t))); apply is_derive_scal; auto.
Qed.
Lemma is_cderive_plus f h x l m : is_cderive f x l -> is_cderive h x m -> is_cderive (fun t => Cplus (f t) (h t)) x (Cplus l m).
Proof.
  intros [H1 H2] [H3 H4]. split; simpl.
  - apply (is_derive_plus (fun t => fst (f t)) (fun t => fst (h t))); auto.
  - apply (is_derive_plus (fun t => snd (f t)) (fun t => snd (h t))); auto.
Qed.
Lemma is_cderive_cexp (a : C) x :
  is_cderive (fun z => cexp (Cmult (Cmult Ci a) (RtoC z))) x (Cmult (Cmult Ci a) (cexp (Cmult (Cmult Ci a) (RtoC x)))).
Proof.
  apply is_cderive_ext with (fun z => (exp (- snd a * z) * cos (fst a * z), exp (- snd a * z) * sin (fst a * z)));
    [intros; symmetry; apply cexp_iz|]. rewrite cexp_iz.
  split; simpl; auto_derive; auto; ring.
Qed.
Lemma is_cderive_mcexp (a : C) x :
  is_cderive (fun z => cexp (Copp (Cmult (Cmult Ci a) (RtoC z)))) x (Copp (Cmult (Cmult Ci a) (cexp (Copp (Cmult (Cmult Ci a) (RtoC x)))))).
Proof.
  apply is_cderive_ext with (fun z => cexp (Cmult (Cmult Ci (Copp a)) (RtoC z))).
  { intros; f_equal; ring. }
  replace (Copp (Cmult (Cmult Ci a) (RtoC x))) with (Cmult (Cmult Ci (Copp a)) (RtoC x)) by ring.
  replace (Copp (Cmult (Cmult Ci a) (cexp (Cmult (Cmult Ci (Copp a)) (RtoC x))))) with
    (Cmult (Cmult Ci (Copp a)) (cexp (Cmult (Cmult Ci (Copp a)) (RtoC x)))) by ring.
  apply is_cderive_cexp.
Qed.

(** dwave is the derivative of wave *)
Lemma wave_derive c A B x : is_cderive (wave c A B) x (dwave c A B x).
Proof.
  unfold wave, dwave.
  replace (Cmult (Cmult Ci c) (Cminus (Cmult A (cexp (Cmult (Cmult Ci c) (RtoC x))))
     (Cmult B (cexp (Copp (Cmult (Cmult Ci c) (RtoC x)))))))
   with (Cplus (Cmult A (Cmult (Cmult Ci c) (cexp (Cmult (Cmult Ci c) (RtoC x)))))
     (Cmult B (Copp (Cmult (Cmult Ci c) (cexp (Copp (Cmult (Cmult Ci c) (RtoC x)))))))) by ring.
  apply is_cderive_plus; apply is_cderive_scal; [apply is_cderive_cexp|apply is_cderive_mcexp].
Qed.

Lemma cexp_cont (a : C) x : continuous (fun t => fst (cexp (Cmult (Cmult Ci a) (RtoC t)))) x /\
  continuous (fun t => snd (cexp (Cmult (Cmult Ci a) (RtoC t)))) x.
Proof.
  destruct (is_cderive_cexp a x) as [H1 H2].
  split; apply (ex_derive_continuous (V := R_NormedModule)); eexists; eauto.
Qed.

Lemma int_cexp (a : C) x y : a <> RtoC 0 ->
  is_CInt (fun z => cexp (Cmult (Cmult Ci a) (RtoC z))) x y
   (Cdiv (Cminus (cexp (Cmult (Cmult Ci a) (RtoC y))) (cexp (Cmult (Cmult Ci a) (RtoC x)))) (Cmult Ci a)).
Proof.
  intros Ha. assert (Hi : Cmult Ci a <> RtoC 0) by (apply Cmult_neq_0; auto; apply Ci_neq0).
  set (F := fun z => Cmult (Cinv (Cmult Ci a)) (cexp (Cmult (Cmult Ci a) (RtoC z)))).
  replace (Cdiv (Cminus (cexp (Cmult (Cmult Ci a) (RtoC y))) (cexp (Cmult (Cmult Ci a) (RtoC x)))) (Cmult Ci a))
    with (Cminus (F y) (F x)) by (unfold F, Cdiv; ring).
  assert (D : forall t, is_cderive F t (cexp (Cmult (Cmult Ci a) (RtoC t)))).
  { intros t. unfold F.
    replace (cexp (Cmult (Cmult Ci a) (RtoC t))) with
      (Cmult (Cinv (Cmult Ci a)) (Cmult (Cmult Ci a) (cexp (Cmult (Cmult Ci a) (RtoC t))))).
    2:{ rewrite Cmult_assoc, Cinv_l by auto. ring. }
    apply is_cderive_scal, is_cderive_cexp. }
  apply is_CInt_anti; intros t; [exact (proj1 (D t))|exact (proj2 (D t))|exact (proj1 (cexp_cont a t))|exact (proj2 (cexp_cont a t))].
Qed.

Lemma Cis0_spec z : Cis0 z = true <-> z = RtoC 0.
Proof.
  unfold Cis0. rewrite Bool.andb_true_iff, !Reqb_true. split; [intros [A B]; apply Ceq; auto|intros ->; auto].
Qed.
Lemma Cis0_ne z : z <> RtoC 0 -> Cis0 z = false.
Proof. intros H. destruct (Cis0 z) eqn:E; auto. apply Cis0_spec in E. contradiction. Qed.
Lemma I_alpha_int dl (a : C) d : Cplus a (RtoC dl) <> RtoC 0 ->
  is_CInt (fun z => cexp (Cmult (Cmult Ci (Cplus a (RtoC dl))) (RtoC z))) (- d / 2) (d / 2) (I_alpha dl a d).
Proof.
  intros H. eapply is_CInt_eq; [|apply int_cexp; auto].
  unfold I_alpha, csin. cbv zeta. rewrite (Cis0_ne _ H). set (b := Cplus a (RtoC dl)) in *.
  replace (Cmult (Cmult Ci b) (RtoC (d / 2))) with (Cmult Ci (Cdiv (Cmult b (RtoC d)) (RtoC 2))).
  2:{ rewrite RtoC_div by lra. unfold Cdiv. ring. }
  replace (Cmult (Cmult Ci b) (RtoC (- d / 2))) with (Copp (Cmult Ci (Cdiv (Cmult b (RtoC d)) (RtoC 2)))).
  2:{ rewrite RtoC_div by lra. rewrite RtoC_opp. unfold Cdiv. ring. }
  field. repeat split; auto using Ci_neq0, C2_neq0.
Qed.
(** also where the code would divide 0 by 0 *)
Lemma I_alpha_all dl (a : C) d :
  is_CInt (fun z => cexp (Cmult (Cmult Ci (Cplus a (RtoC dl))) (RtoC z))) (- d / 2) (d / 2) (I_alpha dl a d).
Proof.
  destruct (Cis0 (Cplus a (RtoC dl))) eqn:E.
  2:{ apply I_alpha_int. intros H. apply Cis0_spec in H. congruence. }
  unfold I_alpha. cbv zeta. rewrite E. apply Cis0_spec in E. rewrite E.
  apply (is_CInt_ext (fun _ => RtoC 1)).
  { intros z _. replace (Cmult (Cmult Ci (RtoC 0)) (RtoC z)) with (RtoC 0) by ring. rewrite cexp_0. reflexivity. }
  eapply is_CInt_eq; [|apply is_CInt_const]. rewrite Cmult_1_r. f_equal. field.
Qed.
Lemma I_alpha_int' dl (a : C) d : Cplus a (RtoC dl) <> RtoC 0 ->
  is_CInt (fun z => cexp (Copp (Cmult (Cmult Ci (Cplus a (RtoC dl))) (RtoC z)))) (- d / 2) (d / 2) (I_alpha dl a d).
Proof.
  intros H. set (b := Cplus a (RtoC dl)).
  assert (Hb : Copp b <> RtoC 0). { intros E. apply H. fold b. replace b with (Copp (Copp b)) by ring. rewrite E. ring. }
  eapply is_CInt_eq; [|eapply is_CInt_ext; [|apply (int_cexp (Copp b)); auto]].
  2:{ intros; simpl. f_equal. ring. }
  unfold I_alpha, csin. cbv zeta. rewrite (Cis0_ne _ H). fold b.
  replace (Cmult (Cmult Ci (Copp b)) (RtoC (d / 2))) with (Copp (Cmult Ci (Cdiv (Cmult b (RtoC d)) (RtoC 2)))).
  2:{ rewrite RtoC_div by lra. unfold Cdiv. ring. }
  replace (Cmult (Cmult Ci (Copp b)) (RtoC (- d / 2))) with (Cmult Ci (Cdiv (Cmult b (RtoC d)) (RtoC 2))).
  2:{ rewrite RtoC_div by lra. rewrite RtoC_opp. unfold Cdiv. ring. }
  unfold Cdiv. replace (Cmult Ci (Copp b)) with (Copp (Cmult Ci b)) by ring. rewrite Cinv_opp.
  fold (Cdiv (RtoC 2) b). field. repeat split; auto using Ci_neq0, C2_neq0.
Qed.

(** modulus of an integral *)
Lemma CInt_norm f a b v h H : a <= b -> is_CInt f a b v -> is_RInt h a b H ->
  (forall x, a < x < b -> Cmod (f x) <= h x) -> Cmod v <= H.
Proof.
  intros Hab HI HR HB.
  destruct (Req_dec (Cmod v) 0) as [E|E].
  - rewrite E. rewrite <- (Rmult_0_r (b - a)).
    assert (HH : is_RInt (fun _ => 0) a b ((b - a) * 0)) by apply is_RInt_constR.
    apply (is_RInt_le (fun _ => 0) h a b); auto.
    intros x Hx. eapply Rle_trans; [apply Cmod_ge_0|apply HB; auto].
  - assert (P : 0 < Cmod v) by (pose proof (Cmod_ge_0 v); lra).
    set (u := Cdiv (Cconj v) (RtoC (Cmod v))).
    pose proof (is_CInt_scal f a b v u HI) as [G _].
    assert (U : Cmod u = 1).
    { unfold u. rewrite Cmod_div by (apply RtoC_neq0; lra). rewrite Cmod_R, Rabs_pos_eq by lra.
      replace (Cmod (Cconj v)) with (Cmod v).
      - field. lra.
      - unfold Cmod. f_equal. simpl. ring. }
    assert (V : fst (Cmult u v) = Cmod v).
    { unfold u. replace (Cmult (Cdiv (Cconj v) (RtoC (Cmod v))) v) with (Cdiv (Cmult v (Cconj v)) (RtoC (Cmod v)))
        by (unfold Cdiv; ring).
      rewrite Cconj_mod, <- Cmod_sq. rewrite <- RtoC_div by lra. simpl. field. lra. }
    rewrite <- V.
    apply (is_RInt_le (fun x => fst (Cmult u (f x))) h a b); auto.
    intros x Hx. eapply Rle_trans; [|apply HB; auto].
    eapply Rle_trans; [apply Rle_abs|]. eapply Rle_trans; [apply (Rmax_l _ (Rabs (snd (Cmult u (f x)))))|].
    eapply Rle_trans; [apply Rmax_Cmod|]. rewrite Cmod_mult, U. lra.
Qed.
