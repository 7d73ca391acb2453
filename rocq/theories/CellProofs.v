(** Waves on reciprocal vectors: periodicity and Parseval's identity over a cell. *)
From Verif Require Import Py CBase LatticeSpec ShapesSpec CInt CellSpec.
From Coquelicot Require Import Complex.
Open Scope R_scope.

Lemma expi_int (k : Z) : expi (2 * PI * IZR k) = RtoC 1.
Proof.
  assert (N : forall n : nat, expi (2 * PI * INR n) = RtoC 1).
  { induction n; [simpl; rewrite Rmult_0_r; apply expi_0|]. rewrite S_INR.
    replace (2 * PI * (INR n + 1)) with (2 * PI * INR n + 2 * PI) by ring. rewrite (expi_plus (2 * PI * INR n) (2 * PI)), IHn.
    unfold expi. rewrite cos_2PI, sin_2PI. apply Ceq; simpl; ring. }
  destruct (Z_le_dec 0 k) as [H|H].
  - rewrite <- (Z2Nat.id k H), <- INR_IZR_INZ. apply N.
  - replace k with (- Z.of_nat (Z.to_nat (- k)))%Z by lia. rewrite opp_IZR, <- INR_IZR_INZ.
    pose proof (expi_unit (2 * PI * INR (Z.to_nat (- k)))) as U. rewrite N in U. rewrite Cmult_1_l in U.
    replace (2 * PI * - INR (Z.to_nat (- k))) with (- (2 * PI * INR (Z.to_nat (- k)))) by ring. exact U.
Qed.

Lemma wave_periodic a1 a2 gs v : (forall g, In g gs -> reciprocal_to a1 a2 g) -> lattice_periodic a1 a2 (wave gs v).
Proof.
  intros H r x y Hr. unfold wave. apply csum_ext. intros j Hj. destruct (H (nth j gs (0, 0)) (nth_In _ _ Hj) r Hr) as [k E]. unfold inner in E.
  f_equal. replace (fst (nth j gs (0, 0)) * (x + fst r) + snd (nth j gs (0, 0)) * (y + snd r))
    with (fst (nth j gs (0, 0)) * x + snd (nth j gs (0, 0)) * y + (fst (nth j gs (0, 0)) * fst r + snd (nth j gs (0, 0)) * snd r)) by ring.
  rewrite E, expi_plus, expi_int. ring.
Qed.

Lemma kern_int_mult (k : Z) : kern (2 * PI * IZR k) = if Z.eqb k 0 then RtoC 1 else RtoC 0.
Proof.
  destruct (Z.eqb_spec k 0) as [->|H]; [rewrite Rmult_0_r; apply kern_0|].
  pose proof (kern_mult (2 * PI * IZR k)) as K. rewrite expi_int in K. replace (Cminus (RtoC 1) (RtoC 1)) with (RtoC 0) in K by ring.
  assert (Z0 : 2 * PI * IZR k <> 0). { pose proof PI_RGT_0. apply Rmult_integral_contrapositive; split; [lra|]. apply not_0_IZR; auto. }
  unfold kern. destruct (Req_EM_T (2 * PI * IZR k) 0); [congruence|]. 
  pose proof (expi_int k) as E. unfold expi in E. injection E as E1 E2. rewrite E1, E2. apply Ceq; simpl; unfold Rdiv; ring.
Qed.

Lemma is_CInt_csum n (f : nat -> R -> C) v a b : (forall i, (i < n)%nat -> is_CInt (f i) a b (v i)) ->
  is_CInt (fun x => csum n (fun i => f i x)) a b (csum n v).
Proof.
  induction n; intros H; cbn [csum]; [apply is_CInt_zero|]. apply is_CInt_plus; auto.
Qed.

Section Cell.
Variables a1 a2 : R * R.
Hypothesis Hind : independent a1 a2.

Lemma recip_coords g : reciprocal_to a1 a2 g -> exists p q : Z, inner g a1 = 2 * PI * IZR p /\ inner g a2 = 2 * PI * IZR q.
Proof.
  intros H. destruct (H a1) as [p Hp]. { exists 1%Z, 0%Z. unfold comb. destruct a1; simpl. f_equal; ring. }
  destruct (H a2) as [q Hq]. { exists 0%Z, 1%Z. unfold comb. destruct a2; simpl. f_equal; ring. }
  eauto.
Qed.
Lemma coords_inj g : inner g a1 = 0 -> inner g a2 = 0 -> g = (0, 0).
Proof.
  unfold inner, independent, det in *. destruct g as [x y]; simpl in *. intros A B.
  assert (X : x * (fst a1 * snd a2 - snd a1 * fst a2) = 0) by (transitivity (snd a2 * (x * fst a1 + y * snd a1) - snd a1 * (x * fst a2 + y * snd a2)); [ring|rewrite A, B; ring]).
  assert (Y : y * (fst a1 * snd a2 - snd a1 * fst a2) = 0) by (transitivity (fst a1 * (x * fst a2 + y * snd a2) - fst a2 * (x * fst a1 + y * snd a1)); [ring|rewrite A, B; ring]).
  apply Rmult_integral in X. apply Rmult_integral in Y. destruct X, Y; try contradiction. subst; auto.
Qed.

(** the mean of one exponential *)
Lemma mean_expi g : reciprocal_to a1 a2 g ->
  forall I, (I = if Req_EM_T (fst g) 0 then if Req_EM_T (snd g) 0 then RtoC 1 else RtoC 0 else RtoC 0) ->
  cell_mean a1 a2 (fun x y => expi (fst g * x + snd g * y)) I.
Proof.
  intros H I EI. destruct (recip_coords g H) as (p & q & Hp & Hq). unfold inner in *.
  exists (fun t => Cmult (expi (2 * PI * IZR q * t)) (kern (2 * PI * IZR p))). split.
  - intros t. eapply is_CInt_eq; [|eapply is_CInt_ext; [|apply (int_expi (2 * PI * IZR p) (2 * PI * IZR q * t) 0 1)]].
    + replace (1 - 0) with 1 by ring. rewrite Rmult_0_r, Rplus_0_l, Rmult_1_r. ring.
    + intros s _. cbv beta. f_equal. rewrite <- Hp, <- Hq. ring.
  - eapply is_CInt_eq; [|eapply is_CInt_ext; [|apply (is_CInt_scal (fun t => expi (2 * PI * IZR q * t)) 0 1 (kern (2 * PI * IZR q)) (kern (2 * PI * IZR p))), kern_int]].
    + rewrite EI, !kern_int_mult. destruct (Z.eqb_spec p 0) as [->|P0]; [destruct (Z.eqb_spec q 0) as [->|Q0]|].
      * assert (G : g = (0, 0)) by (apply coords_inj; unfold inner; lra). rewrite G. simpl.
        destruct (Req_EM_T 0 0); [ring|congruence].
      * replace (Cmult (RtoC 1) (RtoC 0)) with (RtoC 0) by ring. destruct (Req_EM_T (fst g) 0) as [A|A]; auto. destruct (Req_EM_T (snd g) 0) as [B|B]; auto.
        exfalso. rewrite A, B in Hq. apply Q0. apply eq_IZR. pose proof PI_RGT_0. apply (Rmult_eq_reg_l (2 * PI)); lra.
      * match goal with |- (Cmult _ ?z = _) => replace (Cmult (RtoC 0) z) with (RtoC 0) by ring end.
        destruct (Req_EM_T (fst g) 0) as [A|A]; auto. destruct (Req_EM_T (snd g) 0) as [B|B]; auto.
        exfalso. rewrite A, B in Hp. apply P0. apply eq_IZR. pose proof PI_RGT_0. apply (Rmult_eq_reg_l (2 * PI)); lra.
    + intros t _. cbv beta. apply Cmult_comm.
Qed.

Lemma mean_ext f f' v v' : (forall x y, f x y = f' x y) -> v = v' -> cell_mean a1 a2 f v -> cell_mean a1 a2 f' v'.
Proof.
  intros E <- (J & H1 & H2). exists J. split; auto. intros t. eapply is_CInt_ext; [|apply H1]. intros; cbv beta; auto.
Qed.
Lemma mean_scal c f v : cell_mean a1 a2 f v -> cell_mean a1 a2 (fun x y => Cmult c (f x y)) (Cmult c v).
Proof.
  intros (J & H1 & H2). exists (fun t => Cmult c (J t)). split; [|apply is_CInt_scal; auto]. intros t.
  apply (is_CInt_scal (fun s => f (s * fst a1 + t * fst a2) (s * snd a1 + t * snd a2))). auto.
Qed.
Lemma mean_csum n (f : nat -> R -> R -> C) v : (forall i, (i < n)%nat -> cell_mean a1 a2 (f i) (v i)) ->
  cell_mean a1 a2 (fun x y => csum n (fun i => f i x y)) (csum n v).
Proof.
  induction n; intros H; cbn [csum].
  - exists (fun _ => RtoC 0). split; intros; apply is_CInt_zero.
  - destruct IHn as (J & A & B); [intros; apply H; lia|]. destruct (H n) as (K & A' & B'); [lia|].
    exists (fun t => Cplus (J t) (K t)). split; [|apply is_CInt_plus; auto]. intros t.
    apply (is_CInt_plus (fun s => csum n (fun i => f i (s * fst a1 + t * fst a2) (s * snd a1 + t * snd a2)))); auto.
Qed.

Lemma recip_minus g g' : reciprocal_to a1 a2 g -> reciprocal_to a1 a2 g' -> reciprocal_to a1 a2 (fst g - fst g', snd g - snd g').
Proof.
  intros H H' r Hr. destruct (H r Hr) as [k E]. destruct (H' r Hr) as [k' E']. exists (k - k')%Z. unfold inner in *. simpl.
  rewrite minus_IZR. replace ((fst g - fst g') * fst r + (snd g - snd g') * snd r) with ((fst g * fst r + snd g * snd r) - (fst g' * fst r + snd g' * snd r)) by ring.
  rewrite E, E'. ring.
Qed.

Lemma parseval gs v w : NoDup gs -> (forall g, In g gs -> reciprocal_to a1 a2 g) ->
  cell_mean a1 a2 (fun x y => (Cconj (wave gs v x y) * wave gs w x y)%C) (csum (List.length gs) (fun j => (Cconj (v j) * w j)%C)).
Proof.
  intros ND HR. set (n := List.length gs). set (G := fun j => nth j gs (0, 0)).
  set (D := fun i j => (fst (G j) - fst (G i), snd (G j) - snd (G i))).
  apply (mean_ext (fun x y => csum n (fun i => csum n (fun j => (Cconj (v i) * w j * expi (fst (D i j) * x + snd (D i j) * y))%C)))
           _ (csum n (fun i => csum n (fun j => (Cconj (v i) * w j * (if Nat.eqb j i then RtoC 1 else RtoC 0))%C)))).
  - intros x y. unfold wave. fold n. rewrite csum_conj, <- csum_scal_r. apply csum_ext. intros i Hi. rewrite <- csum_scal_l. apply csum_ext. intros j Hj.
    rewrite Cconj_mult, expi_conj. unfold D. cbn [fst snd]. fold (G i) (G j).
    replace ((fst (G j) - fst (G i)) * x + (snd (G j) - snd (G i)) * y) with (- (fst (G i) * x + snd (G i) * y) + (fst (G j) * x + snd (G j) * y)) by ring.
    rewrite expi_plus. ring.
  - apply csum_ext. intros i Hi. rewrite (csum_single n i) by (auto; intros j Hj Hne; apply Nat.eqb_neq in Hne; rewrite Hne; ring).
    rewrite Nat.eqb_refl. ring.
  - apply (mean_csum n (fun i x y => csum n (fun j => _))). intros i Hi. apply (mean_csum n (fun j x y => _)). intros j Hj.
    apply (mean_scal (Cconj (v i) * w j)%C (fun x y => expi (fst (D i j) * x + snd (D i j) * y))). apply mean_expi.
    + unfold D. apply recip_minus; apply HR, nth_In; auto.
    + unfold D. cbn [fst snd]. destruct (Nat.eqb_spec j i) as [->|Hne].
      * destruct (Req_EM_T (fst (G i) - fst (G i)) 0); [|lra]. destruct (Req_EM_T (snd (G i) - snd (G i)) 0); [auto|lra].
      * destruct (Req_EM_T (fst (G j) - fst (G i)) 0) as [A|A]; auto. destruct (Req_EM_T (snd (G j) - snd (G i)) 0) as [B|B]; auto.
        exfalso. apply Hne. apply (proj1 (NoDup_nth gs (0, 0)) ND); auto. change (G j = G i). destruct (G j), (G i); simpl in *. f_equal; lra.
Qed.
End Cell.
