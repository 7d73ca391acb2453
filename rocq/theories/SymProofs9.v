(** Which symmetry angles are accepted. *)
From Verif Require Import Py CBase LatticeModel SymSpec SymModel SymProofs5.
From Coq Require Import Lra Lia ZArith.
Open Scope R_scope.

Lemma int_part_le x n : Int_part x = n -> IZR n <= x < IZR n + 1.
Proof. intros <-. destruct (base_Int_part x). lra. Qed.

Lemma rint_even N x : Z.even N = true -> (rint x = N <-> Rabs (x - IZR N) <= 1 / 2).
Proof.
  intros HE. unfold rint. destruct (int_part_le x _ eq_refl) as [A B]. set (n := Int_part x) in *.
  unfold Rltb.
  assert (CASE : forall m : Z, IZR m - 1 / 2 <= x <= IZR m + 1 / 2 -> Z.even m = true -> m = n \/ m = (n + 1)%Z).
  { intros m Hm He.
    assert (M1 : (n <= m)%Z). { apply Z.lt_succ_r. apply lt_IZR. rewrite succ_IZR.
      destruct (Rlt_le_dec (IZR n) (IZR m + 1)) as [|K]; auto. exfalso.
      assert (x = IZR m + 1 / 2) by lra. lra. }
    assert (M2 : (m <= n + 1)%Z). { apply Z.lt_succ_r. apply lt_IZR. rewrite succ_IZR, plus_IZR. lra. }
    lia. }
  assert (ODD : Z.even (n + 1) = negb (Z.even n)).
  { rewrite <- Z.negb_odd. replace (n + 1)%Z with (Z.succ n) by lia. rewrite Z.odd_succ. reflexivity. }
  split.
  - intros H. apply Rabs_le.
    destruct Rlt_dec as [L|L]; [subst N; lra|].
    destruct Rlt_dec as [L'|L']; [subst N; rewrite plus_IZR; lra|].
    destruct (Z.even n); subst N; rewrite ?plus_IZR; lra.
  - intros H. assert (H' : IZR N - 1 / 2 <= x <= IZR N + 1 / 2).
    { revert H. unfold Rabs. destruct Rcase_abs; lra. }
    destruct (CASE N H' HE) as [E|E]; subst N.
    + destruct Rlt_dec as [L|L]; [reflexivity|]. destruct Rlt_dec as [L'|L']; [lra|]. rewrite HE. reflexivity.
    + rewrite plus_IZR in H'. destruct Rlt_dec as [L|L]; [lra|]. destruct Rlt_dec as [L'|L']; [reflexivity|].
      rewrite ODD in HE. destruct (Z.even n); [discriminate|reflexivity].
Qed.

Lemma round8_near a k : round8 a = IZR k <-> Rabs (a - IZR k) <= 5 / 10 ^ 9.
Proof.
  assert (E : Z.even (k * 100000000) = true) by (rewrite Z.even_mul; apply Bool.orb_true_r).
  pose proof (rint_even (k * 100000000) (a * 10 ^ 8) E) as R.
  assert (T : 10 ^ 8 = 100000000) by (simpl; ring).
  assert (T9 : 10 ^ 9 = 1000000000) by (simpl; ring).
  rewrite mult_IZR in R.
  assert (A : Rabs (a * 10 ^ 8 - IZR k * 100000000) <= 1 / 2 <-> Rabs (a - IZR k) <= 5 / 10 ^ 9).
  { rewrite T, T9. replace (a * 100000000 - IZR k * 100000000) with ((a - IZR k) * 100000000) by ring.
    rewrite Rabs_mult, (Rabs_right 100000000) by lra. split; lra. }
  rewrite <- A, <- R. unfold round8. rewrite T. split.
  - intros H. apply eq_IZR. rewrite mult_IZR. rewrite <- H. field.
  - intros ->. rewrite mult_IZR. field.
Qed.

Lemma table_multiples n step x : (0 < step)%Z -> (step * (Z.of_nat n - 1) = 720)%Z -> (360 mod step = 0)%Z ->
  (In (round8 x) (an_table n step) <-> exists q : Z, (-360 <= step * q <= 360)%Z /\ Rabs (x - IZR (step * q)) <= 5 / 10 ^ 9).
Proof.
  intros Hs Hn Hm. rewrite table_in. apply Z.mod_divide in Hm; [|lia]. destruct Hm as [c Hc].
  split.
  - intros [i [Hi H]]. exists (Z.of_nat i - c)%Z.
    replace (step * (Z.of_nat i - c))%Z with (-360 + step * Z.of_nat i)%Z by lia.
    split; [nia|]. apply round8_near. exact H.
  - intros [q [Hq H]]. exists (Z.to_nat (q + c)).
    assert (0 <= q + c)%Z by nia.
    split; [apply Nat2Z.inj_lt; rewrite Z2Nat.id by auto; nia|].
    rewrite Z2Nat.id by auto. replace (-360 + step * (q + c))%Z with (step * q)%Z by lia.
    apply round8_near. exact H.
Qed.

Lemma angles_accepted ty angles :
  (exists d, refl_mats ty angles = Ok d) <->
  exists step, angle_step ty = Some step /\
    forall a, In a angles -> exists q : Z, (-360 <= step * q <= 360)%Z /\ Rabs (a - IZR (step * q)) <= 5 / 10 ^ 9.
Proof.
  assert (T : forall step x, angle_step ty = Some step -> (In (round8 x) (table_of ty) <->
    exists q : Z, (-360 <= step * q <= 360)%Z /\ Rabs (x - IZR (step * q)) <= 5 / 10 ^ 9)).
  { intros step x H. destruct ty; cbn [angle_step] in H; try discriminate; injection H as <-; apply table_multiples; reflexivity || lia. }
  split.
  - intros [d Hd]. destruct (refl_mats_inv ty angles d Hd) as [N H].
    destruct (angle_step ty) as [step|] eqn:E; [|destruct ty; discriminate || congruence].
    exists step. split; [reflexivity|]. intros a Ha. apply (T step a eq_refl). apply (H a Ha).
  - intros [step [E H]]. apply refl_mats_ok; [intros ->; discriminate|].
    intros a Ha. apply (T step a E). apply H, Ha.
Qed.
