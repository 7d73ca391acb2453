(** How far the map of the permittivity is right in a lattice without right angles. *)
From Coq Require Import List.
From Verif Require Import Py CBase LatticeModel LatticeSpec LatticeProofs PhcModel PhcSpec PhcProofs PhcProofs2 PhcProofs3 PhcProofs4 ImgProofs3 FourSpec FourProofs.
Open Scope R_scope.
Open Scope list_scope.

Lemma len_minus p q : sqrt (nrm2 (fst p - fst q, snd p - snd q)) <= sqrt (nrm2 p) + sqrt (nrm2 q).
Proof.
  apply Rsqr_incr_0_var; [|pose proof (sqrt_pos (nrm2 p)); pose proof (sqrt_pos (nrm2 q)); lra].
  rewrite Rsqr_sqrt by apply nrm2_nonneg. pose proof (cauchy p q) as C. assert (P := sqrt_sqrt (nrm2 p) (nrm2_nonneg p)). assert (Q := sqrt_sqrt (nrm2 q) (nrm2_nonneg q)).
  set (u := sqrt (nrm2 p)) in *. set (v := sqrt (nrm2 q)) in *. clearbody u v. pose proof (Rle_abs (- (fst p * fst q + snd p * snd q))) as A. rewrite Rabs_Ropp in A.
  unfold nrm2, Rsqr in *. cbn [fst snd]. nra.
Qed.
Lemma linear_between B r s t u : 0 <= r <= B -> (B + s) * t <= B * u + 1 -> s * t <= 1 -> (r + s) * t <= r * u + 1.
Proof.
  intros Hr H1 H2. destruct (Req_dec B 0) as [E|E]; [assert (r = 0) by lra; subst; nra|].
  assert (B * ((r + s) * t) <= B * (r * u + 1)); [|apply (Rmult_le_reg_l B); lra].
  assert (A : r * ((B + s) * t) <= r * (B * u + 1)) by (apply Rmult_le_compat_l; lra). assert (A' : (B - r) * (s * t) <= (B - r) * 1) by (apply Rmult_le_compat_l; lra). nra.
Qed.
Lemma maxabs_bound l X : 0 <= X -> (forall x, In x l -> Rabs x <= X) -> maxabs l <= X.
Proof. intros HX. induction l as [|x l IH]; intros H; cbn [maxabs fold_right]; [exact HX|]. apply Rmax_lub; [apply H; left; reflexivity|apply IH; intros y Hy; apply H; right; exact Hy]. Qed.
Lemma index_reach args L p n1 n2 R0 : lattice_init args = Ok L -> independent (lt_a1 L) (lt_a2 L) ->
  nrm2 (fst p + IZR n1 * fst (lt_a1 L) + IZR n2 * fst (lt_a2 L), snd p + IZR n1 * snd (lt_a1 L) + IZR n2 * snd (lt_a2 L)) <= Rsqr R0 -> 0 <= R0 ->
  2 * PI * Rabs (IZR n1) <= (sqrt (nrm2 p) + R0) * sqrt (nrm2 (lt_b1 L)) /\ 2 * PI * Rabs (IZR n2) <= (sqrt (nrm2 p) + R0) * sqrt (nrm2 (lt_b2 L)).
Proof.
  intros HL Hi HR H0. set (q := (_, _)) in HR. destruct (duality args L HL Hi) as (D1 & D2 & D3 & D4). unfold inner in *. pose proof PI_RGT_0 as HPI.
  assert (Hq : sqrt (nrm2 q) <= R0) by (rewrite <- (sqrt_Rsqr R0) by exact H0; apply sqrt_le_1_alt; exact HR). pose proof (len_minus q p) as Hl.
  set (w := (fst q - fst p, snd q - snd p)) in *.
  assert (K : forall v n, fst w * fst v + snd w * snd v = 2 * PI * IZR n -> 2 * PI * Rabs (IZR n) <= (sqrt (nrm2 p) + R0) * sqrt (nrm2 v)).
  { intros v n E. pose proof (cauchy w v) as C. rewrite E, Rabs_mult, (Rabs_pos_eq (2 * PI)) in C by lra. eapply Rle_trans; [exact C|]. apply Rmult_le_compat_r; [apply sqrt_pos|lra]. }
  split; apply K; unfold w, q; cbn [fst snd].
  - transitivity (IZR n1 * (fst (lt_b1 L) * fst (lt_a1 L) + snd (lt_b1 L) * snd (lt_a1 L)) + IZR n2 * (fst (lt_b1 L) * fst (lt_a2 L) + snd (lt_b1 L) * snd (lt_a2 L))); [ring|]. rewrite D1, D3. ring.
  - transitivity (IZR n1 * (fst (lt_b2 L) * fst (lt_a1 L) + snd (lt_b2 L) * snd (lt_a1 L)) + IZR n2 * (fst (lt_b2 L) * fst (lt_a2 L) + snd (lt_b2 L) * snd (lt_a2 L))); [ring|]. rewrite D2, D4. ring.
Qed.
Section Reach.
Variables (args : lat_args) (L : lattice) (X Y R0 : R).
Let len (v : R * R) := sqrt (Rsqr (fst v) + Rsqr (snd v)).
Let ap := Rmin (len (lt_a1 L)) (len (lt_a2 L)).
Hypothesis (HL : lattice_init args = Ok L) (Hi : independent (lt_a1 L) (lt_a2 L)) (HX : 0 <= X) (HY : 0 <= Y) (H0 : 0 <= R0).
Hypothesis Hreach : forall v, v = lt_b1 L \/ v = lt_b2 L -> R0 * (len v / (2 * PI)) <= 1 /\ (len (X, Y) + R0) * (len v / (2 * PI)) <= len (X, Y) / ap + 1.
Lemma reach_covers pts s p : (forall p, In p pts -> Rabs (fst p) <= X /\ Rabs (snd p) <= Y) -> In p pts ->
  (forall x y, sh_inside s x y = true -> Rsqr x + Rsqr y <= Rsqr R0) -> (covers L (nmax_of L pts) s p <-> covers_any L s p).
Proof.
  intros Hp Hin Hs. split; [intros H; exists (nmax_of L pts); auto|]. intros (N & n1 & n2 & _ & _ & H). exists n1, n2. pose proof PI_RGT_0 as HPI.
  set (M := sqrt (Rsqr (maxabs (map fst pts)) + Rsqr (maxabs (map snd pts)))).
  assert (HM : sqrt (nrm2 p) <= M).
  { apply sqrt_le_1_alt. unfold nrm2. apply Rplus_le_compat; apply Rsqr_le_abs_1; rewrite (Rabs_pos_eq (maxabs _)) by apply maxabs_nonneg; apply maxabs_ge, in_map; auto. }
  assert (MB : 0 <= M <= len (X, Y)).
  { split; [apply sqrt_pos|]. apply sqrt_le_1_alt. cbn [fst snd]. apply Rplus_le_compat; apply Rsqr_incr_1; auto; try apply maxabs_nonneg; apply maxabs_bound; auto;
    intros x Hx; apply in_map_iff in Hx; destruct Hx as (q & <- & Hq); apply (Hp q Hq). }
  assert (Hn : nmax_of L pts = (Int_part (M / ap) + 1)%Z) by reflexivity.
  destruct (index_reach args L p n1 n2 R0 HL Hi (Hs _ _ H) H0) as (B1 & B2).
  assert (B : forall n v, v = lt_b1 L \/ v = lt_b2 L -> 2 * PI * Rabs (IZR n) <= (sqrt (nrm2 p) + R0) * sqrt (nrm2 v) -> (- nmax_of L pts <= n <= nmax_of L pts)%Z).
  { intros n v Hv Hb. destruct (Hreach v Hv) as (C1 & C2). pose proof (linear_between (len (X, Y)) M R0 (len v / (2 * PI)) (/ ap) MB C2 C1) as C.
    assert (Q : Rabs (IZR n) <= M / ap + 1).
    { eapply Rle_trans; [|exact C]. assert (LV : 0 <= len v) by apply sqrt_pos. change (sqrt (nrm2 v)) with (len v) in Hb.
      assert (2 * PI * Rabs (IZR n) <= (M + R0) * len v) by nra. apply (Rmult_le_reg_l (2 * PI)); [lra|].
      replace (2 * PI * ((M + R0) * (len v / (2 * PI)))) with ((M + R0) * len v) by (field; lra). exact H1. }
    pose proof (Int_part_le (M / ap)) as HI. rewrite Hn.
    assert (Hlt : IZR (Z.abs n) < IZR (Int_part (M / ap) + 2)). { rewrite plus_IZR, abs_IZR. lra. }
    apply lt_IZR in Hlt. lia. }
  split; [apply (B n1 (lt_b1 L)); auto|]. split; [apply (B n2 (lt_b2 L)); auto|exact H].
Qed.
Lemma reach_value ly pts vs j p v : (forall p, In p pts -> Rabs (fst p) <= X /\ Rabs (snd p) <= Y) ->
  (forall s, In s (ly_shapes ly) -> forall x y, sh_inside s x y = true -> Rsqr x + Rsqr y <= Rsqr R0) ->
  layer_get_eps L ly pts = Ok vs -> nth_error pts j = Some p -> nth_error vs j = Some v ->
  last_wins (fun s => covers_any L s p) (ly_epsb ly) (ly_shapes ly) v.
Proof.
  intros Hp Hs E Ep Ev. pose proof (layer_value L ly pts vs j p v E Ep Ev) as Hl. eapply last_wins_ext; [|exact Hl].
  intros s Hin. apply reach_covers; auto; [eapply nth_error_In; eauto|apply Hs; exact Hin].
Qed.
End Reach.
Lemma hex_value L ly pts vs j p v : lattice_init (LatName "hexagonal") = Ok L ->
  (forall p, In p pts -> Rabs (fst p) <= 15 / 8 /\ Rabs (snd p) <= 15 / 8) ->
  (forall s, In s (ly_shapes ly) -> forall x y, sh_inside s x y = true -> Rsqr x + Rsqr y <= Rsqr (1 / 2)) ->
  layer_get_eps L ly pts = Ok vs -> nth_error pts j = Some p -> nth_error vs j = Some v ->
  last_wins (fun s => covers_any L s p) (ly_epsb ly) (ly_shapes ly) v.
Proof.
  intros HL Hp Hs. assert (A1 : lt_a1 L = (1/2, sqrt 3 / 2)) by (injection HL as <-; reflexivity). assert (A2 : lt_a2 L = (1/2, - sqrt 3 / 2)) by (injection HL as <-; reflexivity).
  pose proof (sqrt_sqrt 3 ltac:(lra)) as S3. assert (P3 : 0 < sqrt 3) by (apply sqrt_lt_R0; lra). destruct (hex_b L HL) as (B1 & B2). pose proof PI_RGT_0 as HPI.
  assert (T1 : 1732 / 1000 <= sqrt 3) by (apply Rsqr_incr_0_var; [unfold Rsqr; lra|lra]).
  assert (Hi : independent (lt_a1 L) (lt_a2 L)) by (apply (named_independent _ L HL)).
  apply (reach_value _ L (15 / 8) (15 / 8) (1 / 2) HL Hi ltac:(lra) ltac:(lra) ltac:(lra)); auto.
  assert (LA : Rmin (sqrt (Rsqr (fst (lt_a1 L)) + Rsqr (snd (lt_a1 L)))) (sqrt (Rsqr (fst (lt_a2 L)) + Rsqr (snd (lt_a2 L)))) = 1).
  { rewrite A1, A2. cbn [fst snd]. unfold Rsqr. replace (1 / 2 * (1 / 2) + sqrt 3 / 2 * (sqrt 3 / 2)) with 1 by lra. replace (1 / 2 * (1 / 2) + - sqrt 3 / 2 * (- sqrt 3 / 2)) with 1 by lra.
    rewrite sqrt_1. apply Rmin_left. lra. }
  rewrite LA. set (B := sqrt (Rsqr (fst (15 / 8, 15 / 8)) + Rsqr (snd (15 / 8, 15 / 8)))).
  assert (HB : 0 <= B <= 266 / 100). { split; [apply sqrt_pos|]. rewrite <- (sqrt_Rsqr (266 / 100)) by lra. apply sqrt_le_1_alt. unfold Rsqr. cbn [fst snd]. lra. }
  intros w Hw. assert (LB : sqrt (Rsqr (fst w) + Rsqr (snd w)) / (2 * PI) = 2 / sqrt 3).
  { assert (E : Rsqr (fst w) + Rsqr (snd w) = Rsqr (2 * PI * (2 / sqrt 3))).
    { assert (F : Rsqr (2 * PI) + Rsqr (2 * PI / sqrt 3) = Rsqr (2 * PI * (2 / sqrt 3))).
      { unfold Rsqr. replace (2 * PI / sqrt 3 * (2 * PI / sqrt 3)) with (4 * PI * PI / (sqrt 3 * sqrt 3)) by (field; lra).
        replace (2 * PI * (2 / sqrt 3) * (2 * PI * (2 / sqrt 3))) with (16 * PI * PI / (sqrt 3 * sqrt 3)) by (field; lra). rewrite S3. field. }
      destruct Hw as [Hw|Hw]; subst w; rewrite ?B1, ?B2; cbn [fst snd]; rewrite <- ?Rsqr_neg; exact F. }
    rewrite E, sqrt_Rsqr. - field. split; lra. - apply Rmult_le_pos; [lra|]. apply Rmult_le_pos; [lra|]. left. apply Rinv_0_lt_compat. exact P3. }
  rewrite LB. assert (U : 0 <= 2 / sqrt 3 <= 1155 / 1000).
  { split; [apply Rmult_le_pos; [lra|left; apply Rinv_0_lt_compat; exact P3]|]. apply (Rmult_le_reg_r (sqrt 3)); [exact P3|]. replace (2 / sqrt 3 * sqrt 3) with 2 by (field; lra). lra. }
  set (u := 2 / sqrt 3) in *. clearbody u B. split; nra.
Qed.
