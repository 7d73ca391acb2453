(** Proofs about the lattice model. *)
From Verif Require Import Py LatticeModel LatticeSpec.
Require Import Lra Psatz.
Open Scope R_scope.

Lemma parse_vecs a1 a2 : exists ty, parse_input (LatVecs a1 a2) =
   Ok (ty, (fst a1, snd a1, 0), (fst a2, snd a2, 0)) /\
   (ty = LRectangular /\ inner a1 a2 = 0 \/ ty = LCustom /\ inner a1 a2 <> 0).
Proof.
  destruct a1 as [x1 y1], a2 as [x2 y2]; unfold parse_input, dot3, inner; simpl.
  destruct (Reqb (x1 * x2 + y1 * y2 + 0 * 0) 0) eqn:E.
  - apply Reqb_true in E. eexists; split; [reflexivity|]. left; split; auto; lra.
  - apply Reqb_false in E. eexists; split; [reflexivity|]. right; split; auto.
    intros H; apply E; lra.
Qed.

(** every successful construction comes from explicit a1, a2 by one formula *)
Lemma init_shape args L : lattice_init args = Ok L ->
    lt_b1 L = (2*PI*snd (lt_a2 L) / det (lt_a1 L) (lt_a2 L),
               - (2*PI*fst (lt_a2 L)) / det (lt_a1 L) (lt_a2 L)) /\
    lt_b2 L = (- (2*PI*snd (lt_a1 L)) / det (lt_a1 L) (lt_a2 L),
               2*PI*fst (lt_a1 L) / det (lt_a1 L) (lt_a2 L)) /\
    lt_ec_area L = Rabs (det (lt_a1 L) (lt_a2 L)) /\
    lt_bz_area L = Rabs (det (lt_b1 L) (lt_b2 L)).
Proof.
  unfold lattice_init. intros H.
  destruct (parse_input args) as [[[ty a1] a2]|e] eqn:Hp; simpl in H; [|discriminate].
  assert (exists x1 y1 x2 y2, a1 = (x1,y1,0) /\ a2 = (x2,y2,0)) as (x1&y1&x2&y2&->&->).
  { destruct args as [s|[u1 u2] [v1 v2]|]; simpl in Hp; try discriminate.
    - destruct (String.eqb s "square"); [inversion Hp; repeat eexists|].
      destruct (String.eqb s "hexagonal"); [inversion Hp; repeat eexists|discriminate].
    - destruct (Reqb _ _); inversion Hp; repeat eexists. }
  inversion H; subst; clear H. simpl.
  assert (E1 : x1*(y2*1-0*0) + y1*(0*0-x2*1) + 0*(x2*0-y2*0) = x1*y2-y1*x2) by ring.
  assert (E2 : x2*(0*0-1*y1) + y2*(1*x1-0*0) + 0*(0*y1-0*x1) = x1*y2-y1*x2) by ring.
  rewrite E1, E2. unfold det; simpl.
  repeat split.
  - f_equal; unfold Rdiv; ring.
  - f_equal; unfold Rdiv; ring.
  - unfold norm3; simpl. rewrite <- sqrt_Rsqr_abs. f_equal. unfold Rsqr. ring.
  - unfold norm3; simpl. rewrite <- sqrt_Rsqr_abs. f_equal. unfold Rsqr, Rdiv. ring.
Qed.

Lemma init_named s L : lattice_init (LatName s) = Ok L ->
  (s = "square"%string /\ lt_type L = LSquare /\ lt_a1 L = (1,0) /\ lt_a2 L = (0,1)) \/
  (s = "hexagonal"%string /\ lt_type L = LHexagonal /\
     lt_a1 L = (1/2, sqrt 3/2) /\ lt_a2 L = (1/2, - sqrt 3/2)).
Proof.
  unfold lattice_init, parse_input.
  destruct (String.eqb_spec s "square"); [intros H; inversion H; left; auto|].
  destruct (String.eqb_spec s "hexagonal"); [intros H; inversion H; right; auto|].
  intros H; discriminate.
Qed.

Lemma init_vecs a1 a2 : exists L, lattice_init (LatVecs a1 a2) = Ok L /\
  lt_a1 L = a1 /\ lt_a2 L = a2 /\
  (lt_type L = LRectangular /\ inner a1 a2 = 0 \/ lt_type L = LCustom /\ inner a1 a2 <> 0).
Proof.
  destruct (parse_vecs a1 a2) as (ty & Hp & Hty).
  unfold lattice_init. rewrite Hp. simpl.
  eexists; split; [reflexivity|]. simpl.
  destruct a1, a2; simpl; repeat split; tauto.
Qed.

Lemma init_vecs_type a1 a2 L : lattice_init (LatVecs a1 a2) = Ok L ->
  lt_a1 L = a1 /\ lt_a2 L = a2 /\
  (lt_type L = LRectangular /\ inner a1 a2 = 0 \/ lt_type L = LCustom /\ inner a1 a2 <> 0).
Proof.
  destruct (init_vecs a1 a2) as (L' & H & H'). intros H0; rewrite H in H0.
  inversion H0; subst; auto.
Qed.

Lemma init_kind args L : lattice_init args = Ok L ->
  (exists s, args = LatName s) \/ (exists u v, args = LatVecs u v).
Proof. destruct args; intros H; eauto. discriminate. Qed.

Lemma sqrt3_sq : sqrt 3 * sqrt 3 = 3.
Proof. apply sqrt_sqrt; lra. Qed.
Lemma sqrt3_pos : 0 < sqrt 3.
Proof. apply sqrt_lt_R0; lra. Qed.

Lemma named_independent s L : lattice_init (LatName s) = Ok L ->
  independent (lt_a1 L) (lt_a2 L).
Proof.
  intros H; destruct (init_named _ _ H) as [(_&_&->&->)|(_&_&->&->)];
    unfold independent, det; simpl; pose proof sqrt3_pos; lra.
Qed.

(** ** C01 *)
Lemma duality args L : lattice_init args = Ok L -> independent (lt_a1 L) (lt_a2 L) ->
  inner (lt_b1 L) (lt_a1 L) = 2 * PI /\ inner (lt_b2 L) (lt_a2 L) = 2 * PI /\
  inner (lt_b1 L) (lt_a2 L) = 0 /\ inner (lt_b2 L) (lt_a1 L) = 0.
Proof.
  intros H Hi. destruct (init_shape _ _ H) as (Hb1 & Hb2 & _).
  rewrite Hb1, Hb2. destruct (lt_a1 L) as [x1 y1], (lt_a2 L) as [x2 y2].
  unfold independent, det, inner in *; simpl in *.
  repeat split; field; auto.
Qed.

Lemma dual_unique a1 a2 b1 b2 c1 c2 : independent a1 a2 ->
  inner b1 a1 = inner c1 a1 -> inner b1 a2 = inner c1 a2 ->
  inner b2 a1 = inner c2 a1 -> inner b2 a2 = inner c2 a2 -> b1 = c1 /\ b2 = c2.
Proof.
  assert (forall b c, independent a1 a2 -> inner b a1 = inner c a1 ->
     inner b a2 = inner c a2 -> b = c).
  { intros [bx by_] [cx cy] Hi H1 H2. destruct a1 as [x1 y1], a2 as [x2 y2].
    unfold independent, det, inner in *; simpl in *.
    assert ((bx-cx) * (x1*y2-y1*x2) = 0).
    { replace ((bx-cx) * (x1*y2-y1*x2)) with
        ((bx*x1+by_*y1 - (cx*x1+cy*y1))*y2 - (bx*x2+by_*y2-(cx*x2+cy*y2))*y1) by ring.
      rewrite H1, H2; ring. }
    assert ((by_-cy) * (x1*y2-y1*x2) = 0).
    { replace ((by_-cy) * (x1*y2-y1*x2)) with
        ((bx*x2+by_*y2 - (cx*x2+cy*y2))*x1 - (bx*x1+by_*y1-(cx*x1+cy*y1))*x2) by ring.
      rewrite H1, H2; ring. }
    apply Rmult_integral in H. apply Rmult_integral in H0.
    destruct H; [|contradiction]. destruct H0; [|contradiction].
    f_equal; lra. }
  intros; split; apply H; auto.
Qed.

Lemma inner_comb_r g m n u v : inner g (comb m n u v) = IZR m * inner g u + IZR n * inner g v.
Proof. unfold inner, comb; simpl; ring. Qed.
Lemma inner_comb_l g m n u v : inner (comb m n u v) g = IZR m * inner u g + IZR n * inner v g.
Proof. unfold inner, comb; simpl; ring. Qed.

Lemma in_lattice_l u v : in_lattice u v u.
Proof. exists 1%Z, 0%Z. unfold comb; destruct u; simpl; f_equal; ring. Qed.
Lemma in_lattice_r u v : in_lattice u v v.
Proof. exists 0%Z, 1%Z. unfold comb; destruct v; simpl; f_equal; ring. Qed.

Lemma reciprocal_exact args L : lattice_init args = Ok L ->
  independent (lt_a1 L) (lt_a2 L) ->
  forall g, reciprocal_to (lt_a1 L) (lt_a2 L) g <-> in_lattice (lt_b1 L) (lt_b2 L) g.
Proof.
  intros H Hi g. destruct (duality _ _ H Hi) as (D1 & D2 & D3 & D4). split.
  - intros Hr.
    destruct (Hr _ (in_lattice_l _ _)) as [m Hm].
    destruct (Hr _ (in_lattice_r _ _)) as [n Hn].
    exists m, n.
    apply (dual_unique (lt_a1 L) (lt_a2 L) g g (comb m n (lt_b1 L) (lt_b2 L)) (comb m n (lt_b1 L) (lt_b2 L)) Hi);
      rewrite inner_comb_l, ?D1, ?D2, ?D3, ?D4, ?Hm, ?Hn; ring.
  - intros (m & n & ->) r (p & q & ->).
    exists (m * p + n * q)%Z.
    rewrite inner_comb_r, !inner_comb_l, D1, D2, D3, D4.
    rewrite plus_IZR, !mult_IZR; ring.
Qed.

(** ** C02 *)
Lemma areas args L : lattice_init args = Ok L -> independent (lt_a1 L) (lt_a2 L) ->
  lt_ec_area L = Rabs (det (lt_a1 L) (lt_a2 L)) /\ 0 < lt_ec_area L /\
  lt_ec_area L * lt_bz_area L = (2 * PI) * (2 * PI).
Proof.
  intros H Hi. destruct (init_shape _ _ H) as (Hb1 & Hb2 & He & Hz).
  split; [exact He|]. split.
  - rewrite He. apply Rabs_pos_lt; exact Hi.
  - rewrite Hz, He, <- Rabs_mult.
    replace (det (lt_a1 L) (lt_a2 L) * det (lt_b1 L) (lt_b2 L)) with ((2*PI)*(2*PI)).
    + apply Rabs_pos_eq. pose proof PI_RGT_0. nra.
    + rewrite Hb1, Hb2. destruct (lt_a1 L) as [x1 y1], (lt_a2 L) as [x2 y2].
      unfold independent, det in *; simpl in *. field; auto.
Qed.

Lemma area_basis_change args args' L L' p q r s :
  lattice_init args = Ok L -> lattice_init args' = Ok L' ->
  (p * s - q * r = 1 \/ p * s - q * r = -1)%Z ->
  lt_a1 L' = comb p q (lt_a1 L) (lt_a2 L) -> lt_a2 L' = comb r s (lt_a1 L) (lt_a2 L) ->
  independent (lt_a1 L) (lt_a2 L) ->
  lt_ec_area L' = lt_ec_area L /\ lt_bz_area L' = lt_bz_area L.
Proof.
  intros H H' Hd E1 E2 Hi.
  assert (Hdet : det (lt_a1 L') (lt_a2 L') = IZR (p*s-q*r) * det (lt_a1 L) (lt_a2 L)).
  { rewrite E1, E2, minus_IZR, !mult_IZR. unfold det, comb; simpl; ring. }
  assert (HA : lt_ec_area L' = lt_ec_area L).
  { destruct (init_shape _ _ H) as (_&_&He&_). destruct (init_shape _ _ H') as (_&_&He'&_).
    rewrite He, He', Hdet, Rabs_mult.
    destruct Hd as [-> | ->]; rewrite ?Rabs_R1; [ring|].
    replace (IZR (-1)) with (-(1)) by reflexivity. rewrite Rabs_Ropp, Rabs_R1; ring. }
  split; auto.
  assert (Hi' : independent (lt_a1 L') (lt_a2 L')).
  { unfold independent; rewrite Hdet. intros E. apply Rmult_integral in E.
    destruct E as [E|E]; [|contradiction].
    destruct Hd as [Hd|Hd]; rewrite Hd in E; lra. }
  destruct (areas _ _ H Hi) as (_ & P1 & Q1). destruct (areas _ _ H' Hi') as (_ & P2 & Q2).
  rewrite HA in Q2. apply (Rmult_eq_reg_l (lt_ec_area L)); lra.
Qed.

(** ** C03 *)
Lemma square_b L : lattice_init (LatName "square") = Ok L ->
  lt_b1 L = (2*PI, 0) /\ lt_b2 L = (0, 2*PI).
Proof.
  intros H. destruct (init_shape _ _ H) as (Hb1 & Hb2 & _).
  destruct (init_named _ _ H) as [(_&_&Ea&Eb)|(E&_)]; [|discriminate].
  rewrite Hb1, Hb2, Ea, Eb; unfold det; simpl. split; f_equal; field.
Qed.

Lemma hex_b L : lattice_init (LatName "hexagonal") = Ok L ->
  lt_b1 L = (2*PI, 2*PI/sqrt 3) /\ lt_b2 L = (2*PI, - (2*PI/sqrt 3)).
Proof.
  intros H. destruct (init_shape _ _ H) as (Hb1 & Hb2 & _).
  destruct (init_named _ _ H) as [(E&_)|(_&_&Ea&Eb)]; [discriminate|].
  rewrite Hb1, Hb2, Ea, Eb; unfold det; simpl.
  assert (sqrt 3 <> 0) by (pose proof sqrt3_pos; lra).
  split; f_equal; field; repeat split; auto; lra.
Qed.

Lemma inv_sqrt3 : / sqrt 3 * / sqrt 3 = 1/3.
Proof. rewrite <- Rinv_mult, sqrt3_sq; lra. Qed.

Lemma Zsq_ge (m : Z) : (m <= m * m)%Z. Proof. nia. Qed.

Lemma zone_ineq_IZR (t s : Z) : (t <= s)%Z -> IZR t <= IZR s.
Proof. apply IZR_le. Qed.

Lemma square_zone (x y : R) b1 b2 : b1 = (2*PI,0) -> b2 = (0,2*PI) ->
  (x = 0 \/ x = PI) -> (y = 0 \/ y = PI) -> in_first_zone b1 b2 (x, y).
Proof.
  intros -> -> Hx Hy g (m & n & ->). unfold dist2, comb, Rsqr; simpl.
  assert (Hm : IZR m <= IZR m * IZR m).
  { rewrite <- mult_IZR. apply IZR_le. nia. }
  assert (Hn : IZR n <= IZR n * IZR n).
  { rewrite <- mult_IZR. apply IZR_le. nia. }
  assert (0 <= IZR m * IZR m) by nra. assert (0 <= IZR n * IZR n) by nra.
  pose proof PI_RGT_0.
  assert (0 < PI * PI) by nra.
  assert (A : forall t k, 0 <= k*k -> k <= k*k -> (t = 0 \/ t = PI) ->
     (t-0)*(t-0) <= (t-2*PI*k)*(t-2*PI*k)).
  { intros t k Hk0 Hk [-> | ->]; [nra|].
    assert (0 <= 4*(PI*PI)*(k*k-k)) by nra. nra. }
  pose proof (A x (IZR m) H Hm Hx). pose proof (A y (IZR n) H0 Hn Hy).
  replace (IZR m * (2*PI) + IZR n * 0) with (2*PI*IZR m) by ring.
  replace (IZR m * 0 + IZR n * (2*PI)) with (2*PI*IZR n) by ring. lra.
Qed.

Lemma hex_zone (al be : R) b1 b2 :
  b1 = (2*PI, 2*PI/sqrt 3) -> b2 = (2*PI, - (2*PI/sqrt 3)) ->
  (* al, be: coefficients of the point in the basis b1, b2 *)
  (forall m n : Z, (IZR m * (2 * al + be) + IZR n * (al + 2 * be))
      <= IZR (m*m + n*n + m*n)) ->
  in_first_zone b1 b2 (al * fst b1 + be * fst b2, al * snd b1 + be * snd b2).
Proof.
  intros -> -> Hb g (m & n & ->). specialize (Hb m n).
  unfold dist2, comb, Rsqr; simpl. unfold Rdiv.
  set (w := / sqrt 3). assert (Hw : w * w = 1/3) by apply inv_sqrt3.
  rewrite plus_IZR, plus_IZR, !mult_IZR in Hb.
  set (M := IZR m) in *. set (N := IZR n) in *.
  pose proof PI_RGT_0.
  assert (P : 0 < PI*PI) by nra.
  apply Rminus_le.
  match goal with |- ?a - ?b <= 0 =>
    replace (a - b) with
     ((PI*PI) * (16/3) * ((M * (2 * al + be) + N * (al + 2 * be)) - (M*M + N*N + M*N))
      + (w*w - 1/3) * (4*PI*PI) * ( (al-be)*(al-be) - ((al-M) - (be-N))*((al-M)-(be-N))))
     by field
  end.
  rewrite Hw. nra.
Qed.

Definition K_point : pt := (4/3*PI, 0).

Lemma K_coeffs b1 b2 : b1 = (2*PI, 2*PI/sqrt 3) -> b2 = (2*PI, - (2*PI/sqrt 3)) ->
  (4/3*PI, 0) = (1/3 * fst b1 + 1/3 * fst b2, 1/3 * snd b1 + 1/3 * snd b2).
Proof. intros -> ->; simpl; f_equal; lra. Qed.
Lemma M_coeffs b1 b2 : b1 = (2*PI, 2*PI/sqrt 3) -> b2 = (2*PI, - (2*PI/sqrt 3)) ->
  (PI, PI/sqrt 3) = (1/2 * fst b1 + 0 * fst b2, 1/2 * snd b1 + 0 * snd b2).
Proof. intros -> ->; simpl. f_equal; field. pose proof sqrt3_pos; lra. Qed.

Lemma face_sym b1 p : p = (1/2 * fst b1, 1/2 * snd b1) -> on_face p b1.
Proof. intros ->; destruct b1; unfold on_face, dist2, Rsqr; simpl; field. Qed.

Lemma in_lattice_pos b1 b2 : in_lattice b1 b2 b1 /\ in_lattice b1 b2 b2.
Proof. split; [apply in_lattice_l | apply in_lattice_r]. Qed.

Lemma K_face b1 b2 : b1 = (2*PI, 2*PI/sqrt 3) -> b2 = (2*PI, - (2*PI/sqrt 3)) ->
  on_face (4/3*PI,0) b1 /\ on_face (4/3*PI,0) b2.
Proof.
  intros -> ->; unfold on_face, dist2, Rsqr, Rdiv; simpl.
  pose proof inv_sqrt3 as Hw. set (w := / sqrt 3) in *.
  split.
  - replace ((4 * / 3 * PI - 2 * PI) * (4 * / 3 * PI - 2 * PI) + (0 - 2 * PI * w) * (0 - 2 * PI * w))
      with (4/9*PI*PI + 4*PI*PI*(w*w)) by field.
    rewrite Hw; field.
  - replace ((4 * / 3 * PI - 2 * PI) * (4 * / 3 * PI - 2 * PI) + (0 - - (2 * PI * w)) * (0 - - (2 * PI * w)))
      with (4/9*PI*PI + 4*PI*PI*(w*w)) by field.
    rewrite Hw; field.
Qed.

Lemma square_points L : lattice_init (LatName "square") = Ok L ->
  forall s, 
   (lower s = "x"%string -> parse_point L (PtStr s) = Ok (1/2 * fst (lt_b1 L), 1/2 * snd (lt_b1 L))) /\
   (lower s = "m"%string -> parse_point L (PtStr s) =
       Ok (1/2 * (fst (lt_b1 L) + fst (lt_b2 L)), 1/2 * (snd (lt_b1 L) + snd (lt_b2 L)))) /\
   (lower s = "k"%string -> parse_point L (PtStr s) = Raise ValueError).
Proof.
  intros H s. destruct (square_b _ H) as (-> & ->).
  destruct (init_named _ _ H) as [(_&Ht&_)|(E&_)]; [|discriminate].
  unfold parse_point; rewrite Ht.
  repeat split; intros ->; simpl; try reflexivity; do 2 f_equal; field.
Qed.

Lemma hex_points L : lattice_init (LatName "hexagonal") = Ok L ->
  forall s,
   (lower s = "m"%string -> parse_point L (PtStr s) = Ok (1/2 * fst (lt_b1 L), 1/2 * snd (lt_b1 L))) /\
   (lower s = "k"%string -> parse_point L (PtStr s) =
       Ok (1/3 * (fst (lt_b1 L) + fst (lt_b2 L)), 1/3 * (snd (lt_b1 L) + snd (lt_b2 L)))) /\
   (lower s = "x"%string -> parse_point L (PtStr s) = Raise ValueError).
Proof.
  intros H s. destruct (hex_b _ H) as (-> & ->).
  destruct (init_named _ _ H) as [(E&_)|(_&Ht&_)]; [discriminate|].
  assert (sqrt 3 <> 0) by (pose proof sqrt3_pos; lra).
  unfold parse_point; rewrite Ht.
  repeat split; intros ->; simpl; try reflexivity; do 2 f_equal; field; auto.
Qed.

Lemma square_points_zone L p : lattice_init (LatName "square") = Ok L ->
  (exists s, (lower s = "x" \/ lower s = "m")%string /\ parse_point L (PtStr s) = Ok p) ->
  in_first_zone (lt_b1 L) (lt_b2 L) p /\ on_face p (lt_b1 L).
Proof.
  intros H (s & Hs & Hp). destruct (square_b _ H) as (Eb1 & Eb2).
  destruct (square_points _ H s) as (Hx & Hm & _).
  destruct Hs as [Hs|Hs]; [rewrite (Hx Hs) in Hp|rewrite (Hm Hs) in Hp];
    rewrite Eb1, ?Eb2 in Hp; inversion Hp; subst; clear Hp; split;
    try (apply square_zone; simpl; auto; [right; lra| try (left; lra); right; lra]);
    rewrite Eb1; unfold on_face, dist2, Rsqr; simpl; field.
Qed.

Lemma hex_points_zone L : lattice_init (LatName "hexagonal") = Ok L ->
  (forall s p, lower s = "m"%string -> parse_point L (PtStr s) = Ok p ->
     in_first_zone (lt_b1 L) (lt_b2 L) p /\ on_face p (lt_b1 L)) /\
  (forall s p, lower s = "k"%string -> parse_point L (PtStr s) = Ok p ->
     in_first_zone (lt_b1 L) (lt_b2 L) p /\ on_face p (lt_b1 L) /\ on_face p (lt_b2 L)).
Proof.
  intros H. destruct (hex_b _ H) as (Eb1 & Eb2).
  destruct (init_named _ _ H) as [(E&_)|(_&Ht&_)]; [discriminate|].
  split; intros s p Hs Hp; unfold parse_point in Hp; rewrite Ht, Hs in Hp; simpl in Hp;
    inversion Hp; subst; clear Hp.
  - split.
    + rewrite (M_coeffs _ _ Eb1 Eb2). apply hex_zone; auto.
      intros m n. replace (IZR m * (2 * (1/2) + 0) + IZR n * (1/2 + 2*0)) with
        (IZR (2*m+n) / 2) by (rewrite plus_IZR, mult_IZR; field).
      assert (IZR (2*m+n) <= IZR (2*(m*m+n*n+m*n))) by (apply IZR_le; pose proof (Zsq_ge m); pose proof (Zsq_ge (m+n)); pose proof (Z.square_nonneg n); lia).
      rewrite mult_IZR in H0. lra.
    + apply face_sym. rewrite Eb1; simpl. f_equal; field. pose proof sqrt3_pos; lra.
  - split.
    + rewrite (K_coeffs _ _ Eb1 Eb2). apply hex_zone; auto.
      intros m n. replace (IZR m * (2 * (1/3) + 1/3) + IZR n * (1/3 + 2*(1/3))) with
        (IZR (m+n)) by (rewrite plus_IZR; field).
      apply IZR_le. assert (0 <= (m*m - m) + (n*n - n) + m*n)%Z; [|lia].
      pose proof (Zsq_ge m); pose proof (Zsq_ge n); pose proof (Zsq_ge (m+n)).
      destruct (Z_le_gt_dec 0 (m*n)); [lia|]. nia.
    + rewrite Eb1, Eb2. apply K_face; auto.
Qed.

Lemma parse_point_reject L s :
  let s' := lower s in
  (s' <> "g" /\ s' <> "gamma" /\ s' <> "x" /\ s' <> "m" /\ s' <> "k")%string ->
  parse_point L (PtStr s) = Raise ValueError.
Proof.
  simpl. intros (H1&H2&H3&H4&H5). unfold parse_point.
  repeat match goal with |- context[String.eqb ?a ?b] =>
    destruct (String.eqb_spec a b); [contradiction|] end. reflexivity.
Qed.

Lemma parse_point_explicit a1 a2 L s : lattice_init (LatVecs a1 a2) = Ok L ->
  (lower s = "x" \/ lower s = "m" \/ lower s = "k")%string ->
  parse_point L (PtStr s) = Raise ValueError.
Proof.
  intros H Hs. destruct (init_vecs_type _ _ _ H) as (_&_&[(Ht&_)|(Ht&_)]);
  unfold parse_point; rewrite Ht; destruct Hs as [->|[->| ->]]; reflexivity.
Qed.

(** ** C04 *)
Lemma segment_length p q n : List.length (segment p q n) = n.
Proof. unfold segment; rewrite map_length, seq_length; reflexivity. Qed.

Lemma segment_nth p q n j : (j < n)%nat ->
  nth_error (segment p q n) j = Some (vadd p (vscale (INR j / INR n) (vsub q p))).
Proof.
  intros H. unfold segment. rewrite nth_error_map.
  rewrite (nth_error_nth' _ 0%nat) by (rewrite seq_length; auto).
  rewrite seq_nth by auto. reflexivity.
Qed.

Lemma path_points_length ps ns : List.length ps = S (List.length ns) ->
  List.length (path_points ps ns) = (sum_nat ns + 1)%nat.
Proof.
  revert ps; induction ns as [|n ns IH]; intros ps H.
  - destruct ps as [|p [|q ps]]; simpl in H; try lia. reflexivity.
  - destruct ps as [|p [|q ps]]; simpl in H; try lia.
    change (path_points (p::q::ps) (n::ns)) with (segment p q n ++ path_points (q::ps) ns).
    rewrite app_length, segment_length, IH by (simpl; lia). simpl; lia.
Qed.

Lemma path_inds_length c ns : List.length (path_inds c ns) = S (List.length ns).
Proof. revert c; induction ns; intros; simpl; auto. Qed.

Lemma path_inds_nth c ns i : (i <= List.length ns)%nat ->
  nth_error (path_inds c ns) i = Some (c + sum_nat (firstn i ns))%nat.
Proof.
  revert c i; induction ns as [|n ns IH]; intros c i H; destruct i; simpl in *; try lia.
  - f_equal; lia.
  - f_equal; lia.
  - rewrite IH by lia. f_equal; lia.
Qed.

Lemma path_points_seg ps ns i j p q n : List.length ps = S (List.length ns) ->
  nth_error ps i = Some p -> nth_error ps (S i) = Some q -> nth_error ns i = Some n ->
  (j < n)%nat ->
  nth_error (path_points ps ns) (sum_nat (firstn i ns) + j) =
    Some (vadd p (vscale (INR j / INR n) (vsub q p))).
Proof.
  revert ps i; induction ns as [|m ns IH]; intros ps i Hl Hp Hq Hn Hj.
  - destruct i; discriminate.
  - destruct ps as [|p0 [|q0 ps]]; simpl in Hl; try lia.
    change (path_points (p0::q0::ps) (m::ns)) with (segment p0 q0 m ++ path_points (q0::ps) ns).
    destruct i as [|i]; simpl in Hp, Hq, Hn.
    + inversion Hp; inversion Hq; inversion Hn; subst. cbn [firstn sum_nat plus].
      rewrite nth_error_app1 by (rewrite segment_length; auto). apply segment_nth; auto.
    + rewrite nth_error_app2 by (rewrite segment_length; simpl; lia).
      rewrite segment_length. simpl firstn. simpl sum_nat.
      replace (m + sum_nat (firstn i ns) + j - m)%nat with (sum_nat (firstn i ns) + j)%nat by lia.
      apply IH; auto.
Qed.

Lemma vadd_zero p q c : c = 0 -> vadd p (vscale c (vsub q p)) = p.
Proof. intros ->; destruct p, q; unfold vadd, vscale, vsub; simpl; f_equal; ring. Qed.

Lemma path_points_at ps ns i p : List.length ps = S (List.length ns) ->
  Forall (fun n => (0 < n)%nat) ns -> nth_error ps i = Some p ->
  nth_error (path_points ps ns) (sum_nat (firstn i ns)) = Some p.
Proof.
  revert ps i; induction ns as [|m ns IH]; intros ps i Hl Hpos Hp.
  - destruct ps as [|p0 [|q0 ps]]; simpl in Hl; try lia.
    destruct i as [|[|i]]; simpl in Hp; try discriminate. exact Hp.
  - destruct ps as [|p0 [|q0 ps]]; simpl in Hl; try lia. inversion Hpos; subst.
    change (path_points (p0::q0::ps) (m::ns)) with (segment p0 q0 m ++ path_points (q0::ps) ns).
    destruct i as [|i]; simpl in Hp.
    + inversion Hp; subst. cbn [firstn sum_nat]. rewrite nth_error_app1 by (rewrite segment_length; auto).
      rewrite segment_nth by auto. simpl. rewrite vadd_zero; auto. unfold Rdiv; ring.
    + simpl firstn. simpl sum_nat. rewrite nth_error_app2 by (rewrite segment_length; lia).
      rewrite segment_length.
      replace (m + sum_nat (firstn i ns) - m)%nat with (sum_nat (firstn i ns)) by lia.
      apply IH; auto.
Qed.

Lemma parse_ns_ok npts l nl : parse_ns npts (NsList l) = Ok nl ->
  nl = counts_for npts l /\ (2 <= npts)%nat /\ List.length nl = (npts - 1)%nat /\
  (List.length l = 1 \/ List.length l = npts - 1)%nat.
Proof.
  unfold parse_ns. destruct (npts <? 2)%nat eqn:E; [discriminate|].
  apply Nat.ltb_ge in E.
  destruct (List.length l =? 1)%nat eqn:E1.
  - apply Nat.eqb_eq in E1. destruct l as [|n [|]]; simpl in E1; try lia.
    intros H; inversion H; subst. simpl. rewrite repeat_length. auto.
  - apply Nat.eqb_neq in E1.
    destruct (List.length l =? npts - 1)%nat eqn:E2; [|discriminate].
    apply Nat.eqb_eq in E2. intros H; inversion H; subst.
    repeat split; auto. unfold counts_for. destruct nl as [|n [|]]; auto. simpl in E1; lia.
Qed.

Lemma parse_ns_raise npts l : 
  (exists nl, parse_ns npts (NsList l) = Ok nl) \/ 
  (parse_ns npts (NsList l) = Raise ValueError /\
    ((npts < 2)%nat \/ (List.length l <> 1 /\ List.length l <> npts - 1)%nat)).
Proof.
  unfold parse_ns. destruct (npts <? 2)%nat eqn:E; [right; apply Nat.ltb_lt in E; auto|].
  destruct (List.length l =? 1)%nat eqn:E1; [left; eauto|].
  destruct (List.length l =? npts - 1)%nat eqn:E2; [left; eauto|].
  right. apply Nat.eqb_neq in E1; apply Nat.eqb_neq in E2; auto.
Qed.

Lemma parse_point_dichotomy L p : (exists v, parse_point L p = Ok v) \/ parse_point L p = Raise ValueError.
Proof.
  destruct p; simpl; eauto.
  repeat match goal with |- context[if ?b then _ else _] => destruct b end;
  destruct (lt_type L); eauto.
Qed.

Lemma bz_path_raises ang L pts l symm :
  ((exists out, bz_path ang L pts (NsList l) symm = Ok out) \/
   bz_path ang L pts (NsList l) symm = Raise ValueError) /\
  (bz_path ang L pts (NsList l) symm = Raise ValueError <->
   ((List.length pts < 2)%nat \/ (List.length l <> 1 /\ List.length l <> List.length pts - 1)%nat
    \/ (exists p, In p pts /\ parse_point L p = Raise ValueError)
    \/ parse_point L symm = Raise ValueError)).
Proof.
  unfold bz_path.
  destruct (parse_ns_raise (List.length pts) l) as [[nl Hn]|[Hn Hc]]; rewrite Hn; simpl.
  - destruct (parse_ns_ok _ _ _ Hn) as (_ & H2 & _ & Hl).
    destruct (mapM (parse_point L) pts) as [ps|e] eqn:Hm; simpl.
    + assert (Hall : forall p, In p pts -> exists v, parse_point L p = Ok v).
      { intros p Hp. destruct (In_nth_error _ _ Hp) as [i Hi].
        destruct (mapM_ok_nth _ _ _ Hm i p Hi) as (y & Hy & _). eauto. }
      destruct (parse_point_dichotomy L symm) as [[v Hv]|Hv]; rewrite Hv; simpl.
      * split; [left; eauto|]. split; [discriminate|].
        intros [H|[[H H']|[(p&Hp&Hp')|H]]]; try lia; try discriminate.
        destruct (Hall p Hp) as [v' Hv']; congruence.
      * split; [auto|]. split; auto.
    + destruct (mapM_raise _ _ _ Hm) as (x & Hx & He).
      destruct (parse_point_dichotomy L x) as [[v Hv]|Hv]; [congruence|].
      rewrite Hv in He; inversion He; subst.
      split; auto. split; auto. intros _. right; right; left; eauto.
  - split; auto. split; auto. intros _. tauto.
Qed.

Lemma bz_path_ok ang L pts l symm out :
  bz_path ang L pts (NsList l) symm = Ok out ->
  exists ps g, mapM (parse_point L) pts = Ok ps /\ parse_point L symm = Ok g /\
    List.length ps = S (List.length (counts_for (List.length pts) l)) /\
    List.length ps = List.length pts /\
    out = mkPath (path_points ps (counts_for (List.length pts) l))
                 (path_inds 0 (counts_for (List.length pts) l))
                 (map (fun i => nth i (abscissa (path_points ps (counts_for (List.length pts) l))) 0)
                      (path_inds 0 (counts_for (List.length pts) l)))
                 (map (fun k => if Reqb (fst k) 0 && Reqb (snd k) 0
                            then ang (fst g) (snd g) else ang (fst k) (snd k))
                      (path_points ps (counts_for (List.length pts) l))).
Proof.
  unfold bz_path. intros H.
  apply bind_ok in H. destruct H as (nl & Hn & H).
  apply bind_ok in H. destruct H as (ps & Hps & H).
  apply bind_ok in H. destruct H as (g & Hg & H).
  destruct (parse_ns_ok _ _ _ Hn) as (-> & H2 & Hl & _).
  pose proof (mapM_ok_length _ _ _ Hps) as Hlen.
  exists ps, g. inversion H; subst. repeat split; auto. rewrite Hl, Hlen. lia.
Qed.

Lemma counts_pos npts l : Forall (fun n => (0 < n)%nat) l ->
  Forall (fun n => (0 < n)%nat) (counts_for npts l).
Proof.
  intros H. destruct l as [|n [|m l]]; simpl; auto.
  inversion H; subst. apply Forall_forall. intros x Hx. apply repeat_spec in Hx; subst; auto.
Qed.

Lemma sum_firstn_strict ns i : Forall (fun n => (0 < n)%nat) ns -> (i < List.length ns)%nat ->
  (sum_nat (firstn i ns) < sum_nat (firstn (S i) ns))%nat.
Proof.
  revert i; induction ns as [|n ns IH]; intros i Hp Hi; simpl in Hi; [lia|].
  inversion Hp; subst. destruct i; simpl; [lia|].
  specialize (IH i). simpl in IH. destruct ns; simpl in *; [lia|].
  apply Nat.add_lt_mono_l. apply IH; auto; lia.
Qed.

(** ** C05 *)
Lemma vnorm_scale c p : 0 <= c -> vnorm (vscale c p) = c * vnorm p.
Proof.
  intros Hc. unfold vnorm, vscale; simpl.
  replace (Rsqr (c * fst p) + Rsqr (c * snd p)) with (Rsqr c * (Rsqr (fst p) + Rsqr (snd p)))
    by (unfold Rsqr; ring).
  rewrite sqrt_mult; [|apply Rle_0_sqr|].
  - rewrite sqrt_Rsqr; auto.
  - pose proof (Rle_0_sqr (fst p)); pose proof (Rle_0_sqr (snd p)); lra.
Qed.

Lemma dist_vnorm p q : dist p q = vnorm (vsub q p).
Proof. unfold dist, dist2, vnorm, vsub; simpl. f_equal. unfold Rsqr; ring. Qed.

Lemma step_lengths_app l p r : 
  step_lengths (l ++ p :: r) = step_lengths (l ++ [p]) ++ step_lengths (p :: r).
Proof.
  induction l as [|a l IH]; [reflexivity|].
  destruct l as [|b l]; [reflexivity|].
  change ((a :: b :: l) ++ p :: r) with (a :: b :: (l ++ p :: r)).
  change ((a :: b :: l) ++ [p]) with (a :: b :: (l ++ [p])).
  cbn [step_lengths]. rewrite <- app_comm_cons. f_equal. exact IH.
Qed.

Lemma step_lengths_map_seq (f : nat -> vec2) a n :
  step_lengths (map f (seq a (S n))) = map (fun i => vnorm (vsub (f (S i)) (f i))) (seq a n).
Proof.
  revert a; induction n as [|n IH]; intros a; [reflexivity|].
  change (seq a (S (S n))) with (a :: S a :: seq (S (S a)) n).
  change (seq a (S n)) with (a :: seq (S a) n).
  cbn [map step_lengths]. f_equal. apply (IH (S a)).
Qed.

Lemma segment_snoc p q n : (0 < n)%nat ->
  segment p q n ++ [q] = map (fun i => vadd p (vscale (INR i / INR n) (vsub q p))) (seq 0 (S n)).
Proof.
  intros Hn. unfold segment. rewrite seq_S, map_app. simpl. f_equal. f_equal.
  assert (INR n <> 0) by (apply not_0_INR; lia).
  replace (INR n / INR n) with 1 by (field; auto).
  destruct p, q; unfold vadd, vscale, vsub; simpl; f_equal; ring.
Qed.

Lemma step_lengths_segment p q n : (0 < n)%nat ->
  step_lengths (segment p q n ++ [q]) = repeat (dist p q / INR n) n.
Proof.
  intros Hn. rewrite segment_snoc by auto. rewrite step_lengths_map_seq.
  assert (Hn0 : 0 < INR n) by (apply lt_0_INR; lia).
  assert (forall a k, map (fun i => vnorm (vsub (vadd p (vscale (INR (S i) / INR n) (vsub q p)))
      (vadd p (vscale (INR i / INR n) (vsub q p))))) (seq a k) = repeat (dist p q / INR n) k).
  { intros a k; revert a; induction k as [|k IH]; intros a; [reflexivity|].
    simpl seq. cbn [map repeat]. f_equal; [|apply IH].
    rewrite S_INR.
    replace (vsub _ _) with (vscale (/ INR n) (vsub q p)).
    - rewrite vnorm_scale, dist_vnorm by (left; apply Rinv_0_lt_compat; auto). unfold Rdiv; ring.
    - unfold vsub, vadd, vscale; simpl; f_equal; field; lra. }
  apply H.
Qed.

Lemma path_points_head ps ns : List.length ps = S (List.length ns) ->
  Forall (fun n => (0 < n)%nat) ns ->
  exists p r rest, ps = p :: r /\ path_points ps ns = p :: rest.
Proof.
  intros Hl Hp. destruct ps as [|p r]; simpl in Hl; [lia|].
  pose proof (path_points_at (p::r) ns 0 p Hl Hp eq_refl) as H.
  change (sum_nat (firstn 0 ns)) with 0%nat in H.
  destruct (path_points (p :: r) ns) as [|x rest] eqn:E.
  { discriminate. }
  exists p, r, rest. split; auto. 
  simpl in H. inversion H; subst; auto.
Qed.

Lemma step_lengths_path p q r n ns : List.length (q::r) = S (List.length ns) ->
  (0 < n)%nat -> Forall (fun n => (0 < n)%nat) ns ->
  step_lengths (path_points (p::q::r) (n::ns)) =
   repeat (dist p q / INR n) n ++ step_lengths (path_points (q::r) ns).
Proof.
  intros Hl Hn Hp.
  change (path_points (p::q::r) (n::ns)) with (segment p q n ++ path_points (q::r) ns).
  destruct (path_points_head (q::r) ns Hl Hp) as (q' & r' & rest & E1 & E2).
  inversion E1; subst q' r'. rewrite E2, step_lengths_app, step_lengths_segment; auto.
Qed.

Lemma rsuml_app l1 l2 : rsuml (l1 ++ l2) = rsuml l1 + rsuml l2.
Proof. induction l1; simpl; [ring|]. unfold rsuml in *; simpl. rewrite IHl1; ring. Qed.
Lemma rsuml_repeat x n : rsuml (repeat x n) = INR n * x.
Proof.
  induction n; [simpl; ring|]. rewrite S_INR. unfold rsuml in *; simpl. rewrite IHn. ring.
Qed.

(** sum of the first sum(ns[:i]) steps is the polyline length to point i *)
Lemma firstn_steps ps ns i : List.length ps = S (List.length ns) ->
  Forall (fun n => (0 < n)%nat) ns -> (i <= List.length ns)%nat ->
  rsuml (firstn (sum_nat (firstn i ns)) (step_lengths (path_points ps ns))) = polyline_length ps i.
Proof.
  revert ps i; induction ns as [|n ns IH]; intros ps i Hl Hp Hi.
  - destruct i; simpl in Hi; [|lia]. destruct ps; reflexivity.
  - destruct ps as [|p [|q r]]; simpl in Hl; try lia. inversion Hp; subst.
    destruct i as [|i]; [reflexivity|].
    assert (Hl' : List.length (q::r) = S (List.length ns)) by (simpl; lia).
    rewrite step_lengths_path by auto.
    cbn [firstn sum_nat polyline_length].
    rewrite firstn_app, repeat_length.
    replace (n + sum_nat (firstn i ns) - n)%nat with (sum_nat (firstn i ns)) by lia.
    rewrite firstn_all2 by (rewrite repeat_length; lia).
    rewrite rsuml_app, rsuml_repeat, IH; auto; [|simpl in Hi; lia].
    f_equal. field. apply not_0_INR; lia.
Qed.

Lemma step_lengths_length ks : List.length (step_lengths ks) = (List.length ks - 1)%nat.
Proof.
  induction ks as [|p ks IH]; [reflexivity|].
  destruct ks as [|q ks]; [reflexivity|]. simpl in *. rewrite IH. lia.
Qed.

Lemma step_total ps ns : List.length ps = S (List.length ns) ->
  Forall (fun n => (0 < n)%nat) ns ->
  rsuml (step_lengths (path_points ps ns)) = total_length ps.
Proof.
  intros Hl Hp. pose proof (firstn_steps ps ns (List.length ns) Hl Hp (le_n _)) as H.
  rewrite firstn_all, firstn_all2 in H.
  - rewrite H. unfold total_length. f_equal. lia.
  - rewrite step_lengths_length, path_points_length by auto. lia.
Qed.

Lemma cumsum_nth acc l i : (i < List.length l)%nat ->
  nth i (cumsum_from acc l) 0 = acc + rsuml (firstn (S i) l).
Proof.
  revert acc i; induction l as [|x l IH]; intros acc i H; simpl in H; [lia|].
  destruct i as [|i]; simpl.
  - unfold rsuml; simpl. ring.
  - rewrite IH by lia. change (firstn (S i) l) with (firstn (S i) l).
    unfold rsuml; simpl. destruct l; simpl; ring.
Qed.

Lemma rsuml_map_div l d : rsuml (map (fun x => x / d) l) = rsuml l / d.
Proof. induction l; simpl; unfold rsuml in *; simpl; [unfold Rdiv; ring|]. rewrite IHl; unfold Rdiv; ring. Qed.

Lemma abscissa_nth ks i : (i < List.length ks)%nat ->
  nth i (abscissa ks) 0 = rsuml (firstn i (step_lengths ks)) / rsuml (step_lengths ks).
Proof.
  intros Hi. unfold abscissa. destruct i as [|i].
  - simpl. unfold rsuml; simpl. unfold Rdiv; ring.
  - cbn [nth]. rewrite cumsum_nth.
    + rewrite firstn_map, rsuml_map_div. ring.
    + rewrite map_length, step_lengths_length. lia.
Qed.

Lemma dist_nonneg p q : 0 <= dist p q.
Proof. apply sqrt_pos. Qed.

Lemma polyline_S ps i : (S i < List.length ps)%nat ->
  exists p q, nth_error ps i = Some p /\ nth_error ps (S i) = Some q /\
   polyline_length ps (S i) = polyline_length ps i + dist p q.
Proof.
  revert ps; induction i as [|i IH]; intros ps H.
  - destruct ps as [|p [|q r]]; simpl in H; try lia.
    exists p, q; repeat split. destruct r; simpl; ring.
  - destruct ps as [|p [|q r]]; simpl in H; try lia.
    destruct (IH (q::r)) as (p' & q' & Hp' & Hq' & E); [simpl; lia|].
    exists p', q'; repeat split; auto.
    change (polyline_length (p :: q :: r) (S (S i))) with (dist p q + polyline_length (q::r) (S i)).
    change (polyline_length (p :: q :: r) (S i)) with (dist p q + polyline_length (q::r) i).
    rewrite E; ring.
Qed.

Lemma polyline_mono ps i : (S i < List.length ps)%nat ->
  polyline_length ps i <= polyline_length ps (S i).
Proof. intros H; destruct (polyline_S ps i H) as (p & q & _ & _ & ->). pose proof (dist_nonneg p q); lra. Qed.

Lemma polyline_nonneg ps i : 0 <= polyline_length ps i.
Proof.
  revert ps; induction i as [|i IH]; intros ps; [destruct ps; simpl; lra|].
  destruct ps as [|p [|q r]]; simpl; try lra.
  pose proof (dist_nonneg p q). pose proof (IH (q::r)). simpl in *. lra.
Qed.

Lemma kindex_formula ps ns i : List.length ps = S (List.length ns) ->
  Forall (fun n => (0 < n)%nat) ns -> (i < List.length ps)%nat ->
  nth_error (map (fun i => nth i (abscissa (path_points ps ns)) 0) (path_inds 0 ns)) i
    = Some (polyline_length ps i / total_length ps).
Proof.
  intros Hl Hp Hi. rewrite nth_error_map, path_inds_nth by lia. cbn [option_map]. f_equal.
  rewrite abscissa_nth.
  - cbn [plus]. rewrite firstn_steps, step_total; auto. lia.
  - rewrite path_points_length by auto. cbn [plus].
    assert (sum_nat (firstn i ns) <= sum_nat ns)%nat; [|lia].
    clear. revert i; induction ns as [|n ns IH]; intros i; destruct i; simpl; try lia.
    specialize (IH i); lia.
Qed.

(** ** C06 *)
Lemma int_ns_raises ang L pts n symm : exists e, bz_path ang L pts (NsInt n) symm = Raise e.
Proof. eexists; reflexivity. Qed.

Lemma single_count_broadcast ang L pts n symm : (2 <= List.length pts)%nat ->
  bz_path ang L pts (NsList [n]) symm =
  bz_path ang L pts (NsList (repeat n (List.length pts - 1))) symm.
Proof.
  intros H. unfold bz_path.
  assert (E : parse_ns (List.length pts) (NsList (repeat n (List.length pts - 1))) =
              parse_ns (List.length pts) (NsList [n])); [|rewrite E; reflexivity].
  unfold parse_ns. destruct (List.length pts <? 2)%nat eqn:E; [reflexivity|].
  rewrite repeat_length, Nat.eqb_refl. simpl nth. simpl List.length at 3.
  destruct (List.length pts - 1 =? 1)%nat eqn:E1; simpl; auto.
  apply Nat.eqb_eq in E1. rewrite E1. reflexivity.
Qed.

(** ** C07 *)
Lemma linspace_centred m n : (2 <= n)%nat -> centred_grid (linspace (- m) m n) n (2 * m).
Proof.
  intros H. unfold centred_grid, linspace. rewrite map_length, seq_length. split; auto.
  intros i Hi. rewrite nth_error_map, (nth_error_nth' _ 0%nat) by (rewrite seq_length; auto).
  rewrite seq_nth by auto. simpl. f_equal.
  assert (INR (n-1) <> 0) by (apply not_0_INR; lia). field; auto.
Qed.

Lemma xy_grid_list L Nx Ny px py : (2 <= Nx)%nat -> (2 <= Ny)%nat ->
  exists gx gy, xy_grid L Nx Ny (PerList px py) = Ok (gx, gy) /\
   centred_grid gx Nx (px * Rabs (Rmax (fst (lt_a1 L)) (fst (lt_a2 L)))) /\
   centred_grid gy Ny (py * Rabs (Rmax (snd (lt_a1 L)) (snd (lt_a2 L)))).
Proof.
  intros Hx Hy. unfold xy_grid; simpl. eexists _, _; split; [reflexivity|]. split.
  - replace (px * Rabs (Rmax (fst (lt_a1 L)) (fst (lt_a2 L)))) with
     (2 * (Rabs (Rmax (fst (lt_a1 L)) (fst (lt_a2 L))) * px / 2)) by field.
    apply linspace_centred; auto.
  - replace (py * Rabs (Rmax (snd (lt_a1 L)) (snd (lt_a2 L)))) with
     (2 * (Rabs (Rmax (snd (lt_a1 L)) (snd (lt_a2 L))) * py / 2)) by field.
    apply linspace_centred; auto.
Qed.

Lemma xy_grid_none L Nx Ny : xy_grid L Nx Ny PerNone =
  match lt_type L with
  | LSquare | LRectangular => xy_grid L Nx Ny (PerList 1 1)
  | _ => xy_grid L Nx Ny (PerList 2 2)
  end.
Proof. unfold xy_grid. destruct (lt_type L); reflexivity. Qed.

Lemma max_abs_of_max x y : 0 <= x + y \/ (0 <= x /\ 0 <= y) ->
  Rabs (Rmax x y) = Rmax (Rabs x) (Rabs y).
Proof.
  intros H. unfold Rmax. destruct (Rle_dec x y), (Rle_dec (Rabs x) (Rabs y));
  unfold Rabs in *; destruct (Rcase_abs x), (Rcase_abs y); lra.
Qed.

Lemma path_visits : forall ang L pts l symm out,
  bz_path ang L pts (NsList l) symm = Ok out ->
  Forall (fun n => (0 < n)%nat) l ->
  let nl := counts_for (List.length pts) l in
  List.length (bp_kpoints out) = (sum_nat nl + 1)%nat /\
  List.length (bp_angles out) = List.length (bp_kpoints out) /\
  List.length (bp_indexes out) = List.length pts /\
  (forall i a, nth_error pts i = Some a ->
     exists p, parse_point L a = Ok p /\
       nth_error (bp_indexes out) i = Some (sum_nat (firstn i nl)) /\
       nth_error (bp_kpoints out) (sum_nat (firstn i nl)) = Some p) /\
  (forall i a b n j, nth_error pts i = Some a -> nth_error pts (S i) = Some b ->
     nth_error nl i = Some n -> (j < n)%nat ->
     exists p q, parse_point L a = Ok p /\ parse_point L b = Ok q /\
       nth_error (bp_kpoints out) (sum_nat (firstn i nl) + j) =
         Some (fst p + INR j / INR n * (fst q - fst p), snd p + INR j / INR n * (snd q - snd p))).
Proof.
  intros ang L pts l symm out H Hpos nl.
  destruct (bz_path_ok _ _ _ _ _ _ H) as (ps & g & Hps & Hg & Hl & Hlp & ->).
  fold nl in Hl |- *. pose proof (counts_pos (List.length pts) l Hpos) as Hp. fold nl in Hp.
  cbn [bp_kpoints bp_indexes bp_angles]. split; [|split; [|split; [|split]]].
  - apply path_points_length; auto.
  - rewrite map_length; auto.
  - rewrite path_inds_length. lia.
  - intros i a Hi. destruct (mapM_ok_nth _ _ _ Hps i a Hi) as (p & Hpp & Hn).
    exists p; split; auto. assert (i < List.length ps)%nat.
    { apply nth_error_Some. congruence. }
    split.
    + rewrite path_inds_nth by lia. reflexivity.
    + apply path_points_at; auto.
  - intros i a b n j Ha Hb Hn Hj.
    destruct (mapM_ok_nth _ _ _ Hps i a Ha) as (p & Hpp & Hn1).
    destruct (mapM_ok_nth _ _ _ Hps (S i) b Hb) as (q & Hqq & Hn2).
    exists p, q; repeat split; auto.
    rewrite (path_points_seg ps nl i j p q n); auto.
Qed.

Lemma indexes_increase : forall ang L pts l symm out,
  bz_path ang L pts (NsList l) symm = Ok out -> Forall (fun n => (0 < n)%nat) l ->
  nth_error (bp_indexes out) 0 = Some 0%nat /\
  forall i a b, nth_error (bp_indexes out) i = Some a ->
    nth_error (bp_indexes out) (S i) = Some b -> (a < b)%nat.
Proof.
  intros ang L pts l symm out H Hpos.
  destruct (bz_path_ok _ _ _ _ _ _ H) as (ps & g & Hps & Hg & Hl & Hlp & ->).
  pose proof (counts_pos (List.length pts) l Hpos) as Hp.
  set (nl := counts_for (List.length pts) l) in *. cbn [bp_indexes]. split.
  - rewrite path_inds_nth by lia. reflexivity.
  - intros i a b Ha Hb.
    assert (S i < List.length (path_inds 0 nl))%nat by (apply nth_error_Some; congruence).
    rewrite path_inds_length in H0.
    rewrite path_inds_nth in Ha, Hb by lia. cbn [plus] in Ha, Hb. inversion Ha; inversion Hb; subst a b.
    apply sum_firstn_strict; auto. lia.
Qed.

Lemma k_indexes_props : forall ang L pts l symm out ps,
  bz_path ang L pts (NsList l) symm = Ok out -> Forall (fun n => (0 < n)%nat) l ->
  mapM (parse_point L) pts = Ok ps -> total_length ps <> 0 ->
  List.length (bp_k_indexes out) = List.length pts /\
  nth_error (bp_k_indexes out) 0 = Some 0 /\
  nth_error (bp_k_indexes out) (List.length pts - 1) = Some 1 /\
  (forall i x y p q, nth_error (bp_k_indexes out) i = Some x ->
     nth_error (bp_k_indexes out) (S i) = Some y ->
     nth_error ps i = Some p -> nth_error ps (S i) = Some q ->
     x <= y /\ y - x = dist p q / total_length ps).
Proof.
  intros ang L pts l symm out ps H Hpos Hps Ht.
  destruct (bz_path_ok _ _ _ _ _ _ H) as (ps' & g & Hps' & Hg & Hl & Hlp & ->).
  rewrite Hps in Hps'; inversion Hps'; subst ps'; clear Hps'.
  pose proof (counts_pos (List.length pts) l Hpos) as Hp.
  set (nl := counts_for (List.length pts) l) in *. cbn [bp_k_indexes].
  assert (Hlen : List.length (map (fun i => nth i (abscissa (path_points ps nl)) 0) (path_inds 0 nl)) = List.length pts).
  { rewrite map_length, path_inds_length; lia. }
  split; [exact Hlen|]. split; [|split].
  - rewrite kindex_formula; auto; [|lia]. f_equal.
    unfold polyline_length. unfold Rdiv; destruct ps; ring.
  - rewrite kindex_formula; auto; [|lia]. f_equal. unfold total_length.
    rewrite Hlp. field. unfold total_length in Ht. rewrite Hlp in Ht. exact Ht.
  - intros i x y p q Hx Hy Hpi Hqi.
    assert (Hi : (S i < List.length ps)%nat) by (apply nth_error_Some; congruence).
    rewrite kindex_formula in Hx, Hy by (auto; lia).
    inversion Hx; inversion Hy; subst x y; clear Hx Hy.
    destruct (polyline_S ps i Hi) as (p' & q' & Hp' & Hq' & E).
    rewrite Hpi in Hp'; rewrite Hqi in Hq'; inversion Hp'; inversion Hq'; subst p' q'.
    assert (Hpos' : 0 < total_length ps).
    { pose proof (polyline_nonneg ps (List.length ps - 1)). unfold total_length in *. lra. }
    rewrite E. split; [|unfold Rdiv; ring].
    apply Rmult_le_compat_r; [left; apply Rinv_0_lt_compat; auto|].
    pose proof (dist_nonneg p q); lra.
Qed.

Lemma int_ns_refuted : exists L pts n symm,
  lattice_init (LatName "square") = Ok L /\
  (exists out, bz_path (fun _ _ => 0) L pts (NsList (repeat n (List.length pts - 1))) symm = Ok out) /\
  bz_path (fun _ _ => 0) L pts (NsInt n) symm = Raise TypeError.
Proof.
  eexists. exists [PtStr "G"; PtStr "X"; PtStr "M"], 10%nat, (PtList (1, 0)).
  split; [reflexivity|]. split; [eexists; reflexivity|reflexivity].
Qed.

Lemma num_periods_refuted : exists L p,
  lattice_init (LatName "square") = Ok L /\ 0 < p /\
  (exists g, xy_grid L 10 10 (PerList p p) = Ok g) /\
  xy_grid L 10 10 (PerNum p) = Raise TypeError.
Proof.
  eexists. exists 2. split; [reflexivity|]. split; [lra|]. split; [eexists; reflexivity|reflexivity].
Qed.

Lemma grid_width_refuted : exists L gx gy,
  lattice_init (LatVecs (-1, 0) (0, 1)) = Ok L /\
  xy_grid L 3 3 PerNone = Ok (gx, gy) /\
  Rmax (Rabs (fst (lt_a1 L))) (Rabs (fst (lt_a2 L))) = 1 /\
  forall x, In x gx -> x = 0.
Proof.
  destruct (init_vecs (-1,0) (0,1)) as (L & H & E1 & E2 & Ht).
  unfold inner in Ht; simpl in Ht. destruct Ht as [(Ht&_)|(_&Ht)]; [|exfalso; apply Ht; ring].
  exists L. unfold xy_grid; rewrite Ht, E1, E2; simpl.
  do 2 eexists; split; [exact H|]. split; [reflexivity|].
  assert (M : Rmax (-1) 0 = 0) by (unfold Rmax; destruct (Rle_dec (-1) 0); lra).
  rewrite M, Rabs_R0.
  split.
  - rewrite Rabs_left by lra. unfold Rmax. destruct (Rle_dec (- -1) 0); lra.
  - simpl. intros x Hx. destruct Hx as [<-|[<-|[<-|[]]]]; field.
Qed.

Lemma grid_width : forall L Nx Ny px py,
  (2 <= Nx)%nat -> (2 <= Ny)%nat ->
  0 <= fst (lt_a1 L) + fst (lt_a2 L) -> 0 <= snd (lt_a1 L) + snd (lt_a2 L) ->
  exists gx gy, xy_grid L Nx Ny (PerList px py) = Ok (gx, gy) /\
   centred_grid gx Nx (px * Rmax (Rabs (fst (lt_a1 L))) (Rabs (fst (lt_a2 L)))) /\
   centred_grid gy Ny (py * Rmax (Rabs (snd (lt_a1 L))) (Rabs (snd (lt_a2 L)))) /\
   xy_grid L Nx Ny PerNone =
     match lt_type L with
     | LSquare | LRectangular => xy_grid L Nx Ny (PerList 1 1)
     | _ => xy_grid L Nx Ny (PerList 2 2)
     end.
Proof.
  intros L Nx Ny px py Hx Hy H1 H2.
  destruct (xy_grid_list L Nx Ny px py Hx Hy) as (gx & gy & E & G1 & G2).
  rewrite max_abs_of_max in G1, G2 by auto.
  exists gx, gy; repeat split; try apply G1; try apply G2; auto. apply xy_grid_none.
Qed.
