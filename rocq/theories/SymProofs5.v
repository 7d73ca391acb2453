(** Reflection matrices (C39). *)
From Verif Require Import Py CBase LatticeModel LatticeSpec LatticeProofs SymSpec SymModel.
Open Scope R_scope.

Lemma app2_reflect th g : app2 (sym_mat th) g = reflect (rad th) g.
Proof.
  unfold app2, sym_mat, reflect, rad. destruct g as [x y]. cbn [fst snd].
  replace (2 * th * PI / 180) with (2 * (th * PI / 180)) by field. set (t := th * PI / 180).
  rewrite cos_2a, sin_2a. pose proof (sin2_cos2 t) as E. unfold Rsqr in E.
  apply f_equal2.
  - replace (cos t * cos t - sin t * sin t) with (2 * (cos t * cos t) - (sin t * sin t + cos t * cos t)) by ring. rewrite E. ring.
  - replace (cos t * cos t - sin t * sin t) with ((sin t * sin t + cos t * cos t) - 2 * (sin t * sin t)) by ring. rewrite E. ring.
Qed.
Lemma reflect_invol t g : reflect t (reflect t g) = g.
Proof.
  unfold reflect. destruct g as [x y]. cbn [fst snd]. pose proof (sin2_cos2 t) as E. unfold Rsqr in E.
  set (c := cos t) in *. set (s := sin t) in *.
  apply f_equal2.
  - replace (2 * (c * (2 * (c * x + s * y) * c - x) + s * (2 * (c * x + s * y) * s - y)) * c - (2 * (c * x + s * y) * c - x))
      with (x + 4 * c * (c * x + s * y) * (s * s + c * c - 1)) by ring. rewrite E. ring.
  - replace (2 * (c * (2 * (c * x + s * y) * c - x) + s * (2 * (c * x + s * y) * s - y)) * s - (2 * (c * x + s * y) * s - y))
      with (y + 4 * s * (c * x + s * y) * (s * s + c * c - 1)) by ring. rewrite E. ring.
Qed.
Lemma reflect_inner t g h : inner (reflect t g) (reflect t h) = inner g h.
Proof.
  unfold inner, reflect. destruct g as [x y], h as [u v]. cbn [fst snd]. pose proof (sin2_cos2 t) as E. unfold Rsqr in E.
  set (c := cos t) in *. set (s := sin t) in *.
  replace ((2 * (c * x + s * y) * c - x) * (2 * (c * u + s * v) * c - u) + (2 * (c * x + s * y) * s - y) * (2 * (c * u + s * v) * s - v))
    with (x * u + y * v + 4 * (c * x + s * y) * (c * u + s * v) * (s * s + c * c - 1)) by ring.
  rewrite E. ring.
Qed.
Lemma reflect_det t g h : det (reflect t g) (reflect t h) = - det g h.
Proof.
  unfold det, reflect. destruct g as [x y], h as [u v]. cbn [fst snd]. pose proof (sin2_cos2 t) as E. unfold Rsqr in E.
  set (c := cos t) in *. set (s := sin t) in *.
  replace ((2 * (c * x + s * y) * c - x) * (2 * (c * u + s * v) * s - v) - (2 * (c * x + s * y) * s - y) * (2 * (c * u + s * v) * c - u))
    with ((x * v - y * u) * (1 - 2 * (s * s + c * c))) by ring.
  rewrite E. ring.
Qed.
Lemma reflect_dir t r : reflect t (r * cos t, r * sin t) = (r * cos t, r * sin t).
Proof.
  unfold reflect. cbn [fst snd]. pose proof (sin2_cos2 t) as E. unfold Rsqr in E.
  apply f_equal2.
  - replace (2 * (cos t * (r * cos t) + sin t * (r * sin t)) * cos t - r * cos t) with (r * cos t * (2 * (sin t * sin t + cos t * cos t) - 1)) by ring. rewrite E. ring.
  - replace (2 * (cos t * (r * cos t) + sin t * (r * sin t)) * sin t - r * sin t) with (r * sin t * (2 * (sin t * sin t + cos t * cos t) - 1)) by ring. rewrite E. ring.
Qed.
Lemma reflect_add t g h : reflect t (fst g + fst h, snd g + snd h) =
  (fst (reflect t g) + fst (reflect t h), snd (reflect t g) + snd (reflect t h)).
Proof. unfold reflect. cbn [fst snd]. apply f_equal2; ring. Qed.
Lemma reflect_comb t m n u v : reflect t (comb m n u v) = comb m n (reflect t u) (reflect t v).
Proof. unfold comb, reflect. cbn [fst snd]. apply f_equal2; ring. Qed.

(** ** tables *)
Lemma r_mem_in x l : r_mem x l = true <-> In x l.
Proof.
  unfold r_mem. rewrite existsb_exists. split.
  - intros [y [H E]]. apply Reqb_true in E. subst. auto.
  - intros H. exists x. split; auto. apply Reqb_true. auto.
Qed.
Lemma r_set_in x l : In x (r_set l) <-> In x l.
Proof.
  induction l as [|a l IH]; [simpl; tauto|]. cbn [r_set]. destruct (r_mem a l) eqn:E.
  - apply r_mem_in in E. rewrite IH. simpl. split; auto. intros [->|]; auto.
  - simpl. rewrite IH. tauto.
Qed.
Lemma dict_get_map l a : In a l -> dict_get a (map (fun a => (a, sym_mat a)) l) = Ok (sym_mat a).
Proof.
  induction l as [|b l IH]; intros H; [destruct H|]. cbn [map dict_get].
  destruct (Reqb a b) eqn:E; [apply Reqb_true in E; subst; auto|].
  destruct H as [->|H]; [|auto]. exfalso. apply Reqb_false in E. auto.
Qed.
Lemma rint_IZR z : rint (IZR z) = z.
Proof.
  unfold rint. assert (E : Int_part (IZR z) = z).
  { unfold Int_part. rewrite <- (tech_up (IZR z) (z + 1)); [lia| |]; rewrite plus_IZR; lra. }
  rewrite E. rewrite (proj2 (Rltb_true _ _)) by lra. reflexivity.
Qed.
Lemma round8_IZR z : round8 (IZR z) = IZR z.
Proof.
  unfold round8. replace (IZR z * 10 ^ 8) with (IZR (z * 100000000)) by (rewrite mult_IZR; simpl; ring).
  rewrite rint_IZR, mult_IZR. simpl. field.
Qed.
Definition table_of (ty : lat_type) : list R :=
  match ty with LSquare => square_an | LHexagonal => hex_an | LRectangular => rec_an | LCustom => [] end.
Lemma refl_mats_inv ty angles d : refl_mats ty angles = Ok d ->
  ty <> LCustom /\ forall a, In a angles -> In (round8 a) (table_of ty) /\ dict_get a d = Ok (sym_mat a).
Proof.
  unfold refl_mats. intros H.
  assert (X : forall tab, (if forallb (fun a => r_mem (round8 a) tab) angles
      then Ok (map (fun a => (a, sym_mat a)) (r_set angles)) else Raise ValueError) = Ok d ->
      forall a, In a angles -> In (round8 a) tab /\ dict_get a d = Ok (sym_mat a)).
  { intros tab E a Ha. destruct (forallb (fun a => r_mem (round8 a) tab) angles) eqn:F; [|discriminate E]. injection E as <-.
    rewrite forallb_forall in F. split; [apply r_mem_in; auto|]. apply dict_get_map. apply r_set_in. auto. }
  destruct ty; try discriminate H; (split; [discriminate|]); intros a Ha; apply (X _ H); auto.
Qed.
Lemma refl_mats_ok ty angles : ty <> LCustom -> (forall a, In a angles -> In (round8 a) (table_of ty)) ->
  exists d, refl_mats ty angles = Ok d.
Proof.
  intros N H. assert (X : forallb (fun a => r_mem (round8 a) (table_of ty)) angles = true).
  { apply forallb_forall. intros a Ha. apply r_mem_in. auto. }
  unfold refl_mats. destruct ty; try congruence; cbn [table_of] in X; rewrite X; eauto.
Qed.
Lemma table_in n step x : In x (an_table n step) <-> exists i, (i < n)%nat /\ x = IZR (-360 + step * Z.of_nat i).
Proof.
  unfold an_table. rewrite in_map_iff. split.
  - intros [i [<- H]]. apply in_seq in H. exists i. split; auto; lia.
  - intros [i [H ->]]. exists i. split; auto. apply in_seq. lia.
Qed.

(** ** lattices *)
Definition rot (a : R) (g : R * R) : R * R := (cos a * fst g - sin a * snd g, sin a * fst g + cos a * snd g).
Definition mref (a : R) (g : R * R) : R * R := (cos a * fst g + sin a * snd g, sin a * fst g - cos a * snd g).
Lemma mref_rot a b g : mref (a + b) g = rot b (mref a g).
Proof. unfold mref, rot. cbn [fst snd]. rewrite cos_plus, sin_plus. apply f_equal2; ring. Qed.
Lemma rot_comb a m n u v : rot a (comb m n u v) = comb m n (rot a u) (rot a v).
Proof. unfold comb, rot. cbn [fst snd]. apply f_equal2; ring. Qed.
Lemma mref_comb a m n u v : mref a (comb m n u v) = comb m n (mref a u) (mref a v).
Proof. unfold comb, mref. cbn [fst snd]. apply f_equal2; ring. Qed.
Lemma in_comb u v g h m n : in_lattice u v g -> in_lattice u v h -> in_lattice u v (comb m n g h).
Proof.
  intros [a [b ->]] [c [e ->]]. exists (m * a + n * c)%Z, (m * b + n * e)%Z.
  unfold comb. cbn [fst snd]. rewrite !plus_IZR, !mult_IZR. apply f_equal2; ring.
Qed.
Lemma pres_rot a u v : in_lattice u v (rot a u) -> in_lattice u v (rot a v) -> forall g, in_lattice u v g -> in_lattice u v (rot a g).
Proof. intros H1 H2 g [m [n ->]]. rewrite rot_comb. apply in_comb; auto. Qed.
Lemma pres_mref a u v : in_lattice u v (mref a u) -> in_lattice u v (mref a v) -> forall g, in_lattice u v g -> in_lattice u v (mref a g).
Proof. intros H1 H2 g [m [n ->]]. rewrite mref_comb. apply in_comb; auto. Qed.
Lemma sym_mref th g : app2 (sym_mat th) g = mref (2 * th * PI / 180) g.
Proof. unfold app2, sym_mat, mref. cbn [fst snd]. apply f_equal2; ring. Qed.

Lemma step_pres al u v : (forall g, in_lattice u v g -> in_lattice u v (rot al g)) ->
  (forall g, in_lattice u v g -> in_lattice u v (mref 0 g)) ->
  forall i g, in_lattice u v g -> in_lattice u v (mref (INR i * al) g).
Proof.
  intros Hr H0 i. induction i as [|i IH]; intros g Hg.
  - replace (INR 0 * al) with 0 by (simpl; ring). auto.
  - rewrite S_INR. replace ((INR i + 1) * al) with (INR i * al + al) by ring. rewrite mref_rot. auto.
Qed.
Lemma table_mref step i g : mref (2 * IZR (-360 + step * Z.of_nat i) * PI / 180) g = mref (INR i * (IZR step * PI / 90)) g.
Proof.
  rewrite plus_IZR, mult_IZR, <- INR_IZR_INZ.
  replace (INR i * (IZR step * PI / 90)) with (2 * (-360 + IZR step * INR i) * PI / 180 + 2 * INR 2 * PI) by (simpl; field).
  unfold mref. rewrite cos_period, sin_period. reflexivity.
Qed.
Lemma onto u v th : (forall g, in_lattice u v g -> in_lattice u v (app2 (sym_mat th) g)) ->
  forall g, in_lattice u v (app2 (sym_mat th) g) <-> in_lattice u v g.
Proof.
  intros H g. split; auto. intros Hg. apply H in Hg. rewrite !app2_reflect, reflect_invol in Hg. auto.
Qed.


Lemma lat_pres u v step n : (forall g, in_lattice u v g -> in_lattice u v (rot (IZR step * PI / 90) g)) ->
  in_lattice u v (fst u, - snd u) -> in_lattice u v (fst v, - snd v) ->
  forall z, In (IZR z) (an_table n step) -> forall g, in_lattice u v (app2 (sym_mat (IZR z)) g) <-> in_lattice u v g.
Proof.
  intros Hr H1 H2 z Hz. apply onto. intros g Hg. apply table_in in Hz. destruct Hz as [i [_ ->]].
  rewrite sym_mref, table_mref. apply step_pres; auto. apply pres_mref.
  - unfold mref. rewrite cos_0, sin_0. replace (_, _) with (fst u, - snd u); auto. apply f_equal2; ring.
  - unfold mref. rewrite cos_0, sin_0. replace (_, _) with (fst v, - snd v); auto. apply f_equal2; ring.
Qed.
Lemma lat_neg u v g : in_lattice u v g -> in_lattice u v (- fst g, - snd g).
Proof. intros H. replace (- fst g, - snd g) with (comb (-1) 0 g g); [apply in_comb; auto|]. unfold comb. apply f_equal2; simpl; lra. Qed.

Lemma square_pres L z : lattice_init (LatName "square") = Ok L -> In (IZR z) square_an ->
  forall g, in_lattice (lt_b1 L) (lt_b2 L) (app2 (sym_mat (IZR z)) g) <-> in_lattice (lt_b1 L) (lt_b2 L) g.
Proof.
  intros HL. destruct (square_b L HL) as [E1 E2]. rewrite E1, E2. apply lat_pres.
  - apply pres_rot; unfold rot; cbn [fst snd]; replace (45 * PI / 90) with (PI / 2) by field; rewrite cos_PI2, sin_PI2.
    + exists 0%Z, 1%Z. unfold comb. cbn [fst snd]. apply f_equal2; lra.
    + exists (-1)%Z, 0%Z. unfold comb. cbn [fst snd]. apply f_equal2; lra.
  - exists 1%Z, 0%Z. unfold comb. cbn [fst snd]. apply f_equal2; lra.
  - exists 0%Z, (-1)%Z. unfold comb. cbn [fst snd]. apply f_equal2; lra.
Qed.
Lemma hex_pres L z : lattice_init (LatName "hexagonal") = Ok L -> In (IZR z) hex_an ->
  forall g, in_lattice (lt_b1 L) (lt_b2 L) (app2 (sym_mat (IZR z)) g) <-> in_lattice (lt_b1 L) (lt_b2 L) g.
Proof.
  intros HL. destruct (hex_b L HL) as [E1 E2]. rewrite E1, E2. pose proof sqrt3_pos as P. pose proof sqrt3_sq as Q.
  assert (K : sqrt 3 * (2 * PI / sqrt 3) = 2 * PI) by (field; lra).
  assert (K2 : sqrt 3 * (2 * PI) = 3 * (2 * PI / sqrt 3)).
  { transitivity ((sqrt 3 * sqrt 3) * (2 * PI / sqrt 3)); [|rewrite Q; ring]. rewrite Rmult_assoc, K. ring. }
  apply lat_pres.
  - apply pres_rot; unfold rot; cbn [fst snd]; replace (30 * PI / 90) with (PI / 3) by field; rewrite cos_PI3, sin_PI3.
    + exists 1%Z, (-1)%Z. unfold comb. cbn [fst snd]. apply f_equal2; nra.
    + exists 1%Z, 0%Z. unfold comb. cbn [fst snd]. apply f_equal2; nra.
  - exists 0%Z, 1%Z. unfold comb. cbn [fst snd]. apply f_equal2; lra.
  - exists 1%Z, 0%Z. unfold comb. cbn [fst snd]. apply f_equal2; lra.
Qed.
Lemma rect_pres a1 a2 L z : lattice_init (LatVecs a1 a2) = Ok L -> independent a1 a2 -> axis_aligned a1 a2 -> In (IZR z) rec_an ->
  forall g, in_lattice (lt_b1 L) (lt_b2 L) (app2 (sym_mat (IZR z)) g) <-> in_lattice (lt_b1 L) (lt_b2 L) g.
Proof.
  intros HL Hi Ha. destruct (init_vecs a1 a2) as (L' & HL' & A1 & A2 & _).
  rewrite HL in HL'. injection HL' as <-.
  assert (Hi' : independent (lt_a1 L) (lt_a2 L)) by (rewrite A1, A2; auto).
  destruct (duality _ L HL Hi') as [D1 [D2 [D3 D4]]]. rewrite A1, A2 in *.
  unfold inner in *. unfold independent, det in Hi.
  assert (G : forall g, in_lattice (lt_b1 L) (lt_b2 L) g -> in_lattice (lt_b1 L) (lt_b2 L) (rot (90 * PI / 90) g)).
  { intros g Hg. replace (rot _ g) with (- fst g, - snd g); [apply lat_neg; auto|].
    replace (90 * PI / 90) with PI by field. unfold rot. rewrite cos_PI, sin_PI. apply f_equal2; ring. }
  assert (ZZ : forall x p q, p * q <> 0 -> x * q = 0 \/ x * p = 0 -> x = 0).
  { intros x p q N [E|E]; apply Rmult_integral in E; destruct E as [E|E]; auto; exfalso; apply N; rewrite E; ring. }
  apply lat_pres; [exact G| |].
  - destruct Ha as [[X Y]|[X Y]]; rewrite X, Y in *.
    + assert (Z0 : snd (lt_b1 L) = 0) by first [apply (ZZ _ (fst a1) (snd a2)); [lra|first [left; lra|right; lra]]|apply (ZZ _ (snd a1) (fst a2)); [lra|first [left; lra|right; lra]]]. exists 1%Z, 0%Z. unfold comb. cbn [fst snd]. rewrite Z0. apply f_equal2; ring.
    + assert (Z0 : fst (lt_b1 L) = 0) by first [apply (ZZ _ (fst a1) (snd a2)); [lra|first [left; lra|right; lra]]|apply (ZZ _ (snd a1) (fst a2)); [lra|first [left; lra|right; lra]]]. exists (-1)%Z, 0%Z. unfold comb. cbn [fst snd]. rewrite Z0. apply f_equal2; ring.
  - destruct Ha as [[X Y]|[X Y]]; rewrite X, Y in *.
    + assert (Z0 : fst (lt_b2 L) = 0) by first [apply (ZZ _ (fst a1) (snd a2)); [lra|first [left; lra|right; lra]]|apply (ZZ _ (snd a1) (fst a2)); [lra|first [left; lra|right; lra]]]. exists 0%Z, (-1)%Z. unfold comb. cbn [fst snd]. rewrite Z0. apply f_equal2; ring.
    + assert (Z0 : snd (lt_b2 L) = 0) by first [apply (ZZ _ (fst a1) (snd a2)); [lra|first [left; lra|right; lra]]|apply (ZZ _ (snd a1) (fst a2)); [lra|first [left; lra|right; lra]]]. exists 0%Z, 1%Z. unfold comb. cbn [fst snd]. rewrite Z0. apply f_equal2; ring.
Qed.

(** the published statement for the lattices that have the symmetry *)
Lemma C39_lat args L angles d a : lattice_init args = Ok L ->
  (exists s, args = LatName s) \/ (exists a1 a2, args = LatVecs a1 a2 /\ independent a1 a2 /\ axis_aligned a1 a2) ->
  refl_mats (lt_type L) angles = Ok d -> In a angles -> (exists z, a = IZR z) ->
  exists m, dict_get a d = Ok m /\ forall g, in_lattice (lt_b1 L) (lt_b2 L) (app2 m g) <-> in_lattice (lt_b1 L) (lt_b2 L) g.
Proof.
  intros HL K HR Ha [z ->]. destruct (refl_mats_inv _ _ _ HR) as [N F]. destruct (F _ Ha) as [T G].
  rewrite round8_IZR in T. exists (sym_mat (IZR z)). split; auto.
  destruct K as [[s ->]|[a1 [a2 [-> [Hi Hx]]]]].
  - assert (HL' := HL). unfold lattice_init, parse_input in HL'.
    destruct (String.eqb_spec s "square") as [->|Ns].
    + apply square_pres; auto. cbn [bind] in HL'. injection HL' as <-. exact T.
    + destruct (String.eqb_spec s "hexagonal") as [->|Nh]; [|discriminate HL'].
      apply hex_pres; auto. cbn [bind] in HL'. injection HL' as <-. exact T.
  - apply (rect_pres a1 a2); auto.
    destruct (init_vecs_type a1 a2 L HL) as [_ [_ [[E _]|[E _]]]]; [rewrite E in T; exact T|congruence].
Qed.

(** a rectangular lattice turned by 45 degrees is accepted with angle 0 *)
Lemma tilted : exists L, lattice_init (LatVecs (1, 1) (-2, 2)) = Ok L /\ lt_type L = LRectangular /\
  lt_b1 L = (PI, PI) /\ lt_b2 L = (- PI / 2, PI / 2).
Proof.
  destruct (init_vecs (1,1) (-2,2)) as (L & H & A1 & A2 & _). exists L. split; auto.
  destruct (init_vecs_type _ _ _ H) as [_ [_ [[E _]|[_ E]]]]; [|unfold inner in E; simpl in E; exfalso; apply E; ring].
  split; auto.
  assert (Hi : independent (lt_a1 L) (lt_a2 L)) by (rewrite A1, A2; unfold independent, det; simpl; lra).
  destruct (duality _ L H Hi) as [D1 [D2 [D3 D4]]]. rewrite A1, A2 in *. unfold inner in *. simpl in *.
  destruct (lt_b1 L) as [x y], (lt_b2 L) as [u v]. simpl in *. split; apply f_equal2; lra.
Qed.
Lemma C39_ref : exists args L angles d a m g, lattice_init args = Ok L /\ lt_type L = LRectangular /\
  independent (lt_a1 L) (lt_a2 L) /\
  refl_mats (lt_type L) angles = Ok d /\ In a angles /\ dict_get a d = Ok m /\
  in_lattice (lt_b1 L) (lt_b2 L) g /\ ~ in_lattice (lt_b1 L) (lt_b2 L) (app2 m g).
Proof.
  destruct tilted as [L [H [T [E1 E2]]]].
  destruct (refl_mats_ok (lt_type L) [0]) as [d Hd]; [rewrite T; discriminate| |].
  { intros a [<-|[]]. replace 0 with (IZR 0) by auto. rewrite round8_IZR, T. apply table_in. exists 4%nat. split; [lia|reflexivity]. }
  exists (LatVecs (1, 1) (-2, 2)), L, [0], d, 0, (sym_mat 0), (lt_b2 L).
  split; auto. split; auto. split.
  { destruct (init_vecs_type _ _ _ H) as [A1 [A2 _]]. rewrite A1, A2. unfold independent, det. simpl. lra. }
  split; auto. split; [left; auto|]. split; [apply (refl_mats_inv _ _ _ Hd); left; auto|].
  split; [apply in_lattice_r|]. rewrite E1, E2. intros [p [q E]].
  unfold app2, sym_mat, comb in E. cbn [fst snd] in E.
  replace (2 * 0 * PI / 180) with 0 in E by field. rewrite cos_0, sin_0 in E.
  pose proof PI_RGT_0. injection E as X Y.
  assert (Z : 2 * IZR p = - 1).
  { apply Rmult_eq_reg_r with PI; [|lra]. lra. }
  rewrite <- mult_IZR in Z. apply eq_IZR in Z. lia.
Qed.
(** an angle that differs from a table entry by less than the rounding is
    accepted although its reflection does not preserve the square lattice *)
Lemma C39_ref_rounding : exists L angles d a m g, lattice_init (LatName "square") = Ok L /\
  refl_mats (lt_type L) angles = Ok d /\ In a angles /\ dict_get a d = Ok m /\
  in_lattice (lt_b1 L) (lt_b2 L) g /\ ~ in_lattice (lt_b1 L) (lt_b2 L) (app2 m g).
Proof.
  destruct (lattice_init (LatName "square")) as [L|e] eqn:H; [|discriminate H].
  destruct (square_b L H) as [E1 E2].
  assert (T : lt_type L = LSquare) by (unfold lattice_init, parse_input in H; simpl in H; injection H as <-; reflexivity).
  set (a := 45 + 1 / 10 ^ 9).
  assert (Ra : round8 a = 45).
  { unfold round8, rint, a. replace ((45 + 1 / 10 ^ 9) * 10 ^ 8) with (IZR 4500000000 + 1 / 10) by (simpl; field).
    assert (E : Int_part (IZR 4500000000 + 1 / 10) = 4500000000%Z).
    { unfold Int_part. rewrite <- (tech_up (IZR 4500000000 + 1 / 10) (4500000000 + 1)%Z); [lia| |]; rewrite plus_IZR; lra. }
    rewrite E. rewrite (proj2 (Rltb_true _ _)) by lra. simpl. field. }
  destruct (refl_mats_ok (lt_type L) [a]) as [d Hd]; [rewrite T; discriminate| |].
  { intros b [<-|[]]. rewrite Ra, T. apply table_in. exists 9%nat. split; [lia|reflexivity]. }
  exists L, [a], d, a, (sym_mat a), (lt_b1 L).
  split; auto. split; auto. split; [left; auto|]. split; [apply (refl_mats_inv _ _ _ Hd); left; auto|].
  split; [apply in_lattice_l|]. rewrite E1, E2. intros [p [q E]].
  unfold app2, sym_mat, comb in E. cbn [fst snd] in E. pose proof PI_RGT_0 as P. pose proof PI_4 as P4.
  injection E as X _.
  assert (Z : cos (2 * a * PI / 180) = IZR p).
  { apply Rmult_eq_reg_r with (2 * PI); [|lra]. lra. }
  assert (A : 2 * a * PI / 180 = PI / 2 + PI / (90 * 10 ^ 9)) by (unfold a; simpl; field).
  assert (B1 : 0 < PI / (90 * 10 ^ 9)) by (apply Rdiv_lt_0_compat; simpl; lra).
  assert (B2 : PI / (90 * 10 ^ 9) < PI / 2) by (unfold Rdiv; apply Rmult_lt_compat_l; [lra|]; apply Rinv_lt_contravar; simpl; lra).
  assert (C1 : cos (2 * a * PI / 180) = - sin (PI / (90 * 10 ^ 9))).
  { rewrite A, cos_plus, cos_PI2, sin_PI2. ring. }
  assert (S1 : 0 < sin (PI / (90 * 10 ^ 9))) by (apply sin_gt_0; lra).
  assert (S2 : sin (PI / (90 * 10 ^ 9)) < 1).
  { rewrite <- sin_PI2. apply sin_increasing_1; lra. }
  assert (IZR p < 0 /\ -1 < IZR p) as [Q1 Q2] by lra.
  apply lt_IZR in Q1. apply lt_IZR in Q2. lia.
Qed.
