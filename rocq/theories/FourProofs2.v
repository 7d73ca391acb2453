(** Circles in a square cell; the two drawings that the coefficients confuse. *)
From Coq Require Import List.
From Coquelicot Require Import Hierarchy RInt.
From Verif Require Import Py CBase CInt LatticeModel LatticeSpec LatticeProofs CellProofs PhcModel PhcSpec PhcProofs PhcProofs2 PhcProofs3 PhcProofs4 ShapesSpec ShapesModel ShapesProofs3 ShapesProofs6 ShapesProofs9.
From Verif Require Import EinvProofs4 InvSpec ImgSpec ImgProofs ImgProofs3 FourSpec FourProofs.
Open Scope R_scope.
Open Scope list_scope.

Lemma discs_apart xc yc r xd yd q x y : 0 < r -> 0 < q -> (r + q) ^ 2 < (xc - xd) ^ 2 + (yc - yd) ^ 2 ->
  circle_inside xc yc r x y = true -> circle_inside xd yd q x y = true -> False.
Proof.
  intros Hr Hq Hd H1 H2. apply Rleb_true in H1. apply Rleb_true in H2.
  set (u1 := x - xc) in *. set (u2 := y - yc) in *. set (v1 := x - xd) in *. set (v2 := y - yd) in *.
  assert (E : (xc - xd) ^ 2 + (yc - yd) ^ 2 = (u1 ^ 2 + u2 ^ 2) + (v1 ^ 2 + v2 ^ 2) - 2 * (u1 * v1 + u2 * v2)) by (unfold u1, u2, v1, v2; ring).
  clearbody u1 u2 v1 v2. assert (CS : (u1 * v1 + u2 * v2) ^ 2 <= (r * q) ^ 2).
  { apply Rle_trans with ((u1 ^ 2 + u2 ^ 2) * (v1 ^ 2 + v2 ^ 2)).
    - assert (0 <= (u1 * v2 - u2 * v1) ^ 2) by apply pow2_ge_0. nra.
    - replace ((r * q) ^ 2) with (r ^ 2 * q ^ 2) by ring. apply Rmult_le_compat; auto; nra. }
  assert (0 < r * q) by nra. assert (- (r * q) <= u1 * v1 + u2 * v2) by nra. nra.
Qed.
Lemma pairs_apart (l : list shape) : ForallOrdPairs (fun s t => forall x y, sh_inside s x y = true -> sh_inside t x y = true -> False) l -> apart l.
Proof.
  intros H pre. revert l H. induction pre as [|p pre IH]; intros l H s mid t post ->; inversion H as [|? ? F P]; subst.
  - rewrite Forall_forall in F. apply F. apply in_or_app. right. left. reflexivity.
  - apply (IH _ P s mid t post). reflexivity.
Qed.
Definition disjoint (c d : R * (R * R) * R) : Prop := (snd c + snd d) ^ 2 < (fst (snd (fst c)) - fst (snd (fst d))) ^ 2 + (snd (snd (fst c)) - snd (snd (fst d))) ^ 2.
Lemma circles_apart cs : (forall c, In c cs -> 0 < snd c) -> ForallOrdPairs disjoint cs -> apart (map (circle bessel_J1) cs).
Proof.
  intros Hr H. apply pairs_apart. induction H as [|c cs F P IH]; cbn [map]; constructor.
  - apply Forall_forall. intros s Hs x y H1 H2. apply in_map_iff in Hs. destruct Hs as (d & <- & Hd). rewrite Forall_forall in F.
    apply (discs_apart _ _ _ _ _ _ x y (Hr c (or_introl eq_refl)) (Hr d (or_intror Hd)) (F d Hd) H1 H2).
  - apply IH. intros d Hd. apply Hr. right. exact Hd.
Qed.
Lemma circle_cell h k c : 0 < snd c -> Rabs (fst (snd (fst c))) + snd c < h -> Rabs (snd (snd (fst c))) + snd c < k -> inside_cell h k (circle bessel_J1 c).
Proof.
  intros Hr Hx Hy x y H. destruct c as [[e [xc yc]] r]. cbn [fst snd circle circle_shape sh_inside] in *. unfold circle_inside in H. apply Rleb_true in H.
  assert (0 <= (x - xc) ^ 2) by apply pow2_ge_0. assert (0 <= (y - yc) ^ 2) by apply pow2_ge_0.
  assert (K : forall t, t ^ 2 <= r ^ 2 -> Rabs t <= r) by (intros t Ht; apply Rabs_le; split; nra).
  assert (Rabs (x - xc) <= r) by (apply K; lra). assert (Rabs (y - yc) <= r) by (apply K; lra).
  pose proof (Rabs_triang (x - xc) xc). pose proof (Rabs_triang (y - yc) yc). replace (x - xc + xc) with x in * by ring. replace (y - yc + yc) with y in * by ring. lra.
Qed.
Lemma circle_area0 c : sh_ft (circle bessel_J1 c) (0, 0) = RtoC (sh_area (circle bessel_J1 c)).
Proof.
  destruct c as [[e [xc yc]] r]. unfold circle. cbn [fst snd circle_shape sh_ft sh_area]. unfold circle_ft. cbn [fst snd].
  replace (- 0 * xc - 0 * yc) with 0 by ring. rewrite expi_0, Cmult_1_l. reflexivity.
Qed.
Lemma circle_within h k M c g : 0 < snd c -> inside_cell h k (circle bessel_J1 c) -> h <= M -> k <= M -> transform_within M (1 / 10 ^ 10 * (PI * snd c ^ 3)) g (circle bessel_J1 c).
Proof. intros Hr H H1 H2. destruct c as [[e [xc yc]] r]. apply (circle_fourier xc yc r g M Hr). intros x y Hi. apply H in Hi. lra. Qed.
Lemma cell_nonzero args L a b g : lattice_init args = Ok L -> bricks L a b -> 0 < a <= 10 ^ 10 -> 0 < b <= 10 ^ 10 ->
  in_lattice (lt_b1 L) (lt_b2 L) g -> g = (0, 0) \/ ~ is_g0 g.
Proof.
  intros HL HB Ha Hb Hg. destruct (cell_rec args L a b HL HB ltac:(lra) ltac:(lra) g Hg) as (m & n & Em & En). pose proof PI2_1 as HPI.
  assert (K : forall a u (k : Z), 0 < a <= 10 ^ 10 -> u * a = 2 * PI * IZR k -> k <> 0%Z -> / 10 ^ 10 <= Rabs u).
  { clear a HB Ha Em. intros a u k Ha E Hk. assert (E2 : Rabs u * a = 2 * PI * Rabs (IZR k)).
    { transitivity (Rabs (u * a)); [rewrite Rabs_mult, (Rabs_pos_eq a); lra|]. rewrite E, Rabs_mult, (Rabs_pos_eq (2 * PI)); lra. }
    assert (1 <= Rabs (IZR k)) by (rewrite <- abs_IZR; apply (IZR_le 1); lia). pose proof (Rabs_pos u).
    apply (Rmult_le_reg_r (10 ^ 10)); [lra|]. rewrite Rinv_l by lra. nra. }
  destruct (Z.eq_dec m 0) as [->|Hm]; [destruct (Z.eq_dec n 0) as [->|Hn]|].
  - left. specialize (En eq_refl). destruct g as [u v]. cbn [fst snd] in *. f_equal; nra.
  - right. unfold is_g0. pose proof (K _ _ _ Hb (En eq_refl) Hn). pose proof (Rabs_pos (fst g)). lra.
  - right. unfold is_g0. pose proof (K _ _ _ Ha Em Hm). pose proof (Rabs_pos (snd g)). lra.
Qed.

(** the cells that are bricks *)
Lemma bricks_flat args L a b c : lattice_init args = Ok L -> lt_a1 L = (a, 0) -> lt_a2 L = (c, b) -> 0 < a -> 0 < b -> bricks L a b.
Proof.
  intros HL A1 A2 Ha Hb. split.
  - destruct (init_shape args L HL) as (_ & _ & E & _). rewrite E, A1, A2. unfold det. cbn [fst snd]. rewrite Rabs_pos_eq; nra.
  - exists c. intros r. rewrite A1, A2. tauto.
Qed.
Lemma bricks_hex L : lattice_init (LatName "hexagonal") = Ok L -> bricks L 1 (sqrt 3 / 2).
Proof.
  intros HL. assert (A1 : lt_a1 L = (1/2, sqrt 3 / 2)) by (injection HL as <-; reflexivity). assert (A2 : lt_a2 L = (1/2, - sqrt 3 / 2)) by (injection HL as <-; reflexivity).
  pose proof (sqrt_pos 3) as S3. split.
  - destruct (init_shape _ L HL) as (_ & _ & E & _). rewrite E, A1, A2. unfold det. cbn [fst snd]. rewrite Rabs_left1; lra.
  - exists (1/2). intros r. rewrite A1, A2. split; intros (m & n & ->); unfold comb; cbn [fst snd].
    + exists n, (m - n)%Z. unfold comb. cbn [fst snd]. rewrite minus_IZR. f_equal; field.
    + exists (m + n)%Z, m. unfold comb. cbn [fst snd]. rewrite plus_IZR. f_equal; field.
Qed.
Definition tolerances (cs : list (R * (R * R) * R)) : list (shape * R) := map (fun c => (circle bessel_J1 c, 1 / 10 ^ 10 * (PI * snd c ^ 3))) cs.
Lemma tol_shapes cs : map fst (tolerances cs) = map (circle bessel_J1) cs.
Proof. unfold tolerances. rewrite map_map. reflexivity. Qed.
Lemma tol_weight eb cs : weighted eb (tolerances cs) = fold_right (fun c acc => Rabs (fst (fst c) - eb) * (1 / 10 ^ 10 * (PI * snd c ^ 3)) + acc) 0 cs.
Proof. induction cs as [|c cs IH]; [reflexivity|]. cbn [tolerances map weighted fold_right]. unfold weighted, tolerances in IH. rewrite IH. reflexivity. Qed.
Lemma circles_integral args L a b z1 z2 eb cs g eps :
  lattice_init args = Ok L -> bricks L a b -> 0 < a <= 10 ^ 10 -> 0 < b <= 10 ^ 10 -> in_lattice (lt_b1 L) (lt_b2 L) g ->
  (forall c, In c cs -> 0 < snd c /\ Rabs (fst (snd (fst c))) + snd c < a / 2 /\ Rabs (snd (snd (fst c))) + snd c < b / 2) -> ForallOrdPairs disjoint cs ->
  let ly := fold_left (append_shape (lt_ec_area L)) (map (circle bessel_J1) cs) (shapes_layer z1 z2 eb) in
  (forall x y, layer_get_eps L ly [(x, y)] = Ok [eps x y]) ->
  exists I, is_cell_integral (fun x y => Cmult (RtoC (eps x y)) (expi (- (fst g * x + snd g * y)))) (a / 2) (b / 2) I /\
    Cmod (Cminus (layer_ft_at (lt_ec_area L) ly g) (Cdiv I (RtoC (lt_ec_area L)))) <=
    fold_right (fun c acc => Rabs (fst (fst c) - eb) * (1 / 10 ^ 10 * (PI * snd c ^ 3)) + acc) 0 cs / (a * b).
Proof.
  intros HL HB Ha Hb Hg Hc Hd ly He. rewrite <- tol_weight. destruct HB as (AR & HB'). rewrite <- AR. assert (HB : bricks L a b) by (split; assumption).
  pose proof (Rmax_l (a / 2) (b / 2)) as M1. pose proof (Rmax_r (a / 2) (b / 2)) as M2.
  pose proof (cell_integral args L a b HL HB ltac:(lra) ltac:(lra) (Rmax (a / 2) (b / 2)) (tolerances cs) z1 z2 eb g eps) as Q. cbv zeta in Q. rewrite tol_shapes in Q. apply Q; auto.
  - apply (cell_nonzero args L a b g); auto.
  - apply circles_apart; auto. intros c Hin. apply Hc. exact Hin.
  - intros s Hin. apply in_map_iff in Hin. destruct Hin as (c & <- & Hin). destruct (Hc c Hin) as (H1 & H2 & H3). split; [apply circle_cell; auto|apply circle_area0].
  - intros p Hin. unfold tolerances in Hin. apply in_map_iff in Hin. destruct Hin as (c & <- & Hin). destruct (Hc c Hin) as (H1 & H2 & H3). cbn [fst snd].
    apply (circle_within (a / 2) (b / 2)); auto. apply circle_cell; auto.
Qed.

Lemma twice_wins cov e s v : last_wins cov e [s; s] v -> last_wins cov e [s] v.
Proof.
  intros [(pre & t & post & E & Hc & -> & _)|(-> & Hn)].
  - assert (t = s) by (assert (I : In t [s; s]) by (rewrite E; apply in_or_app; right; left; reflexivity); destruct I as [I|[I|[]]]; auto). subst t.
    left. exists [], s, []. repeat split; auto.
  - right. split; auto. intros t [<-|[]]. apply Hn. left. reflexivity.
Qed.
Lemma same_map L z1 z2 eb s p : let one := append_shape (lt_ec_area L) (shapes_layer z1 z2 eb) s in
  layer_get_eps L (append_shape (lt_ec_area L) one s) [p] = layer_get_eps L one [p].
Proof.
  cbv zeta. unfold layer_get_eps. cbn [map]. do 2 f_equal.
  pose proof (eps_at_last L (append_shape (lt_ec_area L) (append_shape (lt_ec_area L) (shapes_layer z1 z2 eb) s) s) (nmax_of L [p]) p) as H2.
  pose proof (eps_at_last L (append_shape (lt_ec_area L) (shapes_layer z1 z2 eb) s) (nmax_of L [p]) p) as H1.
  cbn [append_shape shapes_layer ly_shapes ly_epsb app] in H1, H2 |- *. eapply last_wins_fun; [apply twice_wins; exact H2|exact H1].
Qed.
Lemma twice_differs : exists L, lattice_init (LatName "square") = Ok L /\
  let c := circle bessel_J1 (2, (0, 0), 1 / 4) in let ly := append_shape (lt_ec_area L) (append_shape (lt_ec_area L) (shapes_layer 0 1 1) c) c in
  exists eps I, (forall x y, layer_get_eps L ly [(x, y)] = Ok [eps x y]) /\
  is_cell_integral (fun x y => Cmult (RtoC (eps x y)) (expi (- (0 * x + 0 * y)))) (1 / 2) (1 / 2) I /\
  (forall J, is_cell_integral (fun x y => Cmult (RtoC (eps x y)) (expi (- (0 * x + 0 * y)))) (1 / 2) (1 / 2) J -> J = I) /\
  1 / 10 < Cmod (Cminus (layer_ft_at (lt_ec_area L) ly (0, 0)) (Cdiv I (RtoC (lt_ec_area L)))).
Proof.
  destruct (lattice_init (LatName "square")) as [L|] eqn:HL; [|discriminate]. exists L. split; [reflexivity|].
  assert (A1 : lt_a1 L = (1, 0)) by (injection HL as <-; reflexivity). assert (A2 : lt_a2 L = (0, 1)) by (injection HL as <-; reflexivity).
  assert (HB := bricks_flat _ L 1 1 0 HL A1 A2 ltac:(lra) ltac:(lra)). assert (AR := proj1 HB).
  set (c := circle bessel_J1 (2, (0, 0), 1 / 4)). set (one := append_shape (lt_ec_area L) (shapes_layer 0 1 1) c). cbv zeta.
  exists (fun x y => eps_at L one (nmax_of L [(x, y)]) (x, y)).
  destruct (circles_integral _ L 1 1 0 1 1 [(2, (0, 0), 1 / 4)] (0, 0) (fun x y => eps_at L one (nmax_of L [(x, y)]) (x, y)) HL HB ltac:(lra) ltac:(lra)) as (I & HI & BI).
  - exists 0%Z, 0%Z. unfold comb. f_equal; ring.
  - intros d [<-|[]]. cbn [fst snd]. rewrite Rabs_R0. lra.
  - repeat constructor.
  - intros x y. reflexivity.
  - cbn [fst snd] in HI. exists I. split; [intros x y; unfold one at 1; rewrite same_map; reflexivity|]. split; [exact HI|]. split; [intros J HJ; apply (cell_unique _ (1 / 2) (1 / 2) J I ltac:(lra) HJ HI)|].
    cbn [map fold_left fold_right fst snd] in BI. fold c in BI. fold one in BI.
    assert (G0 : is_g0 (0, 0)) by (unfold is_g0; cbn [fst snd]; rewrite Rabs_R0; assert (0 < / 10 ^ 10) by lra; lra).
    rewrite layer_ft_zero in BI |- * by exact G0. rewrite AR in *. unfold one in *. cbn [append_shape ly_epsavg ly_epsb shapes_layer] in *.
    assert (S := circle_area 2 0 0 (1 / 4) ltac:(lra) ltac:(lra)). fold c in S.
    change (sh_area (circle_shape bessel_J1 2 0 0 (1 / 4))) with (sh_area c) in S. change (sh_eps c) with 2 in *. set (A := sh_area c) in *.
    pose proof PI2_1. pose proof PI_4. rewrite Rabs_minus_sym in S. pose proof (Rle_abs (PI * (1 / 4) ^ 2 - A)) as S2.
    assert (AB : 18 / 100 <= A) by (assert (3 < PI) by (pose proof PI2_3_2; lra); nra).
    set (J := Cdiv I (RtoC (1 * 1))) in *.
    assert (T : Rabs A <= Cmod (Cminus (RtoC (1 + (2 - 1) * A / (1 * 1) + (2 - 1) * A / (1 * 1))) J) + Cmod (Cminus (RtoC (1 + (2 - 1) * A / (1 * 1))) J)).
    { rewrite <- Cmod_R. replace (RtoC A) with (Cplus (Cminus (RtoC (1 + (2 - 1) * A / (1 * 1) + (2 - 1) * A / (1 * 1))) J) (Copp (Cminus (RtoC (1 + (2 - 1) * A / (1 * 1))) J))).
      - eapply Rle_trans; [apply Cmod_triangle|]. rewrite Cmod_opp. lra.
      - rewrite RtoC_plus. replace ((2 - 1) * A / (1 * 1)) with A by field. ring. }
    rewrite (Rabs_pos_eq A) in T by lra. rewrite (Rabs_pos_eq (2 - 1)) in BI by lra. rewrite AR in BI. lra.
Qed.
