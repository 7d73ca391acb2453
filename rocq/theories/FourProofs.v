(** Fourier coefficients of a layer and the integral of its permittivity. *)
From Coq Require Import List.
From Coquelicot Require Import Hierarchy RInt.
From Verif Require Import Py CBase CInt LatticeModel LatticeSpec LatticeProofs CellProofs PhcModel PhcSpec PhcProofs PhcProofs2 PhcProofs3 PhcProofs4 ShapesSpec ShapesModel ShapesProofs6 ShapesProofs9.
From Verif Require Import EinvProofs4 InvSpec ImgSpec ImgProofs ImgProofs3 FourSpec.
Open Scope R_scope.
Open Scope list_scope.

Definition ind (s : shape) (g : R * R) (x y : R) : C := if sh_inside s x y then expi (- (fst g * x + snd g * y)) else RtoC 0.

Lemma sum_transform eb g M sd : (forall p, In p sd -> transform_within M (snd p) g (fst p)) -> let ss := map fst sd in
  exists I, is_CInt2 (fun x y => clsum (map (fun s => Cmult (RtoC (sh_eps s - eb)) (ind s g x y)) ss)) M I /\
    Cmod (Cminus (clsum (map (contrib eb g) ss)) I) <= weighted eb sd.
Proof.
  cbv zeta. induction sd as [|[s d] sd IH]; intros H.
  - exists (RtoC 0). split; [apply int2_zero|]. cbn. replace (Cminus (RtoC 0) (RtoC 0)) with (RtoC 0) by ring. rewrite Cmod_0. lra.
  - destruct IH as (I & HI & BI); [intros t Ht; apply H; right; exact Ht|]. destruct (H (s, d) (or_introl eq_refl)) as (F & HF & BF). cbn [fst snd] in HF, BF. cbn [map fst]. set (ss := map fst sd) in *.
    exists (Cplus (Cmult (RtoC (sh_eps s - eb)) F) I). split.
    + apply (int2_plus (fun x y => Cmult (RtoC (sh_eps s - eb)) (ind s g x y)) (fun x y => clsum (map (fun s => Cmult (RtoC (sh_eps s - eb)) (ind s g x y)) ss))); [|exact HI].
      apply int2_scal. exact HF.
    + cbn [map clsum fold_right weighted fst snd]. unfold contrib at 1.
      replace (Cminus _ _) with (Cplus (Cmult (RtoC (sh_eps s - eb)) (Cminus (sh_ft s g) F)) (Cminus (clsum (map (contrib eb g) ss)) I)) by (unfold clsum; ring).
      eapply Rle_trans; [apply Cmod_triangle|]. apply Rplus_le_compat; [|exact BI]. rewrite Cmod_mult, Cmod_R. apply Rmult_le_compat_l; [apply Rabs_pos|exact BF].
Qed.

Lemma apart_tail s ss : apart (s :: ss) -> apart ss.
Proof. intros H pre t mid u post E. apply (H (s :: pre) t mid u post). rewrite E. reflexivity. Qed.
Lemma apart_head s ss t x y : apart (s :: ss) -> In t ss -> sh_inside s x y = true -> sh_inside t x y = true -> False.
Proof. intros H Ht. apply in_split in Ht. destruct Ht as (m & po & ->). apply (H [] s m t po). reflexivity. Qed.
Lemma none_inside eb g x y ss : (forall t, In t ss -> sh_inside t x y <> true) -> clsum (map (fun s => Cmult (RtoC (sh_eps s - eb)) (ind s g x y)) ss) = RtoC 0.
Proof.
  induction ss as [|s ss IH]; intros H; [reflexivity|]. cbn [map clsum fold_right]. fold (clsum (map (fun s => Cmult (RtoC (sh_eps s - eb)) (ind s g x y)) ss)).
  rewrite IH by (intros t Ht; apply H; right; exact Ht). unfold ind. specialize (H s (or_introl eq_refl)). destruct (sh_inside s x y); [congruence|]. ring.
Qed.
Lemma one_inside eb g x y pre s post : apart (pre ++ s :: post) -> sh_inside s x y = true ->
  clsum (map (fun s => Cmult (RtoC (sh_eps s - eb)) (ind s g x y)) (pre ++ s :: post)) = Cmult (RtoC (sh_eps s - eb)) (expi (- (fst g * x + snd g * y))).
Proof.
  intros Ha Hs. rewrite map_app, clsum_app. rewrite none_inside.
  - cbn [map clsum fold_right]. fold (clsum (map (fun s => Cmult (RtoC (sh_eps s - eb)) (ind s g x y)) post)). rewrite none_inside.
    + unfold ind at 1. rewrite Hs. ring.
    + intros t Ht Hc. apply in_split in Ht. destruct Ht as (m & po & ->). exact (Ha pre s m t po eq_refl x y Hs Hc).
  - intros t Ht Hc. apply in_split in Ht. destruct Ht as (m & po & ->). apply (Ha m t po s post) with (x := x) (y := y); auto. rewrite <- app_assoc. reflexivity.
Qed.
Lemma eps_sum eb g x y ss v : apart ss -> last_wins (fun s => sh_inside s x y = true) eb ss v ->
  Cmult (RtoC v) (expi (- (fst g * x + snd g * y))) = Cplus (Cmult (RtoC eb) (expi (- (fst g * x + snd g * y)))) (clsum (map (fun s => Cmult (RtoC (sh_eps s - eb)) (ind s g x y)) ss)).
Proof.
  intros Ha [(pre & s & post & -> & Hs & -> & _)|(-> & Hn)].
  - rewrite one_inside by auto. rewrite RtoC_minus. ring.
  - rewrite none_inside by auto. ring.
Qed.

(** the background *)
Lemma kern_turn (k : Z) : k <> 0%Z -> kern (2 * PI * IZR k) = RtoC 0.
Proof.
  intros Hk. pose proof (kern_mult (2 * PI * IZR k)) as K. rewrite expi_int in K.
  assert (N : 2 * PI * IZR k <> 0). { pose proof PI_RGT_0. apply Rmult_integral_contrapositive. split; [lra|]. apply not_0_IZR. exact Hk. }
  unfold kern in *. destruct (Req_EM_T _ 0) as [E|_]; [tauto|]. pose proof (expi_int k) as X. unfold expi in X. injection X as X1 X2. rewrite X1, X2. apply Ceq; cbn [fst snd RtoC]; unfold Rdiv; ring.
Qed.
Lemma int_turn M c d (k : Z) : 0 < M -> c * (2 * M) = 2 * PI * IZR k -> is_CInt (fun x => expi (c * x + d)) (- M) M (if Z.eq_dec k 0 then Cmult (RtoC (2 * M)) (expi d) else RtoC 0).
Proof.
  intros HM E. eapply is_CInt_eq; [|apply int_expi]. replace (M - - M) with (2 * M) by ring. rewrite E. destruct (Z.eq_dec k 0) as [->|Hk].
  - replace (2 * PI * 0) with 0 in * by ring. rewrite kern_0. assert (c = 0) by nra. subst. replace (0 * - M + d) with d by ring. ring.
  - rewrite kern_turn by auto. ring.
Qed.
Lemma int_background h k eb g (m n : Z) : 0 < h -> 0 < k -> fst g * (2 * h) = 2 * PI * IZR m -> (m = 0%Z -> snd g * (2 * k) = 2 * PI * IZR n) ->
  is_cell_integral (fun x y => Cmult (RtoC eb) (expi (- (fst g * x + snd g * y)))) h k (if Z.eq_dec m 0 then if Z.eq_dec n 0 then RtoC (eb * (2 * h * (2 * k))) else RtoC 0 else RtoC 0).
Proof.
  intros Hh Hk Em En. assert (Em' : - fst g * (2 * h) = 2 * PI * IZR (- m)) by (rewrite opp_IZR; lra). assert (En' : m = 0%Z -> - snd g * (2 * k) = 2 * PI * IZR (- n)) by (intros Hm; specialize (En Hm); rewrite opp_IZR; lra).
  assert (X : is_cell_integral (fun x y => Cmult (RtoC eb) (expi (- (fst g * x + snd g * y)))) h k (Cmult (RtoC eb) (if Z.eq_dec (- m) 0 then Cmult (RtoC (2 * h)) (if Z.eq_dec (- n) 0 then Cmult (RtoC (2 * k)) (expi 0) else RtoC 0) else RtoC 0))).
  { exists (fun y => Cmult (RtoC eb) (if Z.eq_dec (- m) 0 then Cmult (RtoC (2 * h)) (expi (- snd g * y + 0)) else RtoC 0)). split.
    - intros y _. apply (is_CInt_scal (fun x => expi (- (fst g * x + snd g * y)))). eapply is_CInt_ext; [|apply (int_turn h (- fst g) (- snd g * y + 0) (- m)%Z Hh Em')]. intros x _. cbv beta. f_equal. ring.
    - apply is_CInt_scal. destruct (Z.eq_dec (- m) 0); [|apply is_CInt_zero]. apply is_CInt_scal. apply (int_turn k (- snd g) 0 (- n)%Z Hk (En' ltac:(lia))). }
  replace (if Z.eq_dec m 0 then _ else _) with (Cmult (RtoC eb) (if Z.eq_dec (- m) 0 then Cmult (RtoC (2 * h)) (if Z.eq_dec (- n) 0 then Cmult (RtoC (2 * k)) (expi 0) else RtoC 0) else RtoC 0)); [exact X|].
  destruct (Z.eq_dec (- m) 0), (Z.eq_dec m 0); try lia; try ring. destruct (Z.eq_dec (- n) 0), (Z.eq_dec n 0); try lia; try ring. rewrite expi_0, !RtoC_mult. ring.
Qed.

(** from a large square to the cell *)
Lemma RInt_unique2 (f : R -> R) (a b v w : R) : is_RInt f a b v -> is_RInt f a b w -> v = w.
Proof. intros A B. rewrite <- (is_RInt_unique (V := R_CompleteNormedModule) f a b v A). exact (is_RInt_unique (V := R_CompleteNormedModule) f a b w B). Qed.
Lemma CInt_unique f a b v w : is_CInt f a b v -> is_CInt f a b w -> v = w.
Proof. intros (A & B) (A' & B'). apply Ceq; [exact (RInt_unique2 _ _ _ _ _ A A')|exact (RInt_unique2 _ _ _ _ _ B B')]. Qed.
Lemma cell_unique f h k v w : 0 < k -> is_cell_integral f h k v -> is_cell_integral f h k w -> v = w.
Proof.
  intros HM (i & A & B) (j & A' & B'). apply (CInt_unique j (- k) k); [|exact B']. eapply is_CInt_ext; [|exact B]. intros y Hy. rewrite Rmin_left, Rmax_right in Hy by lra.
  eapply CInt_unique; [apply A|apply A']; auto.
Qed.
Lemma int_restrict f h M v : 0 < h <= M -> (forall x, h <= Rabs x -> f x = RtoC 0) -> is_CInt f (- M) M v -> is_CInt f (- h) h v.
Proof.
  intros Hh Hz H. assert (A : is_CInt f (- h) (- M) (RtoC 0)).
  { eapply is_CInt_ext; [|apply is_CInt_zero]. intros x Hx. rewrite Rmin_right, Rmax_left in Hx by lra. symmetry. apply Hz. rewrite Rabs_left1; lra. }
  assert (B : is_CInt f M h (RtoC 0)).
  { eapply is_CInt_ext; [|apply is_CInt_zero]. intros x Hx. rewrite Rmin_right, Rmax_left in Hx by lra. symmetry. apply Hz. rewrite Rabs_pos_eq; lra. }
  eapply is_CInt_eq; [|exact (is_CInt_Chasles _ _ _ _ _ _ (is_CInt_Chasles _ _ _ _ _ _ A H) B)]. ring.
Qed.
Lemma cell_restrict f h k M v : 0 < h <= M -> 0 < k <= M -> (forall x y, h <= Rabs x \/ k <= Rabs y -> f x y = RtoC 0) -> is_CInt2 f M v -> is_cell_integral f h k v.
Proof.
  intros Hh Hk Hz (i & A & B). exists i. split.
  - intros y _. apply (int_restrict _ h M); auto.
  - apply (int_restrict _ k M); auto. intros y Hy. apply (CInt_unique (fun x => f x y) (- M) M); [apply A|].
    eapply is_CInt_ext; [|apply is_CInt_zero]. intros x _. symmetry. apply Hz. auto.
Qed.
Lemma cell_plus f g h k v w : is_cell_integral f h k v -> is_cell_integral g h k w -> is_cell_integral (fun x y => Cplus (f x y) (g x y)) h k (Cplus v w).
Proof.
  intros (i & A & B) (j & A' & B'). exists (fun y => Cplus (i y) (j y)). split; [intros y Hy; apply (is_CInt_plus (fun x => f x y) (fun x => g x y)); auto|].
  apply is_CInt_plus; auto.
Qed.

(** coefficients of a layer *)
Lemma abs0 x : Rabs x = 0 -> x = 0.
Proof. intros H. destruct (Req_dec x 0) as [E|E]; [exact E|]. apply Rabs_no_R0 in E. tauto. Qed.
Lemma near_area ss eb (area : R) : area <> 0 -> (forall s, In s ss -> sh_ft s (0, 0) = RtoC (sh_area s)) ->
  RtoC (total (map (fun s => (sh_eps s - eb) * sh_area s / area) ss)) = Cdiv (clsum (map (contrib eb (0, 0)) ss)) (RtoC area).
Proof.
  intros Ha. induction ss as [|s ss IH]; intros H.
  - cbn. unfold Cdiv. ring.
  - cbn [map total clsum fold_right]. fold (clsum (map (contrib eb (0, 0)) ss)). rewrite RtoC_plus. rewrite IH by (intros t Ht; apply H; right; exact Ht).
    unfold contrib at 2. rewrite (H s (or_introl eq_refl)). rewrite RtoC_div by exact Ha. rewrite !RtoC_mult. unfold Cdiv. ring.
Qed.
Lemma coefficient area ss z1 z2 eb g : area <> 0 -> (forall s, In s ss -> sh_ft s (0, 0) = RtoC (sh_area s)) -> g = (0, 0) \/ ~ is_g0 g ->
  layer_ft_at area (fold_left (append_shape area) ss (shapes_layer z1 z2 eb)) g =
  Cplus (if Req_EM_T (Rabs (fst g) + Rabs (snd g)) 0 then RtoC eb else RtoC 0) (Cdiv (clsum (map (contrib eb g) ss)) (RtoC area)).
Proof.
  intros Ha Hs Hg. destruct (fold_append area ss (shapes_layer z1 z2 eb)) as (S1 & S2 & _ & _ & _ & _ & S3). cbn [shapes_layer ly_shapes ly_epsb ly_epsavg app] in S1, S2, S3.
  destruct (Req_EM_T (Rabs (fst g) + Rabs (snd g)) 0) as [E|E].
  - assert (g = (0, 0)).
    { destruct g as [u v]. cbn [fst snd] in E. pose proof (Rabs_pos u). pose proof (Rabs_pos v). f_equal; apply abs0; lra. }
    subst g. rewrite layer_ft_zero by (unfold is_g0; cbn [fst snd]; rewrite Rabs_R0; assert (0 < / 10 ^ 10) by lra; lra). rewrite S3, RtoC_plus, near_area by auto. reflexivity.
  - destruct Hg as [->|Hg]; [cbn [fst snd] in E; rewrite Rabs_R0 in E; lra|]. rewrite layer_ft_nonzero, S1, S2 by auto. ring.
Qed.

Section Cell.
Variables (args : lat_args) (L : lattice) (a b : R).
Hypothesis (HL : lattice_init args = Ok L) (HB : bricks L a b) (Ha : 0 < a) (Hb : 0 < b).
Lemma cell_indep : independent (lt_a1 L) (lt_a2 L).
Proof.
  destruct (init_shape args L HL) as (_ & _ & E & _). destruct HB as (A & _). unfold independent. intros D. rewrite D, Rabs_R0 in E. nra.
Qed.
Lemma cell_rec g : in_lattice (lt_b1 L) (lt_b2 L) g -> exists m n : Z, fst g * a = 2 * PI * IZR m /\ (m = 0%Z -> snd g * b = 2 * PI * IZR n).
Proof.
  intros Hg. destruct HB as (_ & c & HS). pose proof (reciprocal_exact args L HL cell_indep g) as RC. apply RC in Hg.
  destruct (Hg (a, 0)) as (m & Em). { apply HS. exists 1%Z, 0%Z. unfold comb. cbn [fst snd]. f_equal; ring. }
  destruct (Hg (c, b)) as (n & En). { apply HS. exists 0%Z, 1%Z. unfold comb. cbn [fst snd]. f_equal; ring. }
  unfold inner in *. cbn [fst snd] in *. exists m, n. split; [lra|]. intros ->. pose proof PI_RGT_0. assert (fst g = 0) by nra. nra.
Qed.
Lemma small_vector r : in_lattice (lt_a1 L) (lt_a2 L) r -> Rabs (fst r) < a -> Rabs (snd r) < b -> r = (0, 0).
Proof.
  intros Hr H1 H2. destruct HB as (_ & c & HS). apply HS in Hr. destruct Hr as (m & n & ->). unfold comb in *. cbn [fst snd] in *. apply Rabs_def2 in H1. apply Rabs_def2 in H2.
  assert (n = 0%Z). { assert (K : -1 < IZR n < 1) by nra. destruct K as (U & V). apply lt_IZR in V. apply (lt_IZR (-1)) in U. lia. } subst n.
  assert (m = 0%Z). { assert (K : -1 < IZR m < 1) by nra. destruct K as (U & V). apply lt_IZR in V. apply (lt_IZR (-1)) in U. lia. } subst m. f_equal; ring.
Qed.
Lemma home_cell N s x y : (0 <= N)%Z -> inside_cell (a / 2) (b / 2) s -> - (a / 2) < x < a / 2 -> - (b / 2) < y < b / 2 -> (covers L N s (x, y) <-> sh_inside s x y = true).
Proof.
  intros HN Hs Hx Hy. unfold covers. cbn [fst snd]. split.
  - intros (n1 & n2 & _ & _ & H). pose proof H as H'. apply Hs in H'. destruct H' as (B1 & B2). apply Rabs_def2 in B1. apply Rabs_def2 in B2.
    assert (Z0 : comb n1 n2 (lt_a1 L) (lt_a2 L) = (0, 0)).
    { apply small_vector; [exists n1, n2; reflexivity| |]; unfold comb; cbn [fst snd]; apply Rabs_def1; lra. }
    unfold comb in Z0. injection Z0 as Z1 Z2. match type of H with sh_inside s ?u ?v = true => replace u with x in H by lra; replace v with y in H by lra end. exact H.
  - intros H. exists 0%Z, 0%Z. split; [lia|]. split; [lia|]. match goal with |- sh_inside s ?u ?v = true => replace u with x by ring; replace v with y by ring end. exact H.
Qed.
Lemma nmax_nonneg pts : (0 <= nmax_of L pts)%Z.
Proof.
  unfold nmax_of. set (t := Rdiv _ _). assert (T : 0 <= t).
  { unfold t, Rdiv. apply Rmult_le_pos; [apply sqrt_pos|]. set (q := Rmin _ _). assert (Q : 0 <= q) by (unfold q; apply Rmin_glb; apply sqrt_pos).
    destruct Q as [Q|Q]; [left; apply Rinv_0_lt_compat; exact Q|rewrite <- Q, Rinv_0; lra]. }
  destruct (base_Int_part t) as (U & V). assert (-1 < IZR (Int_part t)) by lra. apply (lt_IZR (-1)) in H. lia.
Qed.
Lemma cell_value ly x y v : (forall s, In s (ly_shapes ly) -> inside_cell (a / 2) (b / 2) s) -> - (a / 2) < x < a / 2 -> - (b / 2) < y < b / 2 ->
  layer_get_eps L ly [(x, y)] = Ok [v] -> last_wins (fun s => sh_inside s x y = true) (ly_epsb ly) (ly_shapes ly) v.
Proof.
  intros Hs Hx Hy E. pose proof (layer_value L ly [(x, y)] [v] 0 (x, y) v E eq_refl eq_refl) as W.
  eapply last_wins_ext; [|exact W]. intros s Hin. apply home_cell; auto. apply nmax_nonneg.
Qed.
Lemma cell_series M sd eb g f : let ss := map fst sd in
  a / 2 <= M -> b / 2 <= M -> in_lattice (lt_b1 L) (lt_b2 L) g -> apart ss ->
  (forall s, In s ss -> inside_cell (a / 2) (b / 2) s) -> (forall p, In p sd -> transform_within M (snd p) g (fst p)) ->
  (forall x y, - (a / 2) < x < a / 2 -> - (b / 2) < y < b / 2 -> last_wins (fun s => sh_inside s x y = true) eb ss (f x y)) ->
  exists I, is_cell_integral (fun x y => Cmult (RtoC (f x y)) (expi (- (fst g * x + snd g * y)))) (a / 2) (b / 2) I /\
    Cmod (Cminus (Cplus (if Req_EM_T (Rabs (fst g) + Rabs (snd g)) 0 then RtoC eb else RtoC 0) (Cdiv (clsum (map (contrib eb g) ss)) (RtoC (lt_ec_area L)))) (Cdiv I (RtoC (lt_ec_area L))))
      <= weighted eb sd / lt_ec_area L.
Proof.
  intros ss Ma Mb Hr Hap Hs Ht He.
  destruct (sum_transform eb g M sd Ht) as (J & HJ & BJ). fold ss in HJ, BJ.
  apply (cell_restrict _ (a / 2) (b / 2)) in HJ; [|lra|lra|].
  2:{ intros x y Hxy. apply none_inside. intros s Hin Hc. apply (Hs s Hin) in Hc. lra. }
  destruct (cell_rec g Hr) as (m & n & Em & En).
  assert (HK := int_background (a / 2) (b / 2) eb g m n ltac:(lra) ltac:(lra) ltac:(replace (2 * (a / 2)) with a by lra; exact Em) ltac:(replace (2 * (b / 2)) with b by lra; exact En)). destruct HB as (cell_area & _).
  set (K := if Z.eq_dec m 0 then _ else _) in HK. destruct (cell_plus _ _ _ _ _ _ HK HJ) as (inn & I1 & I2). exists (Cplus K J). split.
  - exists inn. split; [|exact I2]. intros y Hy. eapply is_CInt_ext; [|apply I1; exact Hy]. intros x Hx. rewrite Rmin_left, Rmax_right in Hx by lra. cbv beta. symmetry. apply eps_sum; [exact Hap|]. apply He; auto.
  - assert (NA : lt_ec_area L <> 0) by (rewrite cell_area; nra).
    assert (EK : (if Req_EM_T (Rabs (fst g) + Rabs (snd g)) 0 then RtoC eb else RtoC 0) = Cdiv K (RtoC (lt_ec_area L))).
    { pose proof PI_RGT_0 as HPI. unfold K. destruct (Req_EM_T _ 0) as [E|E].
      - pose proof (Rabs_pos (fst g)). pose proof (Rabs_pos (snd g)). assert (G1 : fst g = 0) by (apply abs0; lra). assert (G2 : snd g = 0) by (apply abs0; lra).
        rewrite G1 in Em. rewrite G2 in En.
        assert (M0 : m = 0%Z) by (apply eq_IZR; apply (Rmult_eq_reg_l (2 * PI)); lra). specialize (En M0). assert (n = 0%Z) by (apply eq_IZR; apply (Rmult_eq_reg_l (2 * PI)); lra).
        destruct (Z.eq_dec m 0); [|tauto]. destruct (Z.eq_dec n 0); [|tauto]. rewrite <- RtoC_div by exact NA. f_equal. rewrite cell_area. field. lra.
      - destruct (Z.eq_dec m 0) as [->|]; [destruct (Z.eq_dec n 0) as [->|]|].
        + exfalso. apply E. specialize (En eq_refl). assert (G1 : fst g = 0) by nra. assert (G2 : snd g = 0) by nra. rewrite G1, G2, Rabs_R0. ring.
        + unfold Cdiv. ring.
        + unfold Cdiv. ring. }
    rewrite EK. replace (Cminus _ _) with (Cdiv (Cminus (clsum (map (contrib eb g) ss)) J) (RtoC (lt_ec_area L))) by (unfold Cdiv; ring).
    assert (P : 0 < lt_ec_area L) by (rewrite cell_area; nra). rewrite Cmod_div by (apply RtoC_neq0; exact NA). rewrite Cmod_R, (Rabs_pos_eq (lt_ec_area L)) by lra.
    apply Rmult_le_compat_r; [left; apply Rinv_0_lt_compat; exact P|exact BJ].
Qed.
Lemma cell_integral M sd z1 z2 eb g eps :
  let ss := map fst sd in let ly := fold_left (append_shape (lt_ec_area L)) ss (shapes_layer z1 z2 eb) in
  a / 2 <= M -> b / 2 <= M -> in_lattice (lt_b1 L) (lt_b2 L) g -> g = (0, 0) \/ ~ is_g0 g -> apart ss ->
  (forall s, In s ss -> inside_cell (a / 2) (b / 2) s /\ sh_ft s (0, 0) = RtoC (sh_area s)) -> (forall p, In p sd -> transform_within M (snd p) g (fst p)) ->
  (forall x y, layer_get_eps L ly [(x, y)] = Ok [eps x y]) ->
  exists I, is_cell_integral (fun x y => Cmult (RtoC (eps x y)) (expi (- (fst g * x + snd g * y)))) (a / 2) (b / 2) I /\
    Cmod (Cminus (layer_ft_at (lt_ec_area L) ly g) (Cdiv I (RtoC (lt_ec_area L)))) <= weighted eb sd / lt_ec_area L.
Proof.
  intros ss ly Ma Mb Hr Hg Hap Hs Ht He. destruct (fold_append (lt_ec_area L) ss (shapes_layer z1 z2 eb)) as (S1 & S2 & _). cbn [shapes_layer ly_shapes ly_epsb app] in S1, S2. fold ly in S1, S2.
  assert (NA : lt_ec_area L <> 0) by (destruct HB as (-> & _); nra). unfold ly. rewrite coefficient; auto; [|intros s Hin; apply Hs; exact Hin].
  apply (cell_series M sd eb g eps Ma Mb Hr Hap); auto.
  - intros s Hin. apply Hs. exact Hin.
  - intros x y Hx Hy. fold ss. rewrite <- S2 at 1. rewrite <- S1. apply cell_value; auto. intros s Hin. apply Hs. rewrite <- S1. exact Hin.
Qed.
End Cell.
