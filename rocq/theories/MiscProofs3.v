(** Proofs: GDS counterexamples, rasters, plots. *)
From Verif Require Import Py CBase LatticeModel PhcModel ShapesModel ShapesSpec ShapesProofs ShapesProofs2 RecipModel RadModel MiscModel MiscSpec MiscProofs MiscProofs2.
Open Scope R_scope.
Open Scope list_scope.

(** ** GDS *)
Lemma hexagon_twice eps x y a P tol i : hexagon_init eps x y a = Ok P -> exists pts, element_of tol i (GPoly KHexagon P) = Ok (ElPolygon pts i 1) /\
  List.length pts = 7%nat /\ nth 6 pts (0, 0) = nth 0 pts (0, 0).
Proof.
  intros H. unfold hexagon_init in H. pose proof (export_poly _ _ _ P tol i KHexagon H Logic.I) as E. eexists. split; [exact E|]. split; reflexivity.
Qed.
Lemma NoDup_nth_eq {A} (l : list A) i j d : NoDup l -> (i < List.length l)%nat -> (j < List.length l)%nat -> nth i l d = nth j l d -> i = j.
Proof. intros N. exact (proj1 (NoDup_nth l d) N i j). Qed.
Lemma hexagon_repeats : forall eps x y a, exists P, hexagon_init eps x y a = Ok P /\ forall gdspy fs name unit tol fs' f pts l dt,
  generate_gds gdspy fs [[GPoly KHexagon P]] name unit tol = (fs', Ok tt) -> fs' name = Some f -> gf_cell f = [ElPolygon pts l dt] -> ~ NoDup pts.
Proof.
  intros eps x y a. destruct (hexagon_ok eps x y a) as (P & HP & _). exists P. split; [exact HP|]. intros gdspy fs name unit tol fs' f pts l dt Hg Hf Hc N.
  pose proof (gds_all_or_nothing gdspy fs [[GPoly KHexagon P]] name unit tol) as G. rewrite Hg in G. destruct G as [(_ & _ & _ & _ & es & E & F)|(_ & E & _)]; [|discriminate].
  rewrite E in Hf. injection Hf as <-. cbn [gf_cell] in Hc. subst es. cbn [numbered map app] in F. inversion F as [|? ? ? ? X _]; subst. cbn [fst snd] in X.
  destruct (hexagon_twice eps x y a P tol 0 HP) as (pts' & E' & L & S1). rewrite E' in X. injection X as <- <- <-.
  assert (6 = 0)%nat; [|discriminate]. apply (NoDup_nth_eq pts' 6 0 (0, 0) N); [lia|lia|exact S1].
Qed.
Lemma fourier_circle : exists P, fourier_init 1 0 0 [2] [] 100 = Ok P.
Proof.
  destruct (fourier_ok 1 0 0 [2] [] 100) as (P & E & _); [discriminate| |exists P; exact E].
  intros i Hi. unfold fourier_radius. cbn. lra.
Qed.
Lemma fourier_not_exported k P fs name unit tol : k = KFourier \/ k = KOther -> generate_gds true fs [[GPoly k P]] name unit tol = (fs, Raise RuntimeError).
Proof. intros [->| ->]; reflexivity. Qed.
Lemma square_export eps x y a P tol i : a <> 0 -> square_init eps x y a = Ok P -> exists pts, element_of tol i (GPoly KSquare P) = Ok (ElPolygon pts i 1) /\ NoDup pts /\ List.length pts = 4%nat.
Proof.
  intros Ha H. unfold square_init in H. pose proof (export_poly _ _ _ P tol i KSquare H Logic.I) as E. eexists. split; [exact E|]. split; [|reflexivity].
  cbn [map combine]. repeat constructor; cbn [In]; intros F; repeat match type of F with _ \/ _ => destruct F as [F|F] | False => contradiction F | _ => pose proof (f_equal fst F) as F1; pose proof (f_equal snd F) as F2; cbn [fst snd] in F1, F2; exfalso; lra end.
Qed.

(** ** Rasters *)
Lemma raster_no_bound fs L n1 n2 cs name unit : generate_gds_raster fs L n1 n2 cs name unit false = (fs, Raise UnboundLocalError).
Proof. reflexivity. Qed.
Lemma frac_range (x : R) n : (2 <= n)%nat -> 0 <= x <= INR n - 1 -> Rabs (x / (INR n - 1) - 1 / 2) <= 1 / 2.
Proof.
  intros Hn H. assert (2 <= INR n) by (change 2 with (INR 2); apply le_INR; exact Hn). assert (0 <= x / (INR n - 1) <= 1).
  { split; [apply Rmult_le_pos; [lra|left; apply Rinv_0_lt_compat; lra]|]. apply Rmult_le_reg_r with (INR n - 1); [lra|]. unfold Rdiv. rewrite Rmult_assoc, Rinv_l by lra. lra. }
  apply Rabs_le. lra.
Qed.
Lemma raster_bound fs L n1 n2 cs name unit : (2 <= n1)%nat -> (2 <= n2)%nat ->
  Forall (Forall (fun p => 0 <= fst p <= INR n1 - 1 /\ 0 <= snd p <= INR n2 - 1)) cs ->
  exists fs' ps b, generate_gds_raster fs L n1 n2 cs name unit true = (fs', Ok tt) /\ only_changed fs fs' name /\ fs' name = Some (GdsFile unit (ps ++ [ElPolygon b 0 1])) /\
  Forall2 (fun c e => exists pts, e = ElPolygon pts 0 0 /\ List.length pts = List.length c /\ Forall (in_cell L) pts) cs ps /\
  (forall u v, In (cell_point L u v) b <-> exists u' v', Rabs u' = 1 / 2 /\ Rabs v' = 1 / 2 /\ cell_point L u v = cell_point L u' v').
Proof.
  intros H1 H2 Hc. unfold generate_gds_raster. eexists _, _, _. split; [reflexivity|]. split; [apply write_only|]. split; [apply write_same|]. split.
  - induction Hc as [|c cs Hp Hcs IH]; [constructor|]. cbn [map]. constructor; [|exact IH]. eexists. split; [reflexivity|]. split; [apply map_length|].
    apply Forall_forall. intros q Hq. apply in_map_iff in Hq. destruct Hq as (p & <- & Hin). destruct (proj1 (Forall_forall _ c) Hp p Hin) as [A B].
    exists (fst p / (INR n1 - 1) - 1 / 2), (snd p / (INR n2 - 1) - 1 / 2). split; [apply frac_range; assumption|]. split; [apply frac_range; assumption|]. split; reflexivity.
  - intros u v. cbn [map fst snd]. split.
    + intros H. cbn [In] in H. destruct H as [H|[H|[H|[H|[]]]]]; eexists _, _; (split; [|split; [|symmetry; exact H]]);
        unfold Rabs; destruct (Rcase_abs _); lra.
    + intros (u' & v' & Hu & Hv & E). rewrite E. clear E u v.
      assert (Du : u' = 1 / 2 \/ u' = - (1 / 2)) by (revert Hu; unfold Rabs; destruct (Rcase_abs u'); intros; [right|left]; lra).
      assert (Dv : v' = 1 / 2 \/ v' = - (1 / 2)) by (revert Hv; unfold Rabs; destruct (Rcase_abs v'); intros; [right|left]; lra).
      destruct Du as [-> | ->], Dv as [-> | ->]; cbn [In]; tauto.
Qed.

(** ** ft2square *)
Lemma ft2square_raises L fc gv : exists e, ft2square L fc gv = Raise e /\
  (e = NotImplementedError <-> ~ (lt_type L = LSquare \/ lt_type L = LHexagonal)) /\
  (e = NameError <-> (lt_type L = LSquare \/ lt_type L = LHexagonal) /\ gv <> [] /\ fc <> []) /\
  (e = IndexError <-> (lt_type L = LSquare \/ lt_type L = LHexagonal) /\ gv <> [] /\ fc = []) /\
  (e = ValueError <-> (lt_type L = LSquare \/ lt_type L = LHexagonal) /\ gv = []).
Proof.
  unfold ft2square. destruct (lt_type L); destruct gv as [|g gv]; try destruct fc as [|x fc]; eexists; (split; [reflexivity|]);
    (split; [|split; [|split]]); intuition congruence.
Qed.

(** ** Abscissa *)
Definition seg (d : R * R) : R := sqrt (fst d * fst d + snd d * snd d).
Lemma diffs_length ks : List.length (diffs ks) = (List.length ks - 1)%nat.
Proof. induction ks as [|a [|b t] IH]; [reflexivity|reflexivity|]. cbn [diffs List.length] in *. lia. Qed.
Lemma diffs_nth ks i : (S i < List.length ks)%nat -> seg (nth i (diffs ks) (0, 0)) = dist (nth i ks (0, 0)) (nth (S i) ks (0, 0)).
Proof.
  revert i. induction ks as [|a [|b t] IH]; intros i H; cbn [List.length] in H; try lia. destruct i as [|i].
  - cbn [diffs nth]. unfold seg, dist. cbn [fst snd]. f_equal. ring.
  - change (diffs (a :: b :: t)) with ((fst b - fst a, snd b - snd a) :: diffs (b :: t)). cbn [nth]. rewrite IH by (cbn [List.length]; lia). reflexivity.
Qed.
Lemma cumsum_length acc l : List.length (cumsum acc l) = List.length l.
Proof. revert acc; induction l; intros; cbn; auto. Qed.
Lemma cumsum_nth l : forall acc i, (i < List.length l)%nat -> nth i (cumsum acc l) 0 = acc + rsuml (firstn (S i) l).
Proof.
  induction l as [|x l IH]; intros acc [|i] H; cbn [List.length] in H; try lia.
  - cbn. lra.
  - cbn [cumsum nth]. rewrite IH by lia. unfold rsuml. cbn [firstn fold_right]. lra.
Qed.
Lemma rsuml_map_scal (l : list R) t : rsuml (map (fun x => x / t) l) = rsuml l / t.
Proof. unfold rsuml. induction l as [|x l IH]; cbn [map fold_right]; [unfold Rdiv; ring|]. rewrite IH. unfold Rdiv. ring. Qed.
Lemma travelled_firstn ks i : (i <= List.length ks - 1)%nat -> rsuml (firstn i (map seg (diffs ks))) = travelled ks i.
Proof.
  intros H. induction i as [|i IH]; [reflexivity|]. unfold travelled in *. rewrite sum_to_S, <- IH by lia.
  assert (L : (i < List.length (map seg (diffs ks)))%nat) by (rewrite map_length, diffs_length; lia).
  assert (E : firstn (S i) (map seg (diffs ks)) = firstn i (map seg (diffs ks)) ++ [nth i (map seg (diffs ks)) 0]).
  { clear -L. revert i L. generalize (map seg (diffs ks)). induction l as [|x l IHl]; intros [|i] L; cbn in L; try lia; [reflexivity|]. cbn [firstn app nth]. f_equal. rewrite <- IHl by lia. reflexivity. }
  rewrite E, rsuml_app. rewrite (nth_map_of _ _ _ (0, 0)) by (rewrite diffs_length; rewrite map_length, diffs_length in L; exact L). rewrite diffs_nth by lia. unfold rsuml at 2. cbn. lra.
Qed.
Lemma dist_nonneg p q : 0 <= dist p q. Proof. apply sqrt_pos. Qed.
Lemma travelled_mono ks i j : (i <= j)%nat -> travelled ks i <= travelled ks j.
Proof. intros H. induction H as [|j H IH]; [lra|]. unfold travelled in *. rewrite sum_to_S. pose proof (dist_nonneg (nth j ks (0, 0)) (nth (S j) ks (0, 0))). lra. Qed.
Lemma calc_x_units ks m : ks <> [] -> travelled ks (List.length ks - 1) <> 0 -> let X0 := fst (calculate_x ks m true) in
  List.length X0 = List.length ks /\ (forall i, (i < List.length ks)%nat -> nth i X0 0 = travelled ks i / travelled ks (List.length ks - 1)).
Proof.
  intros Hk Ht X0. assert (L0 : (0 < List.length ks)%nat) by (destruct ks; [contradiction|cbn; lia]). unfold X0, calculate_x. cbn [fst].
  change (map (fun d => sqrt (fst d * fst d + snd d * snd d)) (diffs ks)) with (map seg (diffs ks)).
  assert (T : rsuml (map seg (diffs ks)) = travelled ks (List.length ks - 1)).
  { rewrite <- travelled_firstn by lia. rewrite firstn_all2; [reflexivity|]. rewrite map_length, diffs_length. lia. }
  split; [cbn [List.length]; rewrite cumsum_length, !map_length, diffs_length; lia|].
  intros [|i] Hi; [cbn [nth]; unfold travelled, sum_to; cbn; unfold Rdiv; ring|]. cbn [nth]. rewrite cumsum_nth by (rewrite !map_length, diffs_length; lia).
  rewrite firstn_map, rsuml_map_scal, travelled_firstn, T by lia. lra.
Qed.
Lemma calc_x_shape ks m u : let '(X0, X) := calculate_x ks m u in List.length X = List.length X0 /\ forall i, (i < List.length X0)%nat -> nth i X [] = List.repeat (nth i X0 0) m.
Proof.
  unfold calculate_x. set (X0 := if u then _ else _). split; [apply map_length|]. intros i Hi.
  transitivity (nth i (map (fun x => List.repeat x m) X0) ((fun x => List.repeat x m) 0)); [apply nth_indep; rewrite map_length; exact Hi|apply (map_nth (fun x => List.repeat x m))].
Qed.
Lemma calc_x_plain ks m : fst (calculate_x ks m false) = map INR (seq 0 (List.length ks)).
Proof. reflexivity. Qed.
Lemma distinct_travelled ks i j : (i < j < List.length ks)%nat -> nth i ks (0, 0) <> nth j ks (0, 0) -> 0 < travelled ks (List.length ks - 1).
Proof.
  intros Hij Hne. destruct (Rle_lt_or_eq_dec 0 (travelled ks (List.length ks - 1))) as [H|H]; [apply (travelled_mono ks 0); lia|exact H|]. exfalso. apply Hne.
  assert (Z : forall k, (S k < List.length ks)%nat -> nth k ks (0, 0) = nth (S k) ks (0, 0)).
  { intros k Hk. assert (A : travelled ks (S k) <= travelled ks (List.length ks - 1)) by (apply travelled_mono; lia). assert (B : 0 <= travelled ks k) by (apply (travelled_mono ks 0); lia).
    unfold travelled in A, B. rewrite sum_to_S in A. pose proof (dist_nonneg (nth k ks (0, 0)) (nth (S k) ks (0, 0))) as D. unfold travelled in H. assert (E : dist (nth k ks (0, 0)) (nth (S k) ks (0, 0)) = 0) by lra.
    unfold dist in E. destruct (nth k ks (0, 0)) as [x y], (nth (S k) ks (0, 0)) as [x' y']. cbn [fst snd] in E. apply sqrt_eq_0 in E; [|pose proof (pow2_ge_0 (x' - x)); pose proof (pow2_ge_0 (y' - y)); lra].
    pose proof (pow2_ge_0 (x' - x)) as P1. pose proof (pow2_ge_0 (y' - y)) as P2. assert (Q1 : (x' - x) ^ 2 = 0) by lra. assert (Q2 : (y' - y) ^ 2 = 0) by lra.
    assert (x' - x = 0) by (apply (Rsqr_0_uniq); unfold Rsqr; lra). assert (y' - y = 0) by (apply (Rsqr_0_uniq); unfold Rsqr; lra). f_equal; lra. }
  clear Hne. destruct Hij as [H1 H2]. induction H1 as [|j H1 IH]; [apply Z; lia|]. rewrite IH by lia. apply Z. lia.
Qed.

Lemma calc_x_units' ks m i0 j0 : (i0 < j0 < List.length ks)%nat -> nth i0 ks (0, 0) <> nth j0 ks (0, 0) ->
  let X0 := fst (calculate_x ks m true) in List.length X0 = List.length ks /\ 0 < travelled ks (List.length ks - 1) /\
  (forall i, (i < List.length ks)%nat -> nth i X0 0 = travelled ks i / travelled ks (List.length ks - 1)) /\
  nth 0 X0 0 = 0 /\ nth (List.length ks - 1) X0 0 = 1 /\ (forall i j, (i <= j < List.length ks)%nat -> nth i X0 0 <= nth j X0 0).
Proof.
  intros Hij Hne X0. pose proof (distinct_travelled ks i0 j0 Hij Hne) as T. destruct (calc_x_units ks m ltac:(intros ->; cbn in Hij; lia) ltac:(lra)) as [L H]. fold X0 in L, H.
  split; [exact L|]. split; [exact T|]. split; [exact H|]. split; [|split].
  - rewrite H by lia. replace (travelled ks 0) with 0 by reflexivity. unfold Rdiv. ring.
  - rewrite H by lia. field. lra.
  - intros i j Hi. rewrite !H by lia. apply Rmult_le_compat_r; [left; apply Rinv_0_lt_compat; exact T|apply travelled_mono; lia].
Qed.

(** ** Light line *)
Lemma prop_sq (k : R * R) eps w : 0 <= eps -> 0 <= w -> propagates eps k w <-> sqrt (fst k * fst k + snd k * snd k) <= sqrt eps * (2 * PI * w).
Proof.
  intros He Hw. unfold propagates. pose proof PI_RGT_0 as Hpi. set (m := fst k * fst k + snd k * snd k). assert (Hm : 0 <= m) by (unfold m; nra).
  replace (fst k ^ 2 + snd k ^ 2) with m by (unfold m; ring). assert (Hs : 0 <= sqrt eps * (2 * PI * w)) by (apply Rmult_le_pos; [apply sqrt_pos|nra]).
  replace (eps * (2 * PI * w) ^ 2) with (Rsqr (sqrt eps * (2 * PI * w))) by (unfold Rsqr; rewrite <- (sqrt_sqrt eps He) at 3; ring).
  rewrite <- (Rsqr_sqrt m Hm) at 1. split; intros H; [apply Rsqr_incr_0; auto; apply sqrt_pos|apply Rsqr_incr_1; auto; apply sqrt_pos].
Qed.
Lemma LL_value P k conv : calculate_LL [k] P conv = [conv * (sqrt (fst k * fst k + snd k * snd k) / 2 / PI / sqrt (Rmax (ly_epsavg (pc_clad_l P)) (ly_epsavg (pc_clad_u P))))].
Proof. unfold calculate_LL. cbn [map]. f_equal. unfold Rdiv. ring. Qed.
Lemma LL_map ks P conv : calculate_LL ks P conv = flat_map (fun k => calculate_LL [k] P conv) ks.
Proof. unfold calculate_LL. induction ks as [|k t IH]; [reflexivity|]. cbn [map flat_map app]. rewrite IH. reflexivity. Qed.
Lemma rmax_sqrt a b : sqrt (Rmax a b) = Rmax (sqrt a) (sqrt b).
Proof.
  unfold Rmax at 1. destruct (Rle_dec a b) as [H|H]; symmetry; [apply Rmax_right|apply Rmax_left]; apply sqrt_le_1_alt; lra.
Qed.
Lemma radiates_iff P k w : 0 < ly_epsavg (pc_clad_l P) -> 0 < ly_epsavg (pc_clad_u P) -> 0 <= w ->
  (radiates P k w <-> sqrt (fst k * fst k + snd k * snd k) / 2 / PI / sqrt (Rmax (ly_epsavg (pc_clad_l P)) (ly_epsavg (pc_clad_u P))) <= w).
Proof.
  intros Hl Hu Hw. pose proof PI_RGT_0 as Hpi. set (el := ly_epsavg (pc_clad_l P)) in *. set (eu := ly_epsavg (pc_clad_u P)) in *. set (m := sqrt (fst k * fst k + snd k * snd k)).
  assert (Hs : 0 < sqrt (Rmax el eu)) by (apply sqrt_lt_R0; apply Rlt_le_trans with el; [exact Hl|apply Rmax_l]).
  assert (Q : m / 2 / PI / sqrt (Rmax el eu) <= w <-> m <= sqrt (Rmax el eu) * (2 * PI * w)).
  { split; intros H.
    - apply Rmult_le_compat_r with (r := sqrt (Rmax el eu) * (2 * PI)) in H; [|apply Rmult_le_pos; lra].
      replace (m / 2 / PI / sqrt (Rmax el eu) * (sqrt (Rmax el eu) * (2 * PI))) with m in H by (field; lra). lra.
    - apply Rmult_le_reg_r with (sqrt (Rmax el eu) * (2 * PI)); [apply Rmult_lt_0_compat; lra|].
      replace (m / 2 / PI / sqrt (Rmax el eu) * (sqrt (Rmax el eu) * (2 * PI))) with m by (field; lra). lra. }
  rewrite Q. unfold radiates. fold el eu. rewrite !prop_sq by lra. fold m. rewrite rmax_sqrt.
  assert (Hp : 0 <= 2 * PI * w) by nra. split.
  - intros [H|H]; (eapply Rle_trans; [exact H|]); apply Rmult_le_compat_r; auto; [apply Rmax_l|apply Rmax_r].
  - intros H. unfold Rmax in H. destruct (Rle_dec (sqrt el) (sqrt eu)); [right|left]; exact H.
Qed.
Lemma LL_least P k : 0 < ly_epsavg (pc_clad_l P) -> 0 < ly_epsavg (pc_clad_u P) ->
  exists w0, (forall conv, calculate_LL [k] P conv = [conv * w0]) /\ 0 <= w0 /\ radiates P k w0 /\ forall w, 0 <= w -> (radiates P k w <-> w0 <= w).
Proof.
  intros Hl Hu. set (w0 := sqrt (fst k * fst k + snd k * snd k) / 2 / PI / sqrt (Rmax (ly_epsavg (pc_clad_l P)) (ly_epsavg (pc_clad_u P)))). exists w0.
  assert (H0 : 0 <= w0).
  { unfold w0. pose proof PI_RGT_0. assert (0 < sqrt (Rmax (ly_epsavg (pc_clad_l P)) (ly_epsavg (pc_clad_u P)))) by (apply sqrt_lt_R0; apply Rlt_le_trans with (ly_epsavg (pc_clad_l P)); [exact Hl|apply Rmax_l]).
    pose proof (sqrt_pos (fst k * fst k + snd k * snd k)). unfold Rdiv. repeat (apply Rmult_le_pos); try lra; left; apply Rinv_0_lt_compat; lra. }
  split; [intros; apply LL_value|]. split; [exact H0|]. split; [apply (radiates_iff P k w0 Hl Hu H0); unfold w0; lra|]. intros w Hw. apply radiates_iff; assumption.
Qed.
(** what compute_rad opens below and above the light line *)
Lemma LL_channels P k (gk : nat -> R) ng i w w0 : 0 < ly_epsavg (pc_clad_l P) -> 0 < ly_epsavg (pc_clad_u P) -> 0 <= w -> calculate_LL [k] P 1 = [w0] ->
  (i < ng)%nat -> gk i = sqrt (fst k * fst k + snd k * snd k) ->
  (In i (rad_inds ng gk (ly_epsavg (pc_clad_l P)) (2 * PI * w)) \/ In i (rad_inds ng gk (ly_epsavg (pc_clad_u P)) (2 * PI * w)) <-> w0 <= w).
Proof.
  intros Hl Hu Hw H0 Hi Hg. destruct (LL_least P k Hl Hu) as (w1 & E & _ & _ & R1). specialize (E 1). rewrite H0 in E. injection E as ->. rewrite Rmult_1_l. rewrite <- (R1 w Hw).
  assert (G : forall eps, In i (rad_inds ng gk eps (2 * PI * w)) <-> propagates eps k w).
  { intros eps. unfold rad_inds. rewrite filter_In, in_seq, Rleb_true, Hg. unfold propagates. rewrite sqrt_sqrt by nra.
    replace (fst k ^ 2 + snd k ^ 2) with (fst k * fst k + snd k * snd k) by ring. replace ((2 * PI * w) ^ 2) with (2 * PI * w * (2 * PI * w)) by ring. intuition lia. }
  rewrite !G. reflexivity.
Qed.

(** ** Quality factor *)
Lemma Q_bounds w g : 0 < w -> 0 <= g -> 0 < calculate_Q w g <= w * (10 ^ 16 / 2) /\ (0 < g -> calculate_Q w g < w / (2 * g) /\ w / (2 * g) - calculate_Q w g <= w / (2 * g) * ((1 / 10 ^ 16) / g)).
Proof.
  intros Hw Hg. unfold calculate_Q. set (e := 1 / 10 ^ 16). assert (He : 0 < e) by (unfold e; lra). split; [split|].
  - unfold Rdiv. repeat apply Rmult_lt_0_compat; try lra. apply Rinv_0_lt_compat. lra.
  - apply Rmult_le_reg_r with (g + e); [lra|]. replace (w / 2 / (g + e) * (g + e)) with (w / 2) by (field; lra).
    replace (w / 2) with (w * (10 ^ 16 / 2) * e) by (unfold e; field). apply Rmult_le_compat_l; [|lra]. apply Rmult_le_pos; lra.
  - intros Hg'. assert (Q : w / (2 * g) - w / 2 / (g + e) = w / (2 * g) * (e / (g + e))) by (field; lra).
    assert (P1 : 0 < w / (2 * g)) by (apply Rdiv_lt_0_compat; lra). assert (P2 : 0 < e / (g + e)) by (apply Rdiv_lt_0_compat; lra). split.
    + pose proof (Rmult_lt_0_compat _ _ P1 P2). lra.
    + rewrite Q. apply Rmult_le_compat_l; [lra|]. apply Rmult_le_compat_l; [lra|]. apply Rinv_le_contravar; lra.
Qed.
Lemma Q_decreasing w g g' : 0 < w -> 0 <= g -> g < g' -> calculate_Q w g' < calculate_Q w g.
Proof.
  intros Hw Hg Hg'. unfold calculate_Q. set (e := 1 / 10 ^ 16). assert (He : 0 < e) by (unfold e; lra). apply Rmult_lt_compat_l; [lra|]. apply Rinv_lt_contravar; [apply Rmult_lt_0_compat; lra|lra].
Qed.
