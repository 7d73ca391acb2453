(** Lemmas behind PhcProps.v, second part (C10-C17) *)
From Coq Require Import Permutation.
From Verif Require Import Py LatticeModel CBase PhcModel PhcSpec PhcProofs.
Open Scope R_scope.

(** ** C10, C11: look-up by height *)
Lemma z_loop_spec z : forall rest zmax lind, exists j zm,
  z_loop z zmax lind rest = ((lind + j)%nat, zm) /\ (j <= List.length rest)%nat /\
  nth_error (zmax :: map ly_zmax rest) j = Some zm /\
  (forall i w, (i < j)%nat -> nth_error (zmax :: map ly_zmax rest) i = Some w -> w < z) /\
  (z <= zm \/ j = List.length rest).
Proof.
  induction rest as [|ly rest IH]; intros zmax lind; cbn [z_loop].
  - exists 0%nat, zmax. rewrite Nat.add_0_r. destruct (Rltb zmax z); simpl; repeat split; auto; intros; lia.
  - destruct (Rltb zmax z) eqn:E.
    + destruct (IH (ly_zmax ly) (S lind)) as (j & zm & H1 & H2 & H3 & H4 & H5).
      exists (S j), zm. rewrite H1. replace (S lind + j)%nat with (lind + S j)%nat by lia.
      repeat split; simpl; auto; try lia.
      * intros [|i] w Hi Hw; simpl in Hw; [inversion Hw; subst; apply Rltb_true; auto|].
        apply (H4 i); auto; lia.
      * destruct H5; [left; auto|right; lia].
    + exists 0%nat, zmax. rewrite Nat.add_0_r. repeat split; simpl; auto; try lia.
      left. apply Rltb_false; auto.
Qed.

Lemma Geo_interfaces P ds i : Geo P ds -> (i <= List.length ds)%nat ->
  nth_error (ly_zmax (pc_clad_l P) :: map ly_zmax (pc_layers P)) i = Some (total (firstn i ds)).
Proof.
  intros G Hi. destruct i; simpl.
  - destruct G as (_ & H & _). unfold zinfo in H. injection H; intros _ E _. rewrite E; auto.
  - destruct (nth_error (pc_layers P) i) as [ly|] eqn:Hn.
    + rewrite nth_error_map, Hn. simpl. f_equal.
      destruct (Geo_layer P ds i ly G Hn) as (d & _ & _ & -> & _). auto.
    + apply nth_error_None in Hn. rewrite (Geo_length P ds G) in Hn. lia.
Qed.

(** the index is the number of the first interface at or above z *)
Lemma z_to_lind_spec P ds z : Geo P ds ->
  (z_to_lind P z <= S (List.length ds))%nat /\
  (forall i, (i < z_to_lind P z)%nat -> (i <= List.length ds)%nat -> total (firstn i ds) < z) /\
  ((z_to_lind P z <= List.length ds)%nat -> z <= total (firstn (z_to_lind P z) ds)).
Proof.
  intros G. unfold z_to_lind.
  destruct (z_loop_spec z (pc_layers P) (ly_zmax (pc_clad_l P)) 0) as (j & zm & E & Hj & Hn & Hlt & Hend).
  rewrite E. cbn [plus]. rewrite (Geo_length P ds G) in *.
  rewrite (Geo_interfaces P ds j G Hj) in Hn. inversion Hn as [Hzm].
  assert (Hlt' : forall i, (i < j)%nat -> total (firstn i ds) < z).
  { intros i Hi. apply (Hlt i); auto. apply Geo_interfaces; auto; lia. }
  destruct (Rltb (total (firstn j ds)) z) eqn:Ez; cbn [andb].
  - apply Rltb_true in Ez. destruct (Nat.eqb_spec j (List.length ds)) as [Ej|Ej].
    + repeat split; try lia. intros i Hi1 Hi2.
      destruct (Nat.eq_dec i j) as [->|]; auto. apply Hlt'; lia.
    + destruct Hend; [lra|congruence].
  - apply Rltb_false in Ez. repeat split; auto.
Qed.

Lemma lind_layer_z P ds i : Geo P ds -> (i <= S (List.length ds))%nat ->
  exists ly, lind_layer P i = Some ly /\
    ((i = 0%nat /\ ly = pc_clad_l P) \/
     (i = S (List.length ds) /\ ly = pc_clad_u P) \/
     (exists k, i = S k /\ nth_error (pc_layers P) k = Some ly)).
Proof.
  intros G Hi. unfold lind_layer. destruct i as [|k]; simpl; [eauto|].
  destruct (Nat.eq_dec k (List.length ds)) as [->|Hk].
  - exists (pc_clad_u P). rewrite nth_error_app2 by (rewrite (Geo_length P ds G); auto).
    rewrite (Geo_length P ds G), Nat.sub_diag. simpl. auto.
  - destruct (nth_error (pc_layers P) k) as [ly|] eqn:Hn.
    + exists ly. rewrite nth_error_app1 by (rewrite (Geo_length P ds G); lia). rewrite Hn.
      split; auto. right; right. exists k; auto.
    + apply nth_error_None in Hn. rewrite (Geo_length P ds G) in Hn. lia.
Qed.

Lemma lookup_agrees L el eu ops z :
  let P := run_ops (phc_init L el eu) ops in
  let ds := thicknesses ops in
  - 10 ^ 10 <= z < 10 ^ 10 ->
  (forall i, (i <= List.length ds)%nat -> z <> total (firstn i ds)) ->
  exists ly, lind_layer P (z_to_lind P z) = Some ly /\ ly_zmin ly <= z < ly_zmax ly.
Proof.
  intros P ds Hz Hni. pose proof (Geo_reach L el eu ops) as G. fold P ds in G.
  destruct (z_to_lind_spec P ds z G) as (H1 & H2 & H3).
  destruct (lind_layer_z P ds _ G H1) as (ly & E & Hc). exists ly; split; auto.
  destruct Hc as [(E0 & ->)|[(E0 & ->)|(k & Ek & Hn)]].
  - rewrite E0 in *. specialize (H3 ltac:(lia)). simpl in H3.
    pose proof (Hni 0%nat ltac:(lia)) as Hne. simpl in Hne.
    destruct G as (_ & H & _). unfold zinfo in H. injection H; intros _ -> ->. lra.
  - rewrite E0 in *. pose proof (H2 (List.length ds) ltac:(lia) ltac:(lia)) as Ht.
    rewrite total_all in Ht. destruct G as (_ & _ & -> & ->). lra.
  - destruct (Geo_layer P ds k ly G Hn) as (d & Hd & -> & -> & _).
    assert (Hk : (k < List.length ds)%nat) by (apply nth_error_Some; congruence).
    rewrite Ek in *. pose proof (H2 k ltac:(lia) ltac:(lia)). specialize (H3 ltac:(lia)).
    pose proof (Hni (S k) ltac:(lia)). lra.
Qed.

Lemma lookup_at_interface L el eu ops i :
  let P := run_ops (phc_init L el eu) ops in
  let ds := thicknesses ops in
  Forall (fun d => 0 < d) ds -> (i <= List.length ds)%nat -> total ds < 10 ^ 10 ->
  exists below above,
    lind_layer P (z_to_lind P (total (firstn i ds))) = Some below /\
    lind_layer P (S (z_to_lind P (total (firstn i ds)))) = Some above /\
    ly_zmin above <= total (firstn i ds) < ly_zmax above /\
    ~ (ly_zmin below <= total (firstn i ds) < ly_zmax below).
Proof.
  intros P ds Hp Hi Ht. pose proof (Geo_reach L el eu ops) as G. fold P ds in G.
  assert (Hp0 : Forall (fun d => 0 <= d) ds).
  { eapply Forall_impl; [|exact Hp]. intros; simpl in *; lra. }
  destruct (z_to_lind_spec P ds (total (firstn i ds)) G) as (H1 & H2 & H3).
  set (k := z_to_lind P (total (firstn i ds))) in *.
  assert (Hk : k = i).
  { destruct (Nat.lt_total k i) as [Hl|[Hl|Hl]]; auto; exfalso.
    - specialize (H3 ltac:(lia)).
      destruct (nth_error ds k) as [d|] eqn:Hd.
      + pose proof (total_firstn_S ds k d Hd). rewrite Forall_forall in Hp.
        pose proof (Hp d (nth_error_In _ _ Hd)).
        pose proof (total_mono ds (S k) i Hp0 ltac:(lia)). lra.
      + apply nth_error_None in Hd. lia.
    - pose proof (H2 i Hl Hi). lra. }
  destruct (lind_layer_z P ds k G H1) as (lb & Eb & Hb).
  destruct (lind_layer_z P ds (S k) G ltac:(lia)) as (la & Ea & Ha).
  exists lb, la. repeat split; auto.
  - destruct Ha as [(E & _)|[(E & ->)|(m & E & Hm)]]; [discriminate| |].
    + injection E as E. destruct G as (_ & _ & -> & _). assert (i = List.length ds) as -> by lia.
      rewrite total_all; lra.
    + destruct (Geo_layer P ds m la G Hm) as (d & _ & -> & _). injection E as E. subst m. rewrite Hk. lra.
  - destruct Ha as [(E & _)|[(E & ->)|(m & E & Hm)]]; [discriminate| |].
    + injection E as E. destruct G as (_ & _ & _ & ->). assert (i = List.length ds) as -> by lia.
      rewrite total_all; lra.
    + destruct (Geo_layer P ds m la G Hm) as (d & Hd & _ & -> & _). injection E as E. subst m. rewrite Hk in *.
      rewrite (total_firstn_S ds i d Hd). rewrite Forall_forall in Hp.
      pose proof (Hp d (nth_error_In _ _ Hd)). lra.
  - destruct Hb as [(E & ->)|[(E & ->)|(m & E & Hm)]].
    + destruct G as (_ & H & _). unfold zinfo in H. injection H; intros _ -> _.
      rewrite <- Hk, E. simpl. lra.
    + lia.
    + destruct (Geo_layer P ds m lb G Hm) as (d & _ & _ & -> & _). rewrite <- E, Hk. lra.
Qed.

Lemma qw_stays_inside L el eu ops1 q ops2 :
  let P0 := run_ops (phc_init L el eu) ops1 in
  snd (add_qw P0 q) = None ->
  let P := run_ops (fst (add_qw P0 q)) ops2 in
  (1 <= z_to_lind P (qw_z q) <= List.length (pc_layers P))%nat.
Proof.
  intros P0 H P. pose proof (Geo_reach L el eu ops1) as G0. fold P0 in G0.
  assert (G : Geo P (thicknesses ops1 ++ thicknesses ops2)).
  { unfold P. apply Geo_run. eapply Geo_of_geom; [apply add_qw_geom|auto]. }
  unfold add_qw in H. destruct (Rleb (qw_z q) _) eqn:E1; simpl in H; [discriminate|].
  destruct (Rleb (ly_zmin _) _) eqn:E2; simpl in H; [discriminate|].
  apply Rleb_false in E1, E2.
  pose proof G0 as (_ & Hl & Hu & _). unfold zinfo in Hl. injection Hl; intros _ El _.
  rewrite El in E1. rewrite Hu in E2.
  destruct (z_to_lind_spec P _ (qw_z q) G) as (H1 & H2 & H3).
  rewrite (Geo_length _ _ G). set (k := z_to_lind P (qw_z q)) in *.
  set (ds := thicknesses ops1 ++ thicknesses ops2) in *.
  assert (Hle : (List.length (thicknesses ops1) <= List.length ds)%nat)
    by (unfold ds; rewrite app_length; lia).
  assert (Ef : total (firstn (List.length (thicknesses ops1)) ds) = total (thicknesses ops1)).
  { unfold ds. rewrite firstn_app, Nat.sub_diag. simpl. rewrite app_nil_r, firstn_all. auto. }
  split.
  - destruct k as [|k]; [|lia]. specialize (H3 ltac:(lia)). simpl in H3. lra.
  - destruct (le_lt_dec k (List.length (thicknesses ops1))) as [|Hgt]; [lia|].
    pose proof (H2 _ Hgt Hle). lra.
Qed.

Lemma qw_rejected_iff L el eu ops q :
  let P := run_ops (phc_init L el eu) ops in
  (snd (add_qw P q) = Some ValueError <-> (qw_z q <= 0 \/ total (thicknesses ops) <= qw_z q)) /\
  (snd (add_qw P q) = None \/ snd (add_qw P q) = Some ValueError).
Proof.
  intros P. pose proof (Geo_reach L el eu ops) as G. fold P in G.
  pose proof G as (_ & Hl & Hu & _). unfold zinfo in Hl. injection Hl; intros _ El _.
  unfold add_qw. rewrite El, Hu.
  destruct (Rleb (qw_z q) 0) eqn:E1; cbn [orb].
  - apply Rleb_true in E1. simpl; split; auto. split; auto.
  - apply Rleb_false in E1. destruct (Rleb (total (thicknesses ops)) (qw_z q)) eqn:E2; simpl.
    + apply Rleb_true in E2. split; auto. split; auto.
    + apply Rleb_false in E2. split; auto. split; [discriminate|]. intros [|]; lra.
Qed.

(** ** C12 *)
Lemma phc_eta P : mkPhc (pc_lattice P) (pc_clad_l P) (pc_clad_u P) (pc_layers P) (pc_qws P) = P.
Proof. destruct P; auto. Qed.

Lemma loop_raise area l : forall ly e, snd (add_shapes_loop area ly l) = Some e ->
  exists pre rest, l = map Some pre ++ None :: rest /\ e = ValueError /\
   fst (add_shapes_loop area ly l) = fold_left (append_shape area) pre ly.
Proof.
  induction l as [|[s|] t IH]; intros ly e H; simpl in *; try discriminate.
  - destruct (IH _ _ H) as (pre & rest & -> & He & Hf). exists (s :: pre), rest. auto.
  - inversion H; subst. exists [], t. auto.
Qed.
Lemma loop_ok area l : forall ly, snd (add_shapes_loop area ly l) = None ->
  exists ss, l = map Some ss /\ fst (add_shapes_loop area ly l) = fold_left (append_shape area) ss ly.
Proof.
  induction l as [|[s|] t IH]; intros ly H; simpl in *; try discriminate.
  - exists []; auto.
  - destruct (IH _ H) as (ss & -> & Hf). exists (s :: ss). auto.
Qed.
Lemma fold_append area ss : forall ly, let r := fold_left (append_shape area) ss ly in
  ly_shapes r = ly_shapes ly ++ ss /\ ly_epsb r = ly_epsb ly /\ ly_zmin r = ly_zmin ly /\
  ly_zmax r = ly_zmax ly /\ ly_zmid r = ly_zmid ly /\ ly_d r = ly_d ly /\
  ly_epsavg r = ly_epsavg ly + total (map (fun s => (sh_eps s - ly_epsb ly) * sh_area s / area) ss).
Proof.
  induction ss as [|s ss IH]; intros ly; cbn zeta; simpl.
  - rewrite app_nil_r, Rplus_0_r. repeat split.
  - destruct (IH (append_shape area ly s)) as (A & B & D & E & F & G & H).
    rewrite A, B, D, E, F, G, H. simpl. rewrite <- app_assoc. simpl. repeat split. ring.
Qed.

Lemma las_raise area ly a e : snd (layer_add_shape area ly a) = Some e ->
  (forall s l, a <> ShMany (Some s :: l)) -> fst (layer_add_shape area ly a) = ly.
Proof.
  destruct a as [s|l|]; intros H Hn; simpl in *; try discriminate; auto.
  destruct l as [|[s|] t]; simpl in *; auto. exfalso; eapply Hn; reflexivity.
Qed.
Lemma las_ok area ly a : snd (layer_add_shape area ly a) = None ->
  exists ss, holds_shapes a ss /\
    fst (layer_add_shape area ly a) = fold_left (append_shape area) ss ly.
Proof.
  destruct a as [s|l|]; intros H; simpl in *; try discriminate.
  - exists [s]; split; auto. right; eauto.
  - destruct (loop_ok _ _ _ H) as (ss & -> & E). exists ss; split; auto. left; auto.
Qed.

Lemma rejected_unchanged P o e : snd (step P o) = Some e ->
  (forall s l li c, o <> OpShape (ShMany (Some s :: l)) li c) -> fst (step P o) = P.
Proof.
  destruct o as [d eb ty|q|a li c]; simpl; intros H Hn.
  - unfold add_layer in *. destruct (String.eqb (lower ty) "shapes"); [discriminate|].
    destruct (String.eqb (lower ty) "freeform"); auto.
  - unfold add_qw in *. destruct (orb _ _); [auto|discriminate].
  - assert (Hn' : forall s l, a <> ShMany (Some s :: l)) by (intros s l E; subst; eapply Hn; reflexivity).
    unfold phc_add_shape in *. destruct (clad_target c) as [[[|]|e']|]; auto.
    + destruct (layer_add_shape _ (pc_clad_u P) a) as [ly r] eqn:E. simpl in *. subst r.
      pose proof (las_raise (lt_ec_area (pc_lattice P)) (pc_clad_u P) a e) as Hl. rewrite E in Hl.
      simpl in Hl. rewrite Hl; auto. apply phc_eta.
    + destruct (layer_add_shape _ (pc_clad_l P) a) as [ly r] eqn:E. simpl in *. subst r.
      pose proof (las_raise (lt_ec_area (pc_lattice P)) (pc_clad_l P) a e) as Hl. rewrite E in Hl.
      simpl in Hl. rewrite Hl; auto. apply phc_eta.
    + destruct (_ <=? li)%Z; auto. destruct (py_index _ li) as [k|]; auto.
      destruct (nth_error (pc_layers P) k) as [ly0|] eqn:Hk; auto.
      destruct (layer_add_shape _ ly0 a) as [ly r] eqn:E. simpl in *. subst r.
      pose proof (las_raise (lt_ec_area (pc_lattice P)) ly0 a e) as Hl. rewrite E in Hl.
      simpl in Hl. rewrite Hl; auto. rewrite set_nth_same; auto. apply phc_eta.
Qed.

Lemma rejected_list_keeps_prefix P pre rest li c :
  snd (step P (OpShape (ShMany (map Some pre ++ None :: rest)) li c)) <> None /\
  (snd (step P (OpShape (ShMany (map Some pre)) li c)) = None ->
   fst (step P (OpShape (ShMany (map Some pre ++ None :: rest)) li c)) =
   fst (step P (OpShape (ShMany (map Some pre)) li c))).
Proof.
  assert (A : forall area ly, add_shapes_loop area ly (map Some pre ++ None :: rest) =
                         (fold_left (append_shape area) pre ly, Some ValueError)).
  { intros area. induction pre as [|s pre IH]; intros ly; simpl; auto. }
  assert (B : forall area ly, add_shapes_loop area ly (map Some pre) =
                         (fold_left (append_shape area) pre ly, None)).
  { intros area. clear A. induction pre as [|s pre IH]; intros ly; simpl; auto. }
  simpl. unfold phc_add_shape, layer_add_shape. rewrite !A, !B.
  destruct (clad_target c) as [[[|]|e']|]; simpl; try (split; auto; discriminate).
  destruct (_ <=? li)%Z; simpl; try (split; [discriminate|auto]).
  destruct (py_index _ li) as [k|]; simpl; try (split; [discriminate|auto]).
  destruct (nth_error (pc_layers P) k) as [ly0|] eqn:Hk; simpl; try (split; [discriminate|auto]).
  rewrite A, B. simpl. split; auto; discriminate.
Qed.

Lemma nth_regions_set P k ly j : (k < List.length (pc_layers P))%nat ->
  nth_error (set_nth k ly (pc_layers P) ++ [pc_clad_l P; pc_clad_u P]) j =
  if Nat.eqb j k then Some ly else nth_error (pc_layers P ++ [pc_clad_l P; pc_clad_u P]) j.
Proof.
  intros Hk. destruct (Nat.eqb_spec j k) as [->|Hne].
  - rewrite nth_error_app1 by (rewrite set_nth_length; auto). rewrite set_nth_nth, Nat.eqb_refl.
    destruct (nth_error (pc_layers P) k) eqn:E; auto. apply nth_error_None in E; lia.
  - destruct (le_lt_dec (List.length (pc_layers P)) j).
    + rewrite !nth_error_app2 by (rewrite ?set_nth_length; auto). rewrite set_nth_length; auto.
    + rewrite !nth_error_app1 by (rewrite ?set_nth_length; auto). rewrite set_nth_nth.
      destruct (Nat.eqb_spec j k); [congruence|auto].
Qed.

Lemma add_shape_frame P a li c : snd (step P (OpShape a li c)) = None ->
  exists ss pos ly ly',
    holds_shapes a ss /\
    target_pos (List.length (pc_layers P)) li c = Some pos /\
    let P' := fst (step P (OpShape a li c)) in
    pc_lattice P' = pc_lattice P /\ pc_qws P' = pc_qws P /\
    List.length (pc_layers P') = List.length (pc_layers P) /\
    nth_error (pc_layers P ++ [pc_clad_l P; pc_clad_u P]) pos = Some ly /\
    nth_error (pc_layers P' ++ [pc_clad_l P'; pc_clad_u P']) pos = Some ly' /\
    (forall j, j <> pos -> nth_error (pc_layers P' ++ [pc_clad_l P'; pc_clad_u P']) j =
                        nth_error (pc_layers P ++ [pc_clad_l P; pc_clad_u P]) j) /\
    ly_shapes ly' = ly_shapes ly ++ ss /\ ly_epsb ly' = ly_epsb ly /\ ly_zmin ly' = ly_zmin ly /\
    ly_zmax ly' = ly_zmax ly /\ ly_zmid ly' = ly_zmid ly /\ ly_d ly' = ly_d ly.
Proof.
  intros H. set (N := List.length (pc_layers P)). simpl in H |- *. unfold phc_add_shape in *.
  assert (NC : forall x y, nth_error (pc_layers P ++ [x; y]) N = Some x /\
                           nth_error (pc_layers P ++ [x; y]) (S N) = Some y /\
        forall x' y' j, (j <> N \/ x = x') -> (j <> S N \/ y = y') ->
         nth_error (pc_layers P ++ [x; y]) j = nth_error (pc_layers P ++ [x'; y']) j).
  { intros x y. unfold N. repeat split.
    - rewrite nth_error_app2, Nat.sub_diag by auto; auto.
    - rewrite nth_error_app2 by auto. replace (S _ - _)%nat with 1%nat by lia; auto.
    - intros x' y' j Hx Hy. destruct (le_lt_dec N j) as [Hl|Hl]; unfold N in Hl.
      + rewrite !nth_error_app2 by auto. destruct (j - _)%nat as [|[|m]] eqn:E; simpl; auto.
        * destruct Hx as [Hx| ->]; auto. exfalso; apply Hx; lia.
        * destruct Hy as [Hy| ->]; auto. exfalso; apply Hy; lia.
      + rewrite !nth_error_app1; auto. }
  assert (CT : match clad_target c with
               | Some (Raise _) => True
               | Some (Ok b) => target_pos N li c = Some (if b then S N else N)
               | None => c = CladNone end).
  { destruct c as [|n|s]; simpl; auto.
    - destruct n as [|[p|p|]|p]; auto.
    - destruct (String.eqb s "l"); auto. destruct (String.eqb s "u"); auto. }
  destruct (clad_target c) as [[[|]|e']|].
  - destruct (layer_add_shape _ (pc_clad_u P) a) as [ly r] eqn:E. cbn [snd fst] in *. subst r.
    pose proof (las_ok (lt_ec_area (pc_lattice P)) (pc_clad_u P) a) as Hl. rewrite E in Hl.
    destruct (Hl eq_refl) as (ss & Ha & Hf). cbn [fst] in Hf.
    pose proof (fold_append (lt_ec_area (pc_lattice P)) ss (pc_clad_u P)) as F. cbn zeta in F.
    rewrite <- Hf in F. destruct F as (F1 & F2 & F3 & F4 & F5 & F6 & _).
    exists ss, (S N), (pc_clad_u P), ly. cbn.
    repeat split; auto; try apply NC. intros j Hj. apply NC; auto.
  - destruct (layer_add_shape _ (pc_clad_l P) a) as [ly r] eqn:E. cbn [snd fst] in *. subst r.
    pose proof (las_ok (lt_ec_area (pc_lattice P)) (pc_clad_l P) a) as Hl. rewrite E in Hl.
    destruct (Hl eq_refl) as (ss & Ha & Hf). cbn [fst] in Hf.
    pose proof (fold_append (lt_ec_area (pc_lattice P)) ss (pc_clad_l P)) as F. cbn zeta in F.
    rewrite <- Hf in F. destruct F as (F1 & F2 & F3 & F4 & F5 & F6 & _).
    exists ss, N, (pc_clad_l P), ly. cbn.
    repeat split; auto; try apply NC. intros j Hj. apply NC; auto.
  - discriminate.
  - subst c. destruct (Z.leb_spec (Z.of_nat N) li) as [Hle|Hlt]; fold N in H |- *.
    { destruct (Z.leb_spec (Z.of_nat N) li); [discriminate|lia]. }
    destruct (Z.leb_spec (Z.of_nat N) li); [lia|].
    destruct (py_index N li) as [k|] eqn:Ek; [|discriminate].
    assert (Hk : (k < N)%nat /\ target_pos N li CladNone = Some k).
    { unfold py_index in Ek. simpl.
      destruct (Z.leb_spec (Z.of_nat N) li); [lia|].
      destruct (Z.leb_spec 0 li).
      - destruct (Z.ltb_spec li (Z.of_nat N)); [|discriminate]. inversion Ek; subst k.
        destruct (Z.ltb_spec li (- Z.of_nat N)); [lia|]. destruct (Z.ltb_spec li 0); [lia|].
        split; auto; lia.
      - destruct (Z.leb_spec (- Z.of_nat N) li); [|discriminate]. inversion Ek; subst k.
        destruct (Z.ltb_spec li (- Z.of_nat N)); [lia|]. destruct (Z.ltb_spec li 0); [|lia].
        split; auto; lia. }
    destruct Hk as [Hk Ht].
    destruct (nth_error (pc_layers P) k) as [ly0|] eqn:Hn; [|discriminate].
    destruct (layer_add_shape _ ly0 a) as [ly r] eqn:E. cbn [snd fst] in *. subst r.
    pose proof (las_ok (lt_ec_area (pc_lattice P)) ly0 a) as Hl. rewrite E in Hl.
    destruct (Hl eq_refl) as (ss & Ha & Hf). cbn [fst] in Hf.
    pose proof (fold_append (lt_ec_area (pc_lattice P)) ss ly0) as F. cbn zeta in F.
    rewrite <- Hf in F. destruct F as (F1 & F2 & F3 & F4 & F5 & F6 & _).
    exists ss, k, ly0, ly. cbn [pc_lattice pc_qws pc_layers pc_clad_l pc_clad_u].
    repeat split; auto.
    + apply set_nth_length.
    + rewrite nth_error_app1; auto.
    + rewrite nth_regions_set by auto. rewrite Nat.eqb_refl; auto.
    + intros j Hj. rewrite nth_regions_set by auto. apply Nat.eqb_neq in Hj. rewrite Hj; auto.
Qed.
