(** Lemmas behind PhcProps.v *)
From Coq Require Import Permutation.
From Verif Require Import Py LatticeModel CBase PhcModel PhcSpec.
Open Scope R_scope.

(** ** Geometry of reachable states *)
Definition zinfo (ly : layer) := (ly_zmin ly, ly_zmax ly, ly_d ly).

Lemma loop_zinfo area l : forall ly, zinfo (fst (add_shapes_loop area ly l)) = zinfo ly.
Proof. induction l as [|[s|] t IH]; intros ly; simpl; auto. rewrite IH; reflexivity. Qed.
Lemma las_zinfo area ly a : zinfo (fst (layer_add_shape area ly a)) = zinfo ly.
Proof. destruct a; simpl; auto. apply loop_zinfo. Qed.

Lemma set_nth_same {A} k (x : A) l : nth_error l k = Some x -> set_nth k x l = l.
Proof.
  revert k; induction l as [|h t IH]; intros [|k] H; simpl in *; try discriminate.
  - inversion H; auto.
  - rewrite IH; auto.
Qed.
Lemma set_nth_length {A} k (x : A) l : List.length (set_nth k x l) = List.length l.
Proof. revert k; induction l; intros [|k]; simpl; auto. Qed.
Lemma set_nth_nth {A} k (x : A) l j : nth_error (set_nth k x l) j =
  if Nat.eqb j k then (match nth_error l k with Some _ => Some x | None => None end) else nth_error l j.
Proof.
  revert k j; induction l as [|h t IH]; intros [|k] [|j]; simpl; auto;
  destruct (Nat.eqb j k); auto.
Qed.
Lemma set_nth_map {A B} (f : A -> B) k x y l : nth_error l k = Some y -> f x = f y ->
  map f (set_nth k x l) = map f l.
Proof.
  revert k; induction l as [|h t IH]; intros [|k] H E; simpl in *; try discriminate; auto.
  - inversion H; subst; rewrite E; auto.
  - rewrite (IH k); auto.
Qed.

Definition geom (P : phc) :=
  (map zinfo (pc_layers P), zinfo (pc_clad_l P), zinfo (pc_clad_u P)).

Lemma add_shape_geom P a li c : geom (fst (phc_add_shape P a li c)) = geom P.
Proof.
  unfold phc_add_shape. destruct (clad_target c) as [[[|]|e]|]; auto.
  - destruct (layer_add_shape _ _ a) as [ly r] eqn:E. unfold geom; simpl.
    pose proof (las_zinfo (lt_ec_area (pc_lattice P)) (pc_clad_u P) a) as H. rewrite E in H. simpl in H.
    rewrite H; auto.
  - destruct (layer_add_shape _ _ a) as [ly r] eqn:E. unfold geom; simpl.
    pose proof (las_zinfo (lt_ec_area (pc_lattice P)) (pc_clad_l P) a) as H. rewrite E in H. simpl in H.
    rewrite H; auto.
  - destruct (_ <=? li)%Z; auto. destruct (py_index _ li) as [k|]; auto.
    destruct (nth_error (pc_layers P) k) as [ly0|] eqn:Hk; auto.
    destruct (layer_add_shape _ ly0 a) as [ly r] eqn:E. unfold geom; simpl.
    pose proof (las_zinfo (lt_ec_area (pc_lattice P)) ly0 a) as H. rewrite E in H. simpl in H.
    rewrite (set_nth_map zinfo k ly ly0); auto.
Qed.
Lemma add_qw_geom P q : geom (fst (add_qw P q)) = geom P.
Proof. unfold add_qw. destruct (orb _ _); reflexivity. Qed.

Lemma total_app l m : total (l ++ m) = total l + total m.
Proof. induction l; simpl; [ring|rewrite IHl; ring]. Qed.

(** the triples produced by stacking thicknesses ds from height z *)
Fixpoint stackz (z : R) (ds : list R) : list (R * R * R) :=
  match ds with [] => [] | d :: t => (z, z + d, z + d - z) :: stackz (z + d) t end.
Lemma stackz_app z ds d : stackz z (ds ++ [d]) = stackz z ds ++ [(z + total ds, z + total ds + d, z + total ds + d - (z + total ds))].
Proof.
  revert z; induction ds as [|a t IH]; intros z; simpl.
  - rewrite Rplus_0_r. auto.
  - rewrite IH. rewrite <- (Rplus_assoc z a (total t)). auto.
Qed.
Lemma stackz_nth z ds i : nth_error (stackz z ds) i =
  match nth_error ds i with
  | None => None
  | Some d => Some (z + total (firstn i ds), z + total (firstn (S i) ds), d)
  end.
Proof.
  revert z i; induction ds as [|a t IH]; intros z [|i]; simpl; auto.
  - f_equal; f_equal; [f_equal; ring|ring].
  - rewrite IH. destruct (nth_error t i); auto. simpl.
    f_equal; f_equal; f_equal; destruct t; simpl; ring.
Qed.
Lemma stackz_length z ds : List.length (stackz z ds) = List.length ds.
Proof. revert z; induction ds; intros; simpl; auto. Qed.

Definition Geo (P : phc) (ds : list R) : Prop :=
  map zinfo (pc_layers P) = stackz 0 ds /\
  zinfo (pc_clad_l P) = (- 10 ^ 10, 0, 0 - - 10 ^ 10) /\
  ly_zmin (pc_clad_u P) = total ds /\ ly_zmax (pc_clad_u P) = 10 ^ 10.

Lemma stackz_rev_top ly t z ds : stackz z ds = rev (map zinfo (ly :: t)) -> ly_zmax ly = z + total ds.
Proof.
  intros H. destruct (rev ds) as [|d rds] eqn:E.
  - apply (f_equal (@rev R)) in E. rewrite rev_involutive in E. subst. simpl in H.
    symmetry in H; apply app_eq_nil in H; destruct H; discriminate.
  - apply (f_equal (@rev R)) in E. rewrite rev_involutive in E. simpl in E. subst ds.
    rewrite stackz_app in H. simpl in H. apply app_inj_tail in H. destruct H as [_ H].
    unfold zinfo in H. injection H; intros _ H2 _. rewrite total_app; simpl. lra.
Qed.
Lemma Geo_top P ds : Geo P ds -> stack_top (pc_layers P) = total ds.
Proof.
  intros (H & _). unfold stack_top. destruct (rev (pc_layers P)) as [|ly t] eqn:E.
  - apply (f_equal (@rev layer)) in E. rewrite rev_involutive in E. rewrite E in H. simpl in H.
    destruct ds; simpl in *; auto. discriminate.
  - rewrite <- (Rplus_0_l (total ds)). apply (stackz_rev_top ly t).
    rewrite <- H, <- map_rev, <- E, rev_involutive. auto.
Qed.

Lemma Geo_of_geom P P' ds : geom P' = geom P -> Geo P ds -> Geo P' ds.
Proof.
  unfold geom, Geo. intros H (H1 & H2 & H3 & H4). 
  pose proof (f_equal (fun x => fst (fst x)) H) as E1.
  pose proof (f_equal (fun x => snd (fst x)) H) as E2.
  pose proof (f_equal (fun x => fst (fst (snd x))) H) as E3.
  pose proof (f_equal (fun x => snd (fst (snd x))) H) as E4.
  cbn [fst snd] in *. unfold zinfo in E3, E4; cbn [fst snd] in E3, E4.
  rewrite E1, E2, E3, E4. auto.
Qed.

Lemma Geo_step P o ds : Geo P ds ->
  Geo (fst (step P o)) (ds ++ thicknesses [o]).
Proof.
  intros G. destruct o as [d e ty|q|a li c]; simpl.
  - unfold add_layer. destruct (String.eqb (lower ty) "shapes") eqn:E.
    + cbn [fst]. destruct (Geo_top P ds G). destruct G as (H1 & H2 & H3 & H4).
      unfold Geo; simpl. rewrite map_app, H1, stackz_app. repeat split; auto.
      * simpl. unfold zinfo; simpl. rewrite (Geo_top P ds); [|repeat split; auto].
        rewrite Rplus_0_l. auto.
      * rewrite (Geo_top P ds); [|repeat split; auto]. rewrite total_app. simpl; ring.
    + destruct (String.eqb (lower ty) "freeform"); simpl; rewrite app_nil_r; auto.
  - rewrite app_nil_r. eapply Geo_of_geom; [apply add_qw_geom|auto].
  - rewrite app_nil_r. eapply Geo_of_geom; [apply add_shape_geom|auto].
Qed.

Lemma thick_app l m : thicknesses (l ++ m) = thicknesses l ++ thicknesses m.
Proof.
  induction l as [|[d e ty|q|a li c] l IH]; simpl; auto.
  destruct (String.eqb (lower ty) "shapes"); simpl; rewrite IH; auto.
Qed.
Lemma run_ops_app P l m : run_ops P (l ++ m) = run_ops (run_ops P l) m.
Proof. unfold run_ops. apply fold_left_app. Qed.

Lemma Geo_run l : forall P ds, Geo P ds -> Geo (run_ops P l) (ds ++ thicknesses l).
Proof.
  induction l as [|o l IH]; intros P ds G.
  - simpl; rewrite app_nil_r; auto.
  - change (o :: l) with ([o] ++ l). rewrite run_ops_app, thick_app, app_assoc.
    apply IH. apply (Geo_step P o ds G).
Qed.
Lemma Geo_init L el eu : Geo (phc_init L el eu) [].
Proof. unfold Geo, zinfo; simpl; auto. Qed.
Lemma Geo_reach L el eu ops : Geo (run_ops (phc_init L el eu) ops) (thicknesses ops).
Proof. apply (Geo_run ops _ [] (Geo_init L el eu)). Qed.

Lemma Geo_layer P ds i ly : Geo P ds -> nth_error (pc_layers P) i = Some ly ->
  exists d, nth_error ds i = Some d /\ ly_zmin ly = total (firstn i ds) /\
    ly_zmax ly = total (firstn (S i) ds) /\ ly_d ly = d.
Proof.
  intros (H & _) Hn. pose proof (map_nth_error zinfo _ _ Hn) as Hz.
  rewrite H, stackz_nth in Hz. destruct (nth_error ds i) as [d|]; [|discriminate].
  exists d. unfold zinfo in Hz. injection Hz as E1 E2 E3.
  rewrite Rplus_0_l in E1, E2. repeat split; auto.
Qed.
Lemma Geo_length P ds : Geo P ds -> List.length (pc_layers P) = List.length ds.
Proof. intros (H & _). rewrite <- (stackz_length 0 ds), <- H, map_length. auto. Qed.

Lemma stack_contiguous L el eu ops :
  let P := run_ops (phc_init L el eu) ops in
  let ds := thicknesses ops in
  List.length (pc_layers P) = List.length ds /\
  (forall i ly, nth_error (pc_layers P) i = Some ly ->
     exists d, nth_error ds i = Some d /\ ly_zmin ly = total (firstn i ds) /\
       ly_zmax ly = total (firstn (S i) ds) /\ ly_d ly = d) /\
  ly_zmax (pc_clad_l P) = 0 /\ ly_zmin (pc_clad_l P) = - 10 ^ 10 /\
  ly_zmin (pc_clad_u P) = total ds /\ ly_zmax (pc_clad_u P) = 10 ^ 10.
Proof.
  intros P ds. pose proof (Geo_reach L el eu ops) as G. fold P ds in G.
  split; [apply Geo_length; auto|]. split; [intros i ly; apply Geo_layer; auto|].
  destruct G as (_ & H2 & H3 & H4). unfold zinfo in H2. injection H2; intros; auto.
Qed.

(** ** C09: partition of the heights *)
Lemma total_firstn_S ds i d : nth_error ds i = Some d ->
  total (firstn (S i) ds) = total (firstn i ds) + d.
Proof.
  revert i; induction ds as [|a t IH]; intros [|i] H; simpl in *; try discriminate.
  - inversion H; ring.
  - destruct t; [destruct i; discriminate|]. rewrite (IH i H). ring.
Qed.
Lemma total_mono ds i j : Forall (fun d => 0 <= d) ds -> (i <= j)%nat ->
  total (firstn i ds) <= total (firstn j ds).
Proof.
  revert i j; induction ds as [|a t IH]; intros i j H Hij.
  - destruct i, j; simpl; lra.
  - inversion H; subst. destruct i, j; simpl; try lia; try lra.
    + pose proof (IH 0%nat j H3 ltac:(lia)). simpl in H0. destruct t; simpl in *; lra.
    + pose proof (IH i j H3 ltac:(lia)). lra.
Qed.
Lemma total_all ds : total (firstn (List.length ds) ds) = total ds.
Proof. rewrite firstn_all; auto. Qed.

Lemma stack_find ds z : 0 <= z < total ds ->
  exists i, (i < List.length ds)%nat /\ total (firstn i ds) <= z < total (firstn (S i) ds).
Proof.
  intros H. rewrite <- total_all in H.
  assert (G : forall n, z < total (firstn n ds) -> (n <= List.length ds)%nat ->
    exists i, (i < n)%nat /\ total (firstn i ds) <= z < total (firstn (S i) ds)).
  { induction n as [|n IH]; intros Hz Hn; [simpl in Hz; lra|].
    destruct (Rlt_dec z (total (firstn n ds))) as [Hl|Hl].
    - destruct (IH Hl) as (i & Hi & Hb); [lia|]. exists i; split; [lia|auto].
    - exists n; split; [lia|]. split; [lra|auto]. }
  destruct (G (List.length ds)) as (i & Hi & Hb); [lra|lia|]. eauto.
Qed.

Lemma nth_regions P i : nth_error (pc_layers P ++ [pc_clad_l P; pc_clad_u P]) i =
  if (i <? List.length (pc_layers P))%nat then nth_error (pc_layers P) i
  else if (i =? List.length (pc_layers P))%nat then Some (pc_clad_l P)
  else if (i =? S (List.length (pc_layers P)))%nat then Some (pc_clad_u P) else None.
Proof.
  destruct (Nat.ltb_spec i (List.length (pc_layers P))).
  - apply nth_error_app1; auto.
  - rewrite nth_error_app2 by auto.
    destruct (Nat.eqb_spec i (List.length (pc_layers P))) as [->|].
    + rewrite Nat.sub_diag; auto.
    + destruct (Nat.eqb_spec i (S (List.length (pc_layers P)))) as [->|].
      * replace (S (List.length (pc_layers P)) - List.length (pc_layers P))%nat with 1%nat by lia; auto.
      * destruct (i - List.length (pc_layers P))%nat as [|[|[|k]]] eqn:E; simpl; auto; lia.
Qed.

Lemma Geo_region P ds i ly : Geo P ds ->
  nth_error (pc_layers P ++ [pc_clad_l P; pc_clad_u P]) i = Some ly ->
  (exists d, (i < List.length ds)%nat /\ nth_error ds i = Some d /\
       ly_zmin ly = total (firstn i ds) /\ ly_zmax ly = total (firstn (S i) ds)) \/
  (i = List.length ds /\ ly_zmin ly = - 10 ^ 10 /\ ly_zmax ly = 0) \/
  (i = S (List.length ds) /\ ly_zmin ly = total ds /\ ly_zmax ly = 10 ^ 10).
Proof.
  intros G. rewrite nth_regions, (Geo_length P ds G).
  destruct (Nat.ltb_spec i (List.length ds)).
  - intros Hn. left. destruct (Geo_layer P ds i ly G Hn) as (d & ? & ? & ? & ?). eauto 6.
  - destruct G as (_ & H2 & H3 & H4). unfold zinfo in H2. injection H2; intros.
    destruct (Nat.eqb_spec i (List.length ds)).
    + right; left. inversion H6; subst ly. auto.
    + destruct (Nat.eqb_spec i (S (List.length ds))); [|discriminate].
      right; right. inversion H6; subst ly. auto.
Qed.

Lemma ten10_pos : 0 < 10 ^ 10. Proof. apply pow_lt; lra. Qed.

(** existence needs no sign condition *)
Lemma Geo_cover P ds z : Geo P ds -> - 10 ^ 10 <= z < 10 ^ 10 -> exists i, region_has P i z.
Proof.
  intros G Hz. pose proof G as (H1 & H2 & H3 & H4). unfold zinfo in H2. injection H2 as E1 E2 _.
  destruct (Rlt_dec z 0).
  - exists (List.length ds). exists (pc_clad_l P). rewrite nth_regions, (Geo_length P ds G).
    rewrite Nat.ltb_irrefl, Nat.eqb_refl. split; auto. lra.
  - destruct (Rlt_dec z (total ds)).
    + destruct (stack_find ds z) as (i & Hi & Hb); [lra|].
      destruct (nth_error (pc_layers P) i) as [ly|] eqn:Hn.
      * exists i, ly. rewrite nth_regions, (Geo_length P ds G).
        destruct (Nat.ltb_spec i (List.length ds)); [|lia]. split; auto.
        destruct (Geo_layer P ds i ly G Hn) as (d & _ & -> & -> & _). lra.
      * apply nth_error_None in Hn. rewrite (Geo_length P ds G) in Hn. lia.
    + exists (S (List.length ds)), (pc_clad_u P). rewrite nth_regions, (Geo_length P ds G).
      destruct (Nat.ltb_spec (S (List.length ds)) (List.length ds)); [lia|].
      destruct (Nat.eqb_spec (S (List.length ds)) (List.length ds)); [lia|].
      rewrite Nat.eqb_refl. split; auto. lra.
Qed.

Lemma Geo_unique P ds z i j : Geo P ds -> Forall (fun d => 0 <= d) ds ->
  region_has P i z -> region_has P j z -> i = j.
Proof.
  intros G Hp (ly & Hi & Bi) (ly' & Hj & Bj).
  assert (T0 : 0 <= total ds).
  { rewrite <- total_all. change 0 with (total (firstn 0 ds)). apply total_mono; auto; lia. }
  assert (Tn : forall k, 0 <= total (firstn k ds)).
  { intros k. change 0 with (total (firstn 0 ds)). apply total_mono; auto; lia. }
  assert (Tl : forall k, (k <= List.length ds)%nat -> total (firstn k ds) <= total ds).
  { intros k Hk. rewrite <- (total_all ds). apply total_mono; auto. }
  assert (Tij : forall a b, (a < b)%nat -> total (firstn (S a) ds) <= total (firstn b ds)).
  { intros a b Hab. apply total_mono; auto. }
  destruct (Geo_region P ds i ly G Hi) as [(d & Li & _ & A1 & A2)|[(E & A1 & A2)|(E & A1 & A2)]];
  destruct (Geo_region P ds j ly' G Hj) as [(d' & Lj & _ & B1 & B2)|[(E' & B1 & B2)|(E' & B1 & B2)]];
  rewrite A1, A2 in Bi; rewrite B1, B2 in Bj; try lia.
  - destruct (Nat.lt_total i j) as [Hl|[Hl|Hl]]; auto; exfalso.
    + pose proof (Tij i j Hl); lra.
    + pose proof (Tij j i Hl); lra.
  - exfalso. pose proof (Tn i); lra.
  - exfalso. pose proof (Tl (S i) ltac:(lia)); lra.
  - exfalso. pose proof (Tn j); lra.
  - exfalso. lra.
  - exfalso. pose proof (Tl (S j) ltac:(lia)); lra.
  - exfalso. lra.
Qed.

Lemma exactly_one_region L el eu ops z :
  let P := run_ops (phc_init L el eu) ops in
  Forall (fun d => 0 <= d) (thicknesses ops) -> - 10 ^ 10 <= z < 10 ^ 10 ->
  exists! i, region_has P i z.
Proof.
  intros P Hp Hz. pose proof (Geo_reach L el eu ops) as G. fold P in G.
  destruct (Geo_cover P _ z G Hz) as (i & Hi). exists i. split; auto.
  intros j Hj. eapply Geo_unique; eauto.
Qed.

(** ** masks *)
Lemma select_scatter {A} mask : forall (vals base : list A),
  List.length base = List.length mask ->
  List.length vals = List.length (select mask base) ->
  select mask (scatter mask vals base) = vals.
Proof.
  induction mask as [|b m IH]; intros vals [|x t] H1 H2; simpl in *; try discriminate.
  - destruct vals; auto; discriminate.
  - injection H1 as H1. destruct b; simpl in *.
    + destruct vals as [|v vs]; simpl in *; [discriminate|]. rewrite IH; auto.
    + apply IH; auto.
Qed.
Definition disjoint (m1 m2 : list bool) : Prop :=
  forall j, nth_error m1 j = Some true -> nth_error m2 j = Some true -> False.
Lemma disjoint_tl b1 b2 m1 m2 : disjoint (b1 :: m1) (b2 :: m2) -> disjoint m1 m2.
Proof. intros H j H1 H2. apply (H (S j)); auto. Qed.
Lemma select_scatter_disj {A} m1 : forall m2 (vals base : list A),
  List.length m1 = List.length m2 -> disjoint m1 m2 ->
  select m2 (scatter m1 vals base) = select m2 base.
Proof.
  induction m1 as [|b1 m1 IH]; intros [|b2 m2] vals [|x t] HL HD; simpl in *; auto; try discriminate.
  injection HL as HL. pose proof (disjoint_tl _ _ _ _ HD) as HD'.
  assert (~ (b1 = true /\ b2 = true)) as Hb.
  { intros [-> ->]. apply (HD 0%nat); auto. }
  destruct b1, b2; simpl; try (exfalso; apply Hb; auto; fail).
  - destruct vals; simpl; rewrite IH; auto.
  - rewrite IH; auto.
  - rewrite IH; auto.
Qed.
Lemma scatter_length {A} mask : forall (vals base : list A), List.length (scatter mask vals base) = List.length base.
Proof.
  induction mask as [|b m IH]; intros vals [|x t]; simpl; auto.
  destruct b; [destruct vals|]; simpl; rewrite IH; auto.
Qed.
Lemma scatter_nth_false {A} mask : forall (vals base : list A) j,
  nth_error mask j = Some false -> nth_error (scatter mask vals base) j = nth_error base j.
Proof.
  induction mask as [|b m IH]; intros vals [|x t] [|j] H; simpl in *; try discriminate; auto.
  - inversion H; subst; auto.
  - destruct b; [destruct vals|]; simpl; auto.
Qed.
Lemma scatter_nth_true {A} mask : forall (vals base : list A) j,
  List.length base = List.length mask ->
  List.length vals = List.length (select mask base) ->
  nth_error mask j = Some true -> exists v, nth_error (scatter mask vals base) j = Some v /\ In v vals.
Proof.
  induction mask as [|b m IH]; intros vals [|x t] [|j] H1 H2 H; simpl in *; try discriminate; auto.
  - inversion H; subst; simpl in *. destruct vals as [|v vs]; [discriminate|]. simpl. eauto.
  - injection H1 as H1. destruct b; simpl in *.
    + destruct vals as [|v vs]; [discriminate|]. simpl in *. injection H2 as H2.
      destruct (IH vs t j H1 H2 H) as (w & Hw & Hin). eauto.
    + destruct (IH vals t j H1 H2 H) as (w & Hw & Hin). eauto.
Qed.
Lemma select_length {A B} mask : forall (l : list A) (m : list B),
  List.length l = List.length m -> List.length (select mask l) = List.length (select mask m).
Proof.
  induction mask as [|b t IH]; intros [|x l] [|y m] H; simpl in *; auto; try discriminate.
  injection H as H. destruct b; simpl; rewrite (IH l m); auto.
Qed.
Lemma select_nonempty {A} mask : forall (l : list A), List.length l = List.length mask ->
  existsb (fun b => b) mask = true -> select mask l <> [].
Proof.
  induction mask as [|b t IH]; intros [|x l] H E; simpl in *; try discriminate.
  injection H as H. destruct b; simpl in *; [discriminate|]. apply IH; auto.
Qed.
Lemma select_empty {A} mask : forall (l : list A), existsb (fun b => b) mask = false -> select mask l = [].
Proof.
  induction mask as [|b t IH]; intros [|x l] E; simpl in *; auto.
  destruct b; simpl in *; [discriminate|]. auto.
Qed.

Lemma layer_get_eps_ok L ly pts : pts <> [] ->
  exists vs, layer_get_eps L ly pts = Ok vs /\ List.length vs = List.length pts.
Proof.
  intros H. unfold layer_get_eps. destruct pts; [congruence|]. eexists; split; [reflexivity|].
  rewrite map_length; auto.
Qed.
Lemma zmask_length ly zs : List.length (zmask ly zs) = List.length zs.
Proof. apply map_length. Qed.

Lemma zmask_nth ly zs j : nth_error (zmask ly zs) j = Some true <->
  exists z, nth_error zs j = Some z /\ ly_zmin ly <= z < ly_zmax ly.
Proof.
  unfold zmask. rewrite nth_error_map. destruct (nth_error zs j) as [z|]; simpl.
  - split.
    + intros H. injection H as H. apply andb_prop in H. destruct H as [A B].
      apply Rleb_true in A. apply Rltb_true in B. eauto.
    + intros (z' & E & A & B). injection E as <-. f_equal.
      apply Rleb_true in A. apply Rltb_true in B. rewrite A, B; auto.
  - split; [discriminate|]. intros (z' & E & _); discriminate.
Qed.

Lemma get_eps_loop_spec L xy zs : List.length xy = List.length zs -> forall regs acc,
  List.length acc = List.length zs ->
  exists r, get_eps_loop L regs xy zs acc = Ok r /\ List.length r = List.length zs /\
   (ForallOrdPairs (fun a b => disjoint (zmask a zs) (zmask b zs)) regs ->
     (forall ly, In ly regs -> select (zmask ly zs) xy <> [] ->
       layer_get_eps L ly (select (zmask ly zs) xy) = Ok (select (zmask ly zs) r)) /\
     (forall m, List.length m = List.length zs ->
        (forall ly, In ly regs -> disjoint (zmask ly zs) m) -> select m r = select m acc)) /\
   (forall j, (j < List.length zs)%nat ->
      (exists ly v vs, In ly regs /\ nth_error (zmask ly zs) j = Some true /\ nth_error r j = Some v /\
           layer_get_eps L ly (select (zmask ly zs) xy) = Ok vs /\ In v vs) \/
      ((forall ly, In ly regs -> nth_error (zmask ly zs) j = Some false) /\ nth_error r j = nth_error acc j)).
Proof.
  intros HL regs; induction regs as [|ly regs IH]; intros acc Ha.
  - exists acc. split; [reflexivity|]. split; auto. split; [intros _; split|].
    + intros ly [].
    + auto.
    + intros j Hj. right; split; auto. intros ly [].
  - cbn [get_eps_loop]. destruct (existsb (fun b => b) (zmask ly zs)) eqn:E.
    + assert (Hne : select (zmask ly zs) xy <> []).
      { apply select_nonempty; auto. rewrite zmask_length; auto. }
      destruct (layer_get_eps_ok L ly _ Hne) as (vs & Hvs & Hlen). rewrite Hvs. cbn [bind].
      destruct (IH (scatter (zmask ly zs) vs acc)) as (r & Hr & Hlr & Hsel & Hpt).
      { rewrite scatter_length; auto. }
      assert (Hlv : List.length vs = List.length (select (zmask ly zs) acc)).
      { rewrite Hlen. apply select_length. congruence. }
      exists r. split; [exact Hr|]. split; auto. split.
      * intros HO. inversion HO as [|a l' HF HO']; subst. destruct (Hsel HO') as [S1 S2]. split.
        -- intros ly' [<-|Hin] Hn.
           ++ rewrite (S2 (zmask ly zs)).
              ** rewrite select_scatter; auto. rewrite zmask_length; auto.
              ** apply zmask_length.
              ** intros l2 H2. rewrite Forall_forall in HF. pose proof (HF l2 H2) as D.
                 intros j A B. apply (D j); auto.
           ++ apply S1; auto.
        -- intros m Hm HD. rewrite S2; auto.
           ++ apply select_scatter_disj; [rewrite zmask_length; auto|]. apply HD; left; auto.
           ++ intros l2 H2. apply HD; right; auto.
      * intros j Hj. destruct (Hpt j Hj) as [(l2 & v & vs' & A & B & D & F & G)|[A B]].
        -- left. exists l2, v, vs'. repeat split; auto. right; auto.
        -- destruct (nth_error (zmask ly zs) j) as [[|]|] eqn:Em.
           ++ left. destruct (scatter_nth_true (zmask ly zs) vs acc j) as (v & Hv & Hin); auto.
              { rewrite zmask_length; auto. }
              exists ly, v, vs. repeat split; auto; [left; auto|congruence].
           ++ right. split; [|rewrite B; apply scatter_nth_false; auto].
              intros l2 [<-|H2]; auto.
           ++ apply nth_error_None in Em. rewrite zmask_length in Em. lia.
    + destruct (IH acc Ha) as (r & Hr & Hlr & Hsel & Hpt).
      exists r. split; auto. split; auto. split.
      * intros HO. inversion HO as [|a l' HF HO']; subst. destruct (Hsel HO') as [S1 S2]. split.
        -- intros ly' [<-|Hin] Hn; [|apply S1; auto]. rewrite select_empty in Hn; auto. congruence.
        -- intros m Hm HD. apply S2; auto. intros l2 H2. apply HD; right; auto.
      * intros j Hj. destruct (Hpt j Hj) as [(l2 & v & vs' & A & B & D & F & G)|[A B]].
        -- left. exists l2, v, vs'. repeat split; auto. right; auto.
        -- right. split; auto. intros l2 [<-|H2]; auto.
           destruct (nth_error (zmask ly zs) j) as [[|]|] eqn:Em; auto.
           ++ exfalso. assert (existsb (fun b => b) (zmask ly zs) = true); [|congruence].
              apply existsb_exists. exists true; split; auto. eapply nth_error_In; eauto.
           ++ apply nth_error_None in Em. rewrite zmask_length in Em. lia.
Qed.

Lemma select_map_filter {A B} (f : A -> bool) (g : A -> R) (h : R -> bool) (pts : list A) (l : list B) :
  (forall p, h (g p) = f p) ->
  List.length pts = List.length l ->
  select (map h (map g pts)) l = map snd (filter (fun pr => f (fst pr)) (combine pts l)).
Proof.
  intros E. revert l; induction pts as [|p pts IH]; intros [|x l] H; simpl in *; auto; try discriminate.
  injection H as H. rewrite E. destruct (f p); simpl; rewrite IH; auto.
Qed.
Lemma filter_map_fst {A B} (f : A -> bool) (g : A -> B) pts :
  map snd (filter (fun pr => f (fst pr)) (combine pts (map g pts))) = map g (filter f pts).
Proof. induction pts as [|p t IH]; simpl; auto. destruct (f p); simpl; rewrite IH; auto. Qed.

Lemma ForallOrdPairs_nth {A} (R : A -> A -> Prop) l :
  (forall i j a b, (i < j)%nat -> nth_error l i = Some a -> nth_error l j = Some b -> R a b) ->
  ForallOrdPairs R l.
Proof.
  induction l as [|x t IH]; intros H; constructor.
  - apply Forall_forall. intros y Hy. apply In_nth_error in Hy. destruct Hy as [j Hj].
    apply (H 0%nat (S j)); auto; lia.
  - apply IH. intros i j a b Hij Ha Hb. apply (H (S i) (S j)); auto; lia.
Qed.

Lemma get_eps_regions L el eu ops pts :
  let P := run_ops (phc_init L el eu) ops in
  Forall (fun d => 0 <= d) (thicknesses ops) ->
  exists res, phc_get_eps P pts = Ok res /\ List.length res = List.length pts /\
   (forall ly, In ly (pc_layers P ++ [pc_clad_l P; pc_clad_u P]) ->
      filter (in_height ly) pts <> [] ->
      layer_get_eps (pc_lattice P) ly (map fst (filter (in_height ly) pts)) =
        Ok (map snd (filter (fun pr => in_height ly (fst pr)) (combine pts res)))) /\
   (forall j p v, nth_error pts j = Some p -> nth_error res j = Some v ->
      (forall i, ~ region_has P i (snd p)) -> v = 0).
Proof.
  intros P Hp. pose proof (Geo_reach L el eu ops) as G. fold P in G.
  unfold phc_get_eps.
  destruct (get_eps_loop_spec (pc_lattice P) (map fst pts) (map snd pts)
     ltac:(rewrite !map_length; auto) (regions P) (map (fun _ => 0) pts)
     ltac:(rewrite !map_length; auto)) as (r & Hr & Hlr & Hsel & Hpt).
  exists r. split; auto. rewrite map_length in Hlr, Hpt. split; auto. split.
  - assert (HO : ForallOrdPairs (fun a b => disjoint (zmask a (map snd pts)) (zmask b (map snd pts))) (regions P)).
    { apply ForallOrdPairs_nth. intros i j a b Hij Ha Hb k Ka Kb.
      apply zmask_nth in Ka, Kb. destruct Ka as (z & Hz & Ba), Kb as (z' & Hz' & Bb).
      assert (z' = z) by congruence; subst z'.
      assert (i = j); [|lia]. apply (Geo_unique P _ z i j G Hp); [exists a|exists b]; auto. }
    destruct (Hsel HO) as [S1 _].
    intros ly Hin Hne. set (member := in_height ly) in *.
    assert (EM : forall p, (Rleb (ly_zmin ly) (snd p) && Rltb (snd p) (ly_zmax ly)) = member p).
    { intros p. unfold member, in_height, Rleb, Rltb. destruct (Rle_dec _ _); simpl; auto. }
    specialize (S1 ly Hin). unfold zmask in S1.
    rewrite (select_map_filter member snd (fun z => Rleb (ly_zmin ly) z && Rltb z (ly_zmax ly)) pts (map fst pts)) in S1
      by (auto; rewrite map_length; auto).
    rewrite (select_map_filter member snd (fun z => Rleb (ly_zmin ly) z && Rltb z (ly_zmax ly)) pts r) in S1 by auto.
    rewrite filter_map_fst in S1. apply S1.
    intros E. apply map_eq_nil in E. auto.
  - intros j p v Hjp Hjv Hno.
    assert (Hj : (j < List.length pts)%nat) by (apply nth_error_Some; congruence).
    destruct (Hpt j Hj) as [(ly & v' & vs & Hin & Hm & _)|[_ E]].
    + exfalso. apply zmask_nth in Hm. destruct Hm as (z & Hz & Hb).
      rewrite nth_error_map, Hjp in Hz. simpl in Hz. inversion Hz; subst z.
      apply In_nth_error in Hin. destruct Hin as [i Hi]. apply (Hno i). exists ly; auto.
    + rewrite Hjv, nth_error_map, Hjp in E. simpl in E. congruence.
Qed.

Lemma outside_no_region L el eu ops z :
  let P := run_ops (phc_init L el eu) ops in
  Forall (fun d => 0 <= d) (thicknesses ops) -> total (thicknesses ops) <= 10 ^ 10 ->
  (z < - 10 ^ 10 \/ 10 ^ 10 <= z) -> forall i, ~ region_has P i z.
Proof.
  intros P Hp Ht Hz i (ly & Hi & Hb). pose proof (Geo_reach L el eu ops) as G. fold P in G.
  assert (Tn : forall k, 0 <= total (firstn k (thicknesses ops))).
  { intros k. change 0 with (total (firstn 0 (thicknesses ops))). apply total_mono; auto; lia. }
  pose proof ten10_pos.
  destruct (Geo_region P _ i ly G Hi) as [(d & Li & _ & A1 & A2)|[(E & A1 & A2)|(E & A1 & A2)]];
  rewrite A1, A2 in Hb.
  - pose proof (Tn i).
    pose proof (total_mono (thicknesses ops) (S i) (List.length (thicknesses ops)) Hp ltac:(lia)).
    rewrite total_all in H1. lra.
  - lra.
  - pose proof (Tn (List.length (thicknesses ops))). rewrite total_all in H0. lra.
Qed.
