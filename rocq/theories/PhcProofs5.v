(** What a history leaves behind besides the heights; the vertical grid; the
    attractive exciton potential. *)
From Verif Require Import Py LatticeModel CBase PhcModel PhcSpec PhcProofs PhcProofs2 PhcProofs3 PhcProofs4.
Open Scope R_scope.

Definition minfo (ly : layer) := (ly_zmid ly, ly_epsb ly).
Definition mids (P : phc) := (map minfo (pc_layers P), minfo (pc_clad_l P), minfo (pc_clad_u P), pc_lattice P, pc_qws P).
Lemma loop_minfo area l : forall ly, minfo (fst (add_shapes_loop area ly l)) = minfo ly.
Proof. induction l as [|[s|] t IH]; intros ly; simpl; auto. rewrite IH; reflexivity. Qed.
Lemma las_minfo area ly a : minfo (fst (layer_add_shape area ly a)) = minfo ly.
Proof. destruct a; simpl; auto. apply loop_minfo. Qed.
Lemma add_shape_mids P a li c : mids (fst (phc_add_shape P a li c)) = mids P.
Proof.
  unfold phc_add_shape. destruct (clad_target c) as [[[|]|e]|]; auto.
  - pose proof (las_minfo (lt_ec_area (pc_lattice P)) (pc_clad_u P) a) as H.
    destruct (layer_add_shape _ _ a) as [ly r] eqn:E. unfold mids; simpl in *. rewrite H; auto.
  - pose proof (las_minfo (lt_ec_area (pc_lattice P)) (pc_clad_l P) a) as H.
    destruct (layer_add_shape _ _ a) as [ly r] eqn:E. unfold mids; simpl in *. rewrite H; auto.
  - destruct (_ <=? li)%Z; auto. destruct (py_index _ li) as [k|]; auto.
    destruct (nth_error (pc_layers P) k) as [ly0|] eqn:Hk; auto.
    pose proof (las_minfo (lt_ec_area (pc_lattice P)) ly0 a) as H.
    destruct (layer_add_shape _ ly0 a) as [ly r] eqn:E. unfold mids; simpl in *.
    rewrite (set_nth_map minfo k ly ly0); auto.
Qed.

(** centres and backgrounds of the stack with thicknesses ds and backgrounds es *)
Fixpoint stackm (z : R) (ds es : list R) : list (R * R) :=
  match ds, es with d :: ds, e :: es => ((z + d + z) / 2, e) :: stackm (z + d) ds es | _, _ => [] end.
Lemma stackm_app z ds es d e : List.length ds = List.length es ->
  stackm z (ds ++ [d]) (es ++ [e]) = stackm z ds es ++ [((z + total ds + d + (z + total ds)) / 2, e)].
Proof.
  revert z es; induction ds as [|a t IH]; intros z [|e' es] H; simpl in *; try discriminate.
  - rewrite Rplus_0_r. auto.
  - rewrite IH by lia. rewrite <- (Rplus_assoc z a (total t)). auto.
Qed.
Lemma stackm_nth z ds es i : List.length ds = List.length es -> nth_error (stackm z ds es) i =
  match nth_error ds i, nth_error es i with
  | Some d, Some e => Some (z + total (firstn i ds) + d / 2, e)
  | _, _ => None
  end.
Proof.
  revert z es i; induction ds as [|a t IH]; intros z [|e es] [|i] H; simpl in *; try discriminate; auto.
  - f_equal. f_equal. field.
  - rewrite IH by lia. destruct (nth_error t i), (nth_error es i); auto. f_equal. f_equal. ring.
Qed.
Definition Mid (L : lattice) (el eu : R) (P : phc) (ds es : list R) (ws : list qw) : Prop :=
  List.length ds = List.length es /\ map minfo (pc_layers P) = stackm 0 ds es /\
  ly_epsb (pc_clad_l P) = el /\ ly_epsb (pc_clad_u P) = eu /\ pc_lattice P = L /\ pc_qws P = ws.
Lemma Mid_step L el eu P o ds es ws : Geo P ds -> Mid L el eu P ds es ws ->
  Mid L el eu (fst (step P o)) (ds ++ thicknesses [o]) (es ++ backgrounds [o]) (ws ++ wells (total ds) [o]).
Proof.
  intros G (H0 & H1 & H2 & H3 & H4 & H5). destruct o as [d e ty|q|a li c]; cbn [step thicknesses backgrounds wells].
  - unfold add_layer. rewrite (Geo_top P ds G). destruct (String.eqb (lower ty) "shapes") eqn:E.
    + cbn [fst]. unfold Mid. cbn [pc_layers pc_clad_l pc_clad_u pc_lattice pc_qws set_zmin ly_epsb]. rewrite !app_length, H0. split; [reflexivity|].
      rewrite map_app, H1, stackm_app by auto. rewrite app_nil_r. unfold minfo. cbn [map shapes_layer ly_zmid ly_epsb]. rewrite !Rplus_0_l. auto.
    + rewrite !app_nil_r. destruct (String.eqb (lower ty) "freeform"); cbn [fst]; repeat split; auto.
  - rewrite !app_nil_r. unfold add_qw. destruct G as (_ & G2 & G3 & _). unfold zinfo in G2. injection G2 as _ G2 _. rewrite G2, G3.
    destruct (Rlt_dec 0 (qw_z q)) as [Q1|Q1]; [destruct (Rlt_dec (qw_z q) (total ds)) as [Q2|Q2]|].
    + rewrite (proj2 (Rleb_false _ _)) by lra. rewrite (proj2 (Rleb_false _ _)) by lra. cbn [orb fst]. unfold Mid. cbn. rewrite H5. repeat split; auto.
    + rewrite (proj2 (Rleb_true (total ds) (qw_z q))) by lra. rewrite orb_true_r. cbn [fst]. rewrite app_nil_r. repeat split; auto.
    + rewrite (proj2 (Rleb_true (qw_z q) 0)) by lra. cbn [orb fst]. rewrite app_nil_r. repeat split; auto.
  - rewrite !app_nil_r. pose proof (add_shape_mids P a li c) as E. unfold mids in E.
    pose proof (f_equal (fun x => fst (fst (fst (fst x)))) E) as E1. pose proof (f_equal (fun x => snd (snd (fst (fst (fst x))))) E) as E2.
    pose proof (f_equal (fun x => snd (snd (fst (fst x)))) E) as E3. pose proof (f_equal (fun x => snd (fst x)) E) as E4. pose proof (f_equal snd E) as E5.
    cbn [fst snd minfo] in E1, E2, E3, E4, E5. unfold Mid. rewrite E1, E2, E3, E4, E5. repeat split; auto.
Qed.
Lemma back_app l m : backgrounds (l ++ m) = backgrounds l ++ backgrounds m.
Proof. induction l as [|[d e ty|q|a li c] l IH]; simpl; auto. destruct (String.eqb (lower ty) "shapes"); simpl; rewrite IH; auto. Qed.
Lemma wells_app h l m : wells h (l ++ m) = wells h l ++ wells (h + total (thicknesses l)) m.
Proof.
  revert h; induction l as [|[d e ty|q|a li c] l IH]; intros h; simpl.
  - rewrite Rplus_0_r. auto.
  - destruct (String.eqb (lower ty) "shapes"); simpl; rewrite IH; auto. rewrite Rplus_assoc. auto.
  - destruct (Rlt_dec 0 (qw_z q)); [destruct (Rlt_dec (qw_z q) h)|]; simpl; rewrite IH; auto.
  - rewrite IH. auto.
Qed.
Lemma Mid_reach L el eu ops : Mid L el eu (run_ops (phc_init L el eu) ops) (thicknesses ops) (backgrounds ops) (wells 0 ops).
Proof.
  induction ops as [|o ops IH] using rev_ind.
  - repeat split.
  - rewrite run_ops_app, thick_app, back_app, wells_app, Rplus_0_l. apply (Mid_step L el eu _ o); auto. apply Geo_reach.
Qed.
Lemma history_contents L el eu ops :
  let P := run_ops (phc_init L el eu) ops in
  let ds := thicknesses ops in
  pc_lattice P = L /\ pc_qws P = wells 0 ops /\ ly_epsb (pc_clad_l P) = el /\ ly_epsb (pc_clad_u P) = eu /\
  map ly_epsb (pc_layers P) = backgrounds ops /\
  forall i ly, nth_error (pc_layers P) i = Some ly ->
    exists d, nth_error ds i = Some d /\ ly_zmid ly = total (firstn i ds) + d / 2.
Proof.
  intros P ds. destruct (Mid_reach L el eu ops) as (H0 & H1 & H2 & H3 & H4 & H5). fold P ds in H0, H1, H2, H3, H4, H5.
  repeat (split; [assumption|]). split.
  - transitivity (map snd (map minfo (pc_layers P))); [rewrite map_map; reflexivity|]. rewrite H1. clear - H0. 
    generalize 0. revert H0. generalize (backgrounds ops). induction ds as [|d ds IH]; intros [|e es] H z; simpl in *; try discriminate; auto. f_equal. apply IH. lia.
  - intros i ly Hi. pose proof (stackm_nth 0 ds (backgrounds ops) i H0) as N. rewrite <- H1, nth_error_map, Hi in N. cbn [option_map] in N.
    destruct (nth_error ds i) as [d|]; [|discriminate]. destruct (nth_error (backgrounds ops) i); [|discriminate].
    exists d. split; auto. unfold minfo in N. injection N as N _. rewrite N. ring.
Qed.

(** the vertical grid *)
Lemma z_grid_spans L el eu ops Nz dst : let P := run_ops (phc_init L el eu) ops in
  (thicknesses ops = [] -> z_grid P Nz dst = Raise IndexError) /\
  (thicknesses ops <> [] -> exists zs, z_grid P Nz dst = Ok zs /\ List.length zs = Nz /\
     ((2 <= Nz)%nat -> forall i, (i < Nz)%nat -> nth i zs 0 = - dst + INR i * ((total (thicknesses ops) + 2 * dst) / (INR Nz - 1)))).
Proof.
  intros P. pose proof (Geo_reach L el eu ops) as G. fold P in G. pose proof (Geo_top P _ G) as T. pose proof (Geo_length P _ G) as Len.
  pose proof (stack_contiguous L el eu ops) as (_ & Hl & _). fold P in Hl. unfold z_grid.
  destruct (pc_layers P) as [|ly t] eqn:E.
  - split; auto. intros N. destruct (thicknesses ops); [congruence|discriminate].
  - split; [intros N; rewrite N in Len; discriminate|]. intros _. eexists. split; [reflexivity|]. unfold linspace. rewrite map_length, seq_length. split; auto.
    intros HN i Hi. destruct (Hl 0%nat ly eq_refl) as (d & _ & Z0 & _). cbn [firstn total] in Z0. rewrite T, Z0.
    set (h i := 0 - dst + (total (thicknesses ops) + dst - (0 - dst)) * (INR i / INR (Nz - 1))).
    rewrite (nth_indep _ 0 (h 0%nat)) by (rewrite map_length, seq_length; auto). rewrite (map_nth h), seq_nth by auto. unfold h. rewrite minus_INR by lia. cbn [Nat.add].
    assert (2 <= INR Nz) by (apply (le_INR 2); auto). simpl (INR 1). field. lra.
Qed.

(** the attractive exciton potential of one shape: zero inside the shape and
    |Vmax| outside it *)
Lemma exc_ft_attractive area ly s Vmax gs : 0 < area -> ly_shapes ly = [s] -> Vmax < 0 ->
  (exists g, In g gs /\ is_g0 g) ->
  (forall g, In g gs -> is_g0 g -> 0 < fst (sh_ft s g)) ->
  exists res, layer_exc_ft area ly Vmax gs = Ok res /\ List.length res = List.length gs /\
  forall i g, nth_error gs i = Some g ->
    (is_g0 g -> nth_error res i = Some (Cplus (Cdiv (Cmult (RtoC Vmax) (sh_ft s g)) (RtoC area)) (RtoC (- Vmax)))) /\
    (~ is_g0 g -> nth_error res i = Some (Cdiv (Cmult (RtoC Vmax) (sh_ft s g)) (RtoC area))).
Proof.
  intros Ha E Hv (g0 & I0 & Z0) Hs. unfold layer_exc_ft. rewrite E. cbn [exc_ft_loop].
  set (f := fun g => Cdiv (Cmult (RtoC Vmax) (sh_ft s g)) (RtoC area)).
  assert (NZ : forall g, near_zero g = true <-> is_g0 g).
  { intros g. unfold near_zero, is_g0. rewrite Rltb_true. unfold Rdiv. rewrite Rmult_1_l. tauto. }
  assert (F : zip_with (fun g v => Cdiv (Cplus v (Cmult (RtoC Vmax) (sh_ft s g))) (RtoC area)) gs (map (fun _ => RtoC 0) gs) = map f gs).
  { clear. induction gs as [|g gs IH]; auto. cbn. rewrite IH. f_equal. unfold f. f_equal. apply Cplus_0_l. }
  rewrite F.
  assert (FZ : exists g, In g gs /\ is_g0 g /\ first_zero gs (map f gs) = Some (f g)).
  { clear F Hs. induction gs as [|g gs IH]; [destruct I0|]. cbn. destruct (near_zero g) eqn:N.
    - exists g. split; auto. split; auto. apply NZ; auto.
    - destruct I0 as [->|I0]; [apply NZ in Z0; congruence|]. destruct (IH I0) as (g' & A & B & D). eauto. }
  destruct FZ as (g' & I' & Z' & ->).
  assert (Fst : fst (f g') = Vmax * fst (sh_ft s g') / area).
  { unfold f, Cdiv, Cinv. cbn. field. nra. }
  assert (LT : c_lt0 (f g') = true).
  { unfold c_lt0. rewrite (proj2 (Rltb_true _ _)); auto. rewrite Fst. pose proof (Hs g' I' Z').
    assert (0 < / area) by (apply Rinv_0_lt_compat; auto). unfold Rdiv. assert (Vmax * fst (sh_ft s g') < 0) by nra. nra. }
  rewrite LT. eexists. split; [reflexivity|]. rewrite (Rabs_left Vmax Hv). clear - NZ.
  set (h := fun g v => if near_zero g then Cplus v (RtoC (- Vmax)) else v).
  assert (Z : zip_with h gs (map f gs) = map (fun g => h g (f g)) gs) by (induction gs; cbn; [auto|rewrite IHgs; auto]).
  rewrite Z, map_length. split; auto. intros i g Hi. rewrite nth_error_map, Hi. cbn [option_map]. unfold h. fold (f g). split; intros N.
  - rewrite (proj2 (NZ g) N). auto.
  - destruct (near_zero g) eqn:Q; auto. exfalso. apply N, NZ; auto.
Qed.

(** ** the exceptions of add_shape *)
Lemma shapes_loop_error area l : forall ly, snd (add_shapes_loop area ly l) = if existsb (fun o => match o with None => true | Some _ => false end) l then Some ValueError else None.
Proof. induction l as [|[s|] l IH]; intros ly; [reflexivity| |reflexivity]. cbn [add_shapes_loop existsb orb]. apply IH. Qed.
Lemma layer_add_error area ly a : snd (layer_add_shape area ly a) =
  match a with ShNotIterable => Some TypeError | ShOne _ => None | ShMany l => if existsb (fun o => match o with None => true | Some _ => false end) l then Some ValueError else None end.
Proof. destruct a as [s|l|]; cbn [layer_add_shape snd]; [reflexivity|apply shapes_loop_error|reflexivity]. Qed.
Lemma add_shape_errors P a li c :
  (target_pos (List.length (pc_layers P)) li c = None -> step P (OpShape a li c) =
     (P, Some (match c with CladNone => if (li <? 0)%Z then IndexError else ValueError | _ => ValueError end))) /\
  (target_pos (List.length (pc_layers P)) li c <> None -> snd (step P (OpShape a li c)) =
     match a with ShNotIterable => Some TypeError | ShOne _ => None | ShMany l => if existsb (fun o => match o with None => true | Some _ => false end) l then Some ValueError else None end).
Proof.
  cbn [step]. unfold phc_add_shape. assert (X : forall ly, snd (layer_add_shape (lt_ec_area (pc_lattice P)) ly a) =
     match a with ShNotIterable => Some TypeError | ShOne _ => None | ShMany l => if existsb (fun o => match o with None => true | Some _ => false end) l then Some ValueError else None end) by (intros; apply layer_add_error).
  assert (Y : forall ly (f : layer -> phc), snd (let (ly, r) := layer_add_shape (lt_ec_area (pc_lattice P)) ly a in (f ly, r)) =
     match a with ShNotIterable => Some TypeError | ShOne _ => None | ShMany l => if existsb (fun o => match o with None => true | Some _ => false end) l then Some ValueError else None end).
  { intros ly f. rewrite <- (X ly). now destruct (layer_add_shape _ ly a). }
  destruct c as [|z|s]; cbn [clad_target target_pos].
  - set (N := List.length (pc_layers P)). destruct (Z.leb_spec (Z.of_nat N) li), (Z.ltb_spec li (- Z.of_nat N)); try lia.
    + split; [|congruence]. intros _. destruct (Z.ltb_spec li 0); [lia|reflexivity].
    + split; [|congruence]. intros _. unfold py_index. destruct (Z.leb_spec 0 li); [lia|]. destruct (Z.leb_spec (- Z.of_nat N) li); [lia|]. destruct (Z.ltb_spec li 0); [reflexivity|lia].
    + split; [discriminate|]. intros _. unfold py_index. fold N.
      assert (Q : forall k, (k < N)%nat -> exists ly, nth_error (pc_layers P) k = Some ly). { intros k Hk. destruct (nth_error (pc_layers P) k) eqn:E; [eauto|]. apply nth_error_None in E. unfold N in Hk. lia. }
      destruct (Z.leb_spec 0 li).
      * destruct (Z.ltb_spec li (Z.of_nat N)); [|lia]. destruct (Q (Z.to_nat li)) as (ly & ->); [lia|]. apply Y.
      * destruct (Z.leb_spec (- Z.of_nat N) li); [|lia]. destruct (Q (Z.to_nat (li + Z.of_nat N))) as (ly & ->); [lia|]. apply Y.
  - destruct z as [|[p|p|]|p]; (split; [try discriminate; intros _; reflexivity|try congruence; intros _; apply Y]).
  - destruct (String.eqb s "l"); [split; [discriminate|intros _; apply Y]|]. destruct (String.eqb s "u"); [split; [discriminate|intros _; apply Y]|].
    split; [reflexivity|congruence].
Qed.
