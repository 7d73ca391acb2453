(** Proofs about viz.field and viz.wavef. *)
From Coq Require Import Ascii.
From Verif Require Import Py LatticeModel CBase PhcModel VizModel VizSpec CellProofs.
Open Scope R_scope.

Lemma zip_len {A B D} (f : A -> B -> D) a b : List.length a = List.length b -> List.length (zip_with f a b) = List.length a.
Proof. revert b; induction a as [|x a IH]; intros [|y b] H; cbn in *; try lia. now rewrite IH by lia. Qed.
Lemma zip_nth {A B D} (f : A -> B -> D) a b i x y : nth_error a i = Some x -> nth_error b i = Some y -> nth_error (zip_with f a b) i = Some (f x y).
Proof. revert b i; induction a as [|u a IH]; intros [|v b] [|i] Hx Hy; cbn in *; try discriminate; [congruence|now apply IH]. Qed.

(** ** the factor *)
Lemma phase_sum (s t : R) : cexp (Cplus (Cmult Ci (RtoC s)) (Cmult Ci (RtoC t))) = expi (s + t).
Proof. rewrite cexp_plus, !cexp_i, expi_plus. reflexivity. Qed.
Lemma kenv_yz kx ky c g1 g2 : exists k, kenv PlYZ kx ky c g1 g2 = Ok k /\ List.length k = List.length g1 /\
  forall i u, nth_error g1 i = Some u -> nth_error k i = Some (expi (kx * c + ky * u)).
Proof.
  eexists. split; [reflexivity|]. unfold ramp. rewrite !map_length. split; [reflexivity|]. intros i u H. rewrite !nth_error_map, H. cbn [option_map].
  rewrite phase_sum. do 2 f_equal. ring.
Qed.
Lemma kenv_xz kx ky c g1 g2 : exists k, kenv PlXZ kx ky c g1 g2 = Ok k /\ List.length k = List.length g1 /\
  forall i u, nth_error g1 i = Some u -> nth_error k i = Some (expi (kx * u + ky * c)).
Proof.
  eexists. split; [reflexivity|]. unfold ramp. rewrite !map_length. split; [reflexivity|]. intros i u H. rewrite !nth_error_map, H. cbn [option_map].
  rewrite phase_sum. do 2 f_equal. ring.
Qed.
Lemma kenv_xy kx ky c g1 g2 : List.length g1 = List.length g2 -> exists k, kenv PlXY kx ky c g1 g2 = Ok k /\ List.length k = List.length g1 /\
  forall i u v, nth_error g1 i = Some u -> nth_error g2 i = Some v -> nth_error k i = Some (expi (kx * u + ky * v)).
Proof.
  intros H. unfold kenv, add1d, ramp. rewrite !map_length. rewrite (proj2 (Nat.eqb_eq _ _) H). cbn [bind]. eexists. split; [reflexivity|].
  rewrite map_length, zip_len by (now rewrite !map_length). rewrite map_length. split; [reflexivity|]. intros i u v Hu Hv.
  rewrite nth_error_map. rewrite (zip_nth Cplus _ _ i (Cmult Ci (RtoC (u * kx))) (Cmult Ci (RtoC (v * ky)))); [|now rewrite nth_error_map, Hu|now rewrite nth_error_map, Hv].
  cbn [option_map]. rewrite phase_sum. do 2 f_equal. ring.
Qed.
Lemma kenv_xy_bad kx ky c g1 g2 : List.length g1 <> List.length g2 -> List.length g1 <> 1%nat -> List.length g2 <> 1%nat -> kenv PlXY kx ky c g1 g2 = Raise ValueError.
Proof.
  intros H H1 H2. unfold kenv, add1d, ramp. rewrite !map_length. rewrite (proj2 (Nat.eqb_neq _ _) H).
  destruct g1 as [|a [|a' g1]]; destruct g2 as [|b [|b' g2]]; cbn in *; try lia; try reflexivity.
Qed.

Lemma kenv_xy_line kx ky c g1 y : exists k, kenv PlXY kx ky c g1 [y] = Ok k /\ List.length k = List.length g1 /\
  forall i u, nth_error g1 i = Some u -> nth_error k i = Some (expi (kx * u + ky * y)).
Proof.
  destruct (Nat.eq_dec (List.length g1) 1) as [H1|H1].
  - destruct (kenv_xy kx ky c g1 [y] H1) as (k & E & Hl & Hk). exists k. split; [exact E|]. split; [exact Hl|]. intros i u Hu. apply Hk; [exact Hu|].
    assert (i < List.length g1)%nat by (apply nth_error_Some; congruence). destruct i; [reflexivity|lia].
  - unfold kenv, add1d, ramp. rewrite !map_length. change (List.length [y]) with 1%nat. rewrite (proj2 (Nat.eqb_neq _ _) H1).
    assert (E : match map (fun u => Cmult Ci (RtoC (u * kx))) g1, map (fun u => Cmult Ci (RtoC (u * ky))) [y] with
       | [u], _ => Ok (map (Cplus u) (map (fun u => Cmult Ci (RtoC (u * ky))) [y])) | _, [v] => Ok (map (fun u => Cplus u v) (map (fun u => Cmult Ci (RtoC (u * kx))) g1)) | _, _ => Raise ValueError end
       = Ok (map (fun u => Cplus u (Cmult Ci (RtoC (y * ky)))) (map (fun u => Cmult Ci (RtoC (u * kx))) g1))) by (destruct g1 as [|a [|b g1]]; [reflexivity|cbn in H1; lia|reflexivity]).
    rewrite E. cbn [bind]. eexists. split; [reflexivity|]. rewrite !map_length. split; [reflexivity|]. intros i u Hu. rewrite !nth_error_map, Hu. cbn [option_map].
    rewrite phase_sum. do 2 f_equal. ring.
Qed.
Lemma kenv_xy_column kx ky c x g2 : exists k, kenv PlXY kx ky c [x] g2 = Ok k /\ List.length k = List.length g2.
Proof.
  unfold kenv, add1d, ramp. rewrite !map_length. destruct (Nat.eqb_spec (List.length [x]) (List.length g2)) as [H|H]; cbn [bind map].
  - eexists. split; [reflexivity|]. rewrite map_length, zip_len by (cbn [List.length] in *; now rewrite map_length). exact H.
  - eexists. split; [reflexivity|]. now rewrite !map_length.
Qed.

(** ** multiplication in place *)
Lemma imul_row_val k row : List.length row = List.length k -> exists r, imul_row k row = Ok r /\ List.length r = List.length row /\
  forall i w c, nth_error row i = Some w -> nth_error k i = Some c -> nth_error r i = Some (Cmult w c).
Proof.
  intros H. assert (Z : forall i w c, nth_error row i = Some w -> nth_error k i = Some c -> nth_error (zip_with Cmult row k) i = Some (Cmult w c)) by (intros; now apply zip_nth).
  unfold imul_row. destruct k as [|c [|c' k]].
  - rewrite (proj2 (Nat.eqb_eq _ _) H). eexists. split; [reflexivity|]. split; [now apply zip_len|exact Z].
  - eexists. split; [reflexivity|]. split; [apply map_length|]. destruct row as [|w [|w' row]]; cbn in H; try lia.
    intros [|i] w0 c0 H1 H2; cbn in *; [congruence|destruct i; discriminate].
  - rewrite (proj2 (Nat.eqb_eq _ _) H). eexists. split; [reflexivity|]. split; [now apply zip_len|exact Z].
Qed.
Lemma imul_val k f : Forall (fun r => List.length r = List.length k) f -> exists r, imul f k = Ok r /\ List.length r = List.length f /\
  Forall (fun r => List.length r = List.length k) r /\
  forall i j w c, entry f j i = Some w -> nth_error k i = Some c -> entry r j i = Some (Cmult w c).
Proof.
  intros H. unfold imul. induction H as [|row f Hr H IH]; cbn [mapM].
  - exists []. split; [reflexivity|]. split; [reflexivity|]. split; [constructor|]. intros i j w c He. destruct j; discriminate.
  - destruct (imul_row_val k row Hr) as (r & E & Hl & Hn). destruct IH as (rs & E' & Hl' & HF & Hn'). rewrite E. cbn [bind]. rewrite E'. cbn [bind].
    eexists. split; [reflexivity|]. split; [cbn; now rewrite Hl'|]. split; [constructor; [congruence|exact HF]|].
    intros i [|j] w c He Hc; unfold entry in *; cbn [nth_error] in *; [now apply Hn|now apply (Hn' i j w c)].
Qed.

(** ** the maximum *)
Lemma fold_max l x : x <= fold_left Rmax l x /\ forall y, In y l -> y <= fold_left Rmax l x.
Proof.
  revert x; induction l as [|a l IH]; intros x; cbn [fold_left In]; [split; [lra|contradiction]|].
  destruct (IH (Rmax x a)) as [H1 H2]. pose proof (Rmax_l x a). pose proof (Rmax_r x a). split; [lra|]. intros y [<-|Hy]; [lra|auto].
Qed.
Lemma amax_ok l : l <> [] -> exists m, amax l = Ok m /\ forall y, In y l -> y <= m.
Proof.
  destruct l as [|x l]; [easy|]. intros _. eexists. split; [reflexivity|]. destruct (fold_max l x) as [H1 H2]. intros y [<-|Hy]; [exact H1|auto].
Qed.
Lemma entry_in {A} (f : list (list A)) j i w : entry f j i = Some w -> In w (List.concat f).
Proof.
  unfold entry. destruct (nth_error f j) as [r|] eqn:E; [|discriminate]. intros H. apply in_concat. exists r. split; eapply nth_error_In; eassumption.
Qed.
Lemma entry_map {A B} (g : A -> B) f j i : entry (map (map g) f) j i = option_map g (entry f j i).
Proof. unfold entry. rewrite nth_error_map. destruct (nth_error f j); cbn [option_map]; [apply nth_error_map|reflexivity]. Qed.

Lemma part_real p z : part_of p z = real_part p z.
Proof. destruct p; try reflexivity. unfold part_of, real_part, Cmod. f_equal. ring. Qed.
Lemma val_of_name p v : lower v = val_name p -> val_of v = Some p.
Proof. intros H. unfold val_of. rewrite H. destruct p; reflexivity. Qed.
Lemma val_of_bad v : (forall p, lower v <> val_name p) -> val_of v = None.
Proof.
  intros H. unfold val_of. destruct (String.eqb_spec (lower v) "re") as [E|_]; [now destruct (H PRe)|].
  destruct (String.eqb_spec (lower v) "im") as [E|_]; [now destruct (H PIm)|]. destruct (String.eqb_spec (lower v) "abs") as [E|_]; [now destruct (H PAbs)|reflexivity].
Qed.
Lemma shown_ok v p f : lower v = val_name p -> List.concat f <> [] -> exists Z lo hi, shown v f = Ok (Z, (lo, hi)) /\ List.length Z = List.length f /\
  forall i j w, entry f j i = Some w -> entry Z j i = Some (real_part p w) /\ lo <= real_part p w <= hi.
Proof.
  intros Hv Hne. unfold shown. rewrite (val_of_name p v Hv).
  set (Z := map (map (part_of p)) f). set (g := match p with PAbs => _ | _ => _ end : R -> R).
  assert (HZ : List.concat Z <> []). { unfold Z. rewrite <- concat_map. destruct (List.concat f); [contradiction|discriminate]. }
  destruct (amax_ok (map g (List.concat Z))) as (m & E & Hm); [destruct (List.concat Z); [contradiction|discriminate]|].
  rewrite E. cbn [bind]. do 3 eexists. split; [reflexivity|]. split; [apply map_length|]. intros i j w Hw.
  assert (HE : entry Z j i = Some (real_part p w)) by (unfold Z; rewrite entry_map, Hw; cbn [option_map]; now rewrite part_real).
  split; [exact HE|]. apply entry_in in HE. apply (in_map g), Hm in HE.
  assert (HA : forall x, - Rabs x <= x <= Rabs x) by (intros x; unfold Rabs; destruct (Rcase_abs x); lra).
  destruct p; unfold g in HE; try (pose proof (HA (real_part PRe w)); lra); try (pose proof (HA (real_part PIm w)); lra).
  split; [apply sqrt_pos|exact HE].
Qed.

(** ** the loop over the components *)
Lemma get_set_same c f f0 d : get_key c d = Ok f0 -> get_key c (set_key c f d) = Ok f.
Proof.
  induction d as [|[c' f'] d IH]; cbn [get_key set_key]; [discriminate|]. destruct (Ascii.eqb c c') eqn:E; cbn [get_key]; rewrite E; auto.
Qed.
Lemma get_set_other c c' f d : c <> c' -> get_key c (set_key c' f d) = get_key c d.
Proof.
  intros H. induction d as [|[c2 f2] d IH]; cbn [get_key set_key]; [reflexivity|]. destruct (Ascii.eqb_spec c' c2) as [->|Hn]; cbn [get_key].
  - destruct (Ascii.eqb_spec c c2); [contradiction|reflexivity].
  - destruct (Ascii.eqb c c2); [reflexivity|exact IH].
Qed.
(** every letter once: the pictures, for the factor k (or 1 for the periodic part) *)
Lemma comp_ok periodic k v p comp fi n : lower v = val_name p -> NoDup (letters comp) -> (0 < n)%nat -> (periodic = false -> List.length k = n) ->
  (forall c, In c (letters comp) -> exists f, get_key c fi = Ok f /\ f <> [] /\ Forall (fun r => List.length r = n) f) ->
  exists ds, comp_draws periodic k v comp fi = Ok ds /\ List.length ds = List.length (letters comp) /\
    forall m c f, nth_error (letters comp) m = Some c -> get_key c fi = Ok f ->
      exists Z lo hi, nth_error ds m = Some (Z, (lo, hi)) /\ List.length Z = List.length f /\
        forall i j w e, entry f j i = Some w -> (periodic = false -> nth_error k i = Some e) ->
          let w' := if periodic then w else Cmult w e in entry Z j i = Some (real_part p w') /\ lo <= real_part p w' <= hi.
Proof.
  intros Hv Hnd Hn Hk. revert fi Hnd. induction comp as [|c comp IH]; intros fi Hnd HF; cbn [comp_draws letters].
  { exists []. split; [reflexivity|]. split; [reflexivity|]. intros m c f Hm. destruct m; discriminate. }
  inversion Hnd as [|? ? Hnin Hnd']; subst. destruct (HF c) as (f & Hg & Hne & Hrow); [now left|]. rewrite Hg. cbn [bind].
  set (r0 := if periodic then Ok f else imul f k).
  assert (H0 : exists f', r0 = Ok f' /\ List.length f' = List.length f /\ Forall (fun r => List.length r = n) f' /\
    forall i j w e, entry f j i = Some w -> (periodic = false -> nth_error k i = Some e) -> entry f' j i = Some (if periodic then w else Cmult w e)).
  { unfold r0. destruct periodic; [exists f; auto|]. destruct (imul_val k f) as (f' & E & Hl & HF' & Hen); [now rewrite Hk|]. exists f'. rewrite Hk in HF' by reflexivity. repeat split; auto. }
  destruct H0 as (f' & E & Hl & HF' & Hen). rewrite E. cbn [bind].
  destruct (shown_ok v p f' Hv) as (Z & lo & hi & Es & HlZ & HZ).
  { destruct f' as [|r f']; [destruct f; [contradiction|discriminate]|]. inversion HF'; subst. destruct r; [cbn in *; lia|discriminate]. }
  rewrite Es. cbn [bind]. destruct (IH (set_key c f' fi) Hnd') as (ds & Ed & Hld & Hds).
  { intros c' Hc'. assert (c' <> c) by congruence. rewrite get_set_other by assumption. apply HF. now right. }
  rewrite Ed. cbn [bind]. eexists. split; [reflexivity|]. split; [cbn; now rewrite Hld|]. intros [|m] c' g Hm Hc'; cbn [nth_error] in *.
  - inversion Hm; subst c'. rewrite Hg in Hc'. inversion Hc'; subst g. exists Z, lo, hi. split; [reflexivity|]. split; [congruence|]. intros i j w e Hw He. cbv zeta. apply HZ. now apply Hen.
  - apply (Hds m c' g); [exact Hm|]. rewrite get_set_other; [exact Hc'|]. intros ->. apply Hnin. eapply nth_error_In; exact Hm.
Qed.

(** ** field *)
Lemma ready_rows g1 g2 comp fi : g2 <> [] -> comps_ready g1 g2 comp fi ->
  forall c, In c (letters comp) -> exists f, get_key c fi = Ok f /\ f <> [] /\ Forall (fun r => List.length r = List.length g1) f.
Proof. intros H2 [_ H] c Hc. destruct (H c Hc) as (f & E & Hl & HF). exists f. split; [exact E|]. split; [|exact HF]. intros ->. destruct g2; [contradiction|discriminate]. Qed.

Lemma bloch_expi kx ky x y w : bloch kx ky x y w = Cmult w (expi (kx * x + ky * y)).
Proof. reflexivity. Qed.
Lemma field_generic periodic k v p comp fi g1 g2 kx ky pos : lower v = val_name p -> g1 <> [] -> g2 <> [] -> comps_ready g1 g2 comp fi ->
  (periodic = false -> List.length k = List.length g1) ->
  (periodic = false -> forall i j u v, nth_error g1 i = Some u -> nth_error g2 j = Some v -> nth_error k i = Some (expi (kx * fst (pos u v) + ky * snd (pos u v)))) ->
  exists ds, comp_draws periodic k v comp fi = Ok ds /\ List.length ds = List.length (letters comp) /\
    forall m c f, nth_error (letters comp) m = Some c -> get_key c fi = Ok f ->
      exists pic, nth_error ds m = Some pic /\ shows_wave p (if periodic then 0 else kx) (if periodic then 0 else ky) pos g1 g2 f pic.
Proof.
  intros Hv H1 H2 Hr Hk Hke. destruct (comp_ok periodic k v p comp fi (List.length g1) Hv (proj1 Hr)) as (ds & E & Hl & H).
  { destruct g1; [contradiction|cbn; lia]. } { exact Hk. } { now apply (ready_rows g1 g2). }
  exists ds. split; [exact E|]. split; [exact Hl|]. intros m c f Hm Hc. destruct (H m c f Hm Hc) as (Z & lo & hi & Hd & HlZ & HZ).
  exists (Z, (lo, hi)). split; [exact Hd|]. split; [exact HlZ|]. intros i j u w0 w Hu Hv' Hw.
  destruct (HZ i j w (expi (kx * fst (pos u w0) + ky * snd (pos u w0))) Hw) as [He Hb]; [intros Hp; now apply (Hke Hp i j)|]. cbv zeta in He, Hb.
  eexists. split; [exact He|]. rewrite bloch_expi. destruct periodic; [|split; [reflexivity|exact Hb]].
  replace (0 * fst (pos u w0) + 0 * snd (pos u w0)) with 0 by ring. rewrite expi_0, Cmult_1_r. split; [reflexivity|exact Hb].
Qed.

Lemma field_xz kx ky y periodic v p comp g1 g2 fi : lower v = val_name p -> g1 <> [] -> g2 <> [] -> comps_ready g1 g2 (lower comp) fi ->
  exists ds, viz_field false None (Some y) None kx ky periodic v comp g1 g2 fi = Ok ds /\ List.length ds = List.length (letters (lower comp)) /\
    forall m c f, nth_error (letters (lower comp)) m = Some c -> get_key c fi = Ok f ->
      exists pic, nth_error ds m = Some pic /\ shows_wave p (if periodic then 0 else kx) (if periodic then 0 else ky) (fun u _ => (u, y)) g1 g2 f pic.
Proof.
  intros Hv H1 H2 Hr. unfold viz_field. cbn [field_plane bind]. destruct (kenv_xz kx ky y g1 g2) as (k & E & Hl & Hk).
  destruct periodic.
  - cbn [bind]. apply (field_generic true [] v p (lower comp) fi g1 g2 kx ky (fun u _ => (u, y))); auto; discriminate.
  - rewrite E. cbn [bind]. apply (field_generic false k v p (lower comp) fi g1 g2 kx ky (fun u _ => (u, y))); auto.
Qed.
Lemma field_yz kx ky x periodic v p comp g1 g2 fi : lower v = val_name p -> g1 <> [] -> g2 <> [] -> comps_ready g1 g2 (lower comp) fi ->
  exists ds, viz_field false (Some x) None None kx ky periodic v comp g1 g2 fi = Ok ds /\ List.length ds = List.length (letters (lower comp)) /\
    forall m c f, nth_error (letters (lower comp)) m = Some c -> get_key c fi = Ok f ->
      exists pic, nth_error ds m = Some pic /\ shows_wave p (if periodic then 0 else kx) (if periodic then 0 else ky) (fun u _ => (x, u)) g1 g2 f pic.
Proof.
  intros Hv H1 H2 Hr. unfold viz_field. cbn [field_plane bind]. destruct (kenv_yz kx ky x g1 g2) as (k & E & Hl & Hk).
  destruct periodic.
  - cbn [bind]. apply (field_generic true [] v p (lower comp) fi g1 g2 kx ky (fun u _ => (x, u))); auto; discriminate.
  - rewrite E. cbn [bind]. apply (field_generic false k v p (lower comp) fi g1 g2 kx ky (fun u _ => (x, u))); auto.
Qed.
(** the xy-plane: the periodic part, and the wave when ky (v - v') is a multiple of a turn
    for all heights v, v' of the grid *)
Lemma expi_turns a b (n : Z) : a - b = 2 * PI * IZR n -> expi a = expi b.
Proof. intros H. replace a with (b + 2 * PI * IZR n) by lra. rewrite expi_plus, expi_int. ring. Qed.

Lemma field_xy is_pwe kx ky zo periodic v p comp g1 g2 fi : (is_pwe = false -> zo <> None) -> lower v = val_name p -> g1 <> [] -> g2 <> [] -> comps_ready g1 g2 (lower comp) fi ->
  (periodic = false -> (List.length g1 = List.length g2 \/ List.length g2 = 1%nat) /\ forall a b, In a g2 -> In b g2 -> exists n : Z, ky * (a - b) = 2 * PI * IZR n) ->
  exists ds, viz_field is_pwe None None zo kx ky periodic v comp g1 g2 fi = Ok ds /\ List.length ds = List.length (letters (lower comp)) /\
    forall m c f, nth_error (letters (lower comp)) m = Some c -> get_key c fi = Ok f ->
      exists pic, nth_error ds m = Some pic /\ shows_wave p (if periodic then 0 else kx) (if periodic then 0 else ky) (fun u v => (u, v)) g1 g2 f pic.
Proof.
  intros Hz Hv H1 H2 Hr Hxy. unfold viz_field.
  assert (HP : field_plane is_pwe None None zo = Ok PlXY) by (destruct is_pwe, zo; try reflexivity; now destruct (Hz eq_refl)).
  rewrite HP. cbn [bind]. destruct periodic.
  - cbn [bind]. apply (field_generic true [] v p (lower comp) fi g1 g2 kx ky (fun u v => (u, v))); auto; discriminate.
  - destruct (Hxy eq_refl) as [[Hlen|Hlen] Hper].
    2:{ destruct g2 as [|y [|? ?]]; try discriminate. destruct (kenv_xy_line kx ky 0 g1 y) as (k & E & Hl & Hk). rewrite E. cbn [bind].
      apply (field_generic false k v p (lower comp) fi g1 [y] kx ky (fun u v => (u, v))); auto. intros _ i j u w Hu Hw. cbn [fst snd].
      destruct j as [|[|j]]; try discriminate. injection Hw as <-. now apply Hk. }
    destruct (kenv_xy kx ky 0 g1 g2 Hlen) as (k & E & Hl & Hk). rewrite E. cbn [bind].
    apply (field_generic false k v p (lower comp) fi g1 g2 kx ky (fun u v => (u, v))); auto. intros _ i j u w Hu Hw. cbn [fst snd].
    destruct (nth_error g2 i) as [w'|] eqn:Ew; [|apply nth_error_None in Ew; assert (i < List.length g1)%nat by (apply nth_error_Some; congruence); lia].
    rewrite (Hk i u w' Hu Ew). f_equal. destruct (Hper w' w) as (n & Hn); [eapply nth_error_In; eassumption|eapply nth_error_In; eassumption|].
    apply (expi_turns _ _ n). lra.
Qed.
Lemma field_xy_bad kx ky z v comp g1 g2 fi : List.length g1 <> List.length g2 -> List.length g1 <> 1%nat -> List.length g2 <> 1%nat ->
  viz_field false None None (Some z) kx ky false v comp g1 g2 fi = Raise ValueError.
Proof. intros. unfold viz_field. cbn [field_plane bind]. now rewrite kenv_xy_bad. Qed.

(** one column: raises *)
Lemma field_xy_column kx ky z v comp x g2 fi : (1 < List.length g2)%nat -> comp <> ""%string -> comps_ready [x] g2 (lower comp) fi ->
  viz_field false None None (Some z) kx ky false v comp [x] g2 fi = Raise ValueError.
Proof.
  intros H2 Hc [_ Hr]. unfold viz_field. cbn [field_plane bind]. destruct (kenv_xy_column kx ky 0 x g2) as (k & -> & Hl). cbn [bind].
  destruct comp as [|a comp]; [congruence|]. cbn [lower comp_draws]. destruct (Hr (lower_ascii a)) as (f & Hg & Hlf & HF); [now left|]. cbn [lower] in *. rewrite Hg. cbn [bind].
  destruct f as [|r f]; [cbn in Hlf; lia|]. inversion HF as [|? ? Hr1 HF']; subst. cbn [imul mapM]. unfold imul. cbn [mapM]. unfold imul_row at 1.
  destruct k as [|c0 [|c1 k]]; cbn in Hl; try lia. rewrite (proj2 (Nat.eqb_neq _ _)) by (rewrite Hr1; cbn; lia). reflexivity.
Qed.

(** ** planes *)
Lemma plane_table x y z : field_plane false x y z =
  match x, y, z with
  | Some _, None, None => Ok PlYZ | None, Some _, None => Ok PlXZ | None, None, Some _ => Ok PlXY | _, _, _ => Raise ValueError
  end.
Proof. destruct x, y, z; reflexivity. Qed.

(** ** the wave in the xy-plane that is wrong *)
Definition g_half : list R := [-1/2; 1/2].
Definition f_one : list (list C) := [[RtoC 1; RtoC 1]; [RtoC 1; RtoC 1]].
Lemma xy_wrong : exists pic, viz_field false None None (Some 0) 0 PI false "im" "z" g_half g_half [("z"%char, f_one)] = Ok [pic] /\
  ~ shows_wave PIm 0 PI (fun u v => (u, v)) g_half g_half f_one pic.
Proof.
  destruct (kenv_xy 0 PI 0 g_half g_half eq_refl) as (k & E & Hl & Hk).
  unfold viz_field. cbn [field_plane bind]. rewrite E. cbn [bind].
  destruct (comp_ok false k "im" PIm "z" [("z"%char, f_one)] 2 eq_refl) as (ds & Ed & Hld & H).
  { constructor; [easy|constructor]. } { lia. } { now intros _. }
  { intros c [<-|[]]. exists f_one. split; [reflexivity|]. split; [discriminate|]. repeat constructor. }
  change (lower "z") with "z"%string. rewrite Ed. destruct ds as [|pic [|]]; cbn in Hld; try lia. exists pic. split; [reflexivity|].
  destruct (H 0%nat "z"%char f_one eq_refl eq_refl) as (Z & lo & hi & Hd & HlZ & HZ). cbn in Hd. inversion Hd; subst pic. intros [_ HS].
  (* column 1, row 0: the code has the phase of y_1 *)
  specialize (HS 1%nat 0%nat (1/2) (-1/2) (RtoC 1) eq_refl eq_refl eq_refl). destruct HS as (e & He & Hv & _).
  pose proof (Hk 1%nat (1/2) (1/2) eq_refl eq_refl) as H1.
  destruct (HZ 1%nat 0%nat (RtoC 1) _ eq_refl (fun _ => H1)) as [Hz _]. cbn in Hz. rewrite He in Hz. inversion Hz as [Hz'].
  rewrite Hz' in Hv. rewrite bloch_expi in Hv. cbn [fst snd real_part] in Hv. rewrite !Cmult_1_l in Hv. unfold expi in Hv. cbn [snd] in Hv.
  revert Hv. replace (0 * (1 / 2) + PI * (1 / 2)) with (PI / 2) by field. replace (0 * (1 / 2) + PI * (-1 / 2)) with (- (PI / 2)) by field.
  rewrite sin_neg, sin_PI2. lra.
Qed.
(** a letter given twice: the second picture has the phase twice *)
Lemma letter_twice : exists p1 p2, viz_field false None (Some 0) None PI 0 false "re" "xx" [1] [0] [("x"%char, [[RtoC 1]])] = Ok [p1; p2] /\
  shows_wave PRe PI 0 (fun u _ => (u, 0)) [1] [0] [[RtoC 1]] p1 /\ ~ shows_wave PRe PI 0 (fun u _ => (u, 0)) [1] [0] [[RtoC 1]] p2.
Proof.
  destruct (kenv_xz PI 0 0 [1] [0]) as (k & E & Hl & Hk).
  unfold viz_field. cbn [field_plane bind]. rewrite E. cbn [bind]. destruct k as [|c [|]]; cbn in Hl; try lia.
  pose proof (Hk 0%nat 1 eq_refl) as Hc. cbn in Hc. inversion Hc as [Hc'].
  cbn. do 2 eexists. split; [reflexivity|].
  assert (HP : expi (PI * 1 + 0 * 0) = RtoC (-1)). { replace (PI * 1 + 0 * 0) with PI by ring. unfold expi. rewrite cos_PI, sin_PI. reflexivity. }
  split.
  - split; [reflexivity|]. intros [|i] [|j] u v w Hu Hv Hw; try (destruct i; discriminate); try (destruct j; discriminate).
    cbn in Hu, Hv, Hw. inversion Hu; inversion Hv; inversion Hw; subst. eexists. split; [reflexivity|]. rewrite bloch_expi. cbn [fst snd real_part].
    rewrite !HP. cbn. split; [reflexivity|]. unfold Rabs. destruct (Rcase_abs _); lra.
  - intros [_ HS]. destruct (HS 0%nat 0%nat 1 0 (RtoC 1) eq_refl eq_refl eq_refl) as (e & He & Hv & _). cbn in He. inversion He as [He']. clear He.
    rewrite Hv in He'. rewrite bloch_expi in He'. cbn [fst snd real_part] in He'. rewrite !HP in He'. cbn in He'. replace (PI * 1 + 0 * 0) with PI in He' by ring. rewrite cos_PI, sin_PI in He'. lra.
Qed.

(** ** errors *)
Lemma val_bad periodic k v c comp f fi : (forall p, lower v <> val_name p) -> get_key c fi = Ok f -> (periodic = false -> Forall (fun r => List.length r = List.length k) f) ->
  comp_draws periodic k v (String c comp) fi = Raise ValueError.
Proof.
  intros Hv Hg Hk. cbn [comp_draws]. rewrite Hg. cbn [bind].
  assert (H : exists f', (if periodic then Ok f else imul f k) = Ok f'). { destruct periodic; [now exists f|]. destruct (imul_val k f) as (f' & E & _); [auto|]. now exists f'. }
  destruct H as (f' & E). rewrite E. cbn [bind]. unfold shown. now rewrite val_of_bad.
Qed.

(** ** wavef *)
Lemma wavef_ok v p f : lower v = val_name p -> p <> PAbs -> List.concat f <> [] -> exists Z lo hi, viz_wavef v f = Ok (Z, (lo, hi)) /\ List.length Z = List.length f /\
  forall i j w, entry f j i = Some w -> entry Z j i = Some (real_part p w) /\ lo <= real_part p w <= hi.
Proof.
  intros Hv Hp Hne. destruct (shown_ok v p f Hv Hne) as (Z & lo & hi & E & H). exists Z, lo, hi. split; [|exact H].
  unfold shown in E. rewrite (val_of_name p v Hv) in E. unfold viz_wavef. rewrite Hv. destruct p; [exact E|exact E|contradiction].
Qed.
Lemma wavef_abs2 v f : lower v = "abs2"%string -> List.concat f <> [] -> exists Z hi, viz_wavef v f = Ok (Z, (0, hi)) /\ List.length Z = List.length f /\
  forall i j w, entry f j i = Some w -> entry Z j i = Some (fst w * fst w + snd w * snd w) /\ 0 <= fst w * fst w + snd w * snd w <= hi.
Proof.
  intros Hv Hne. unfold viz_wavef. rewrite Hv. cbn [String.eqb Ascii.eqb Bool.eqb orb].
  change (String.eqb "abs2" "re") with false. change (String.eqb "abs2" "im") with false. change (String.eqb "abs2" "abs2") with true. cbn [orb].
  set (Z := map _ f). destruct (amax_ok (List.concat Z)) as (m & E & Hm). { unfold Z. rewrite <- concat_map. destruct (List.concat f); [contradiction|discriminate]. }
  rewrite E. cbn [bind]. exists Z, m. split; [reflexivity|]. split; [apply map_length|]. intros i j w Hw.
  assert (HE : entry Z j i = Some (fst w * fst w + snd w * snd w)).
  { unfold Z. rewrite entry_map, Hw. cbn [option_map]. f_equal. unfold Cmod. rewrite pow2_sqrt; [ring|]. pose proof (pow2_ge_0 (fst w)). pose proof (pow2_ge_0 (snd w)). lra. }
  split; [exact HE|]. split; [pose proof (Rle_0_sqr (fst w)); pose proof (Rle_0_sqr (snd w)); unfold Rsqr in *; lra|]. apply Hm. now apply entry_in in HE.
Qed.
Lemma wavef_bad v f : lower v <> "re"%string -> lower v <> "im"%string -> lower v <> "abs2"%string -> viz_wavef v f = Raise ValueError.
Proof.
  intros H1 H2 H3. unfold viz_wavef. destruct (String.eqb_spec (lower v) "re"); [contradiction|]. destruct (String.eqb_spec (lower v) "im"); [contradiction|].
  destruct (String.eqb_spec (lower v) "abs2"); [contradiction|reflexivity].
Qed.
