(** The pictures of a hexagonal crystal show the periodic permittivity. *)
From Coq Require Import List.
From Verif Require Import Py CBase LatticeModel LatticeSpec LatticeProofs PhcModel PhcSpec PhcProofs PhcProofs2 PhcProofs3 PhcProofs4 VizModel VizSpec VizProofs2 Viz3Proofs FourSpec FourSpec2 FourProofs FourProofs4.
Open Scope R_scope.
Open Scope list_scope.

Lemma mesh_both g1 g2 p : In p (meshgrid g1 g2) -> In (fst p) g1 /\ In (snd p) g2.
Proof. unfold meshgrid. intros H. apply in_concat in H. destruct H as (r & Hr & H). apply in_map_iff in Hr. destruct Hr as (y & <- & Hy). apply in_map_iff in H. destruct H as (x & <- & Hx). split; assumption. Qed.
Lemma hex_at L el eu ops pts res k p v ly : let P := run_ops (phc_init L el eu) ops in lattice_init (LatName "hexagonal") = Ok L ->
  Forall (fun d => 0 <= d) (thicknesses ops) -> phc_get_eps P pts = Ok res -> nth_error pts k = Some p -> nth_error res k = Some v ->
  In ly (pc_layers P ++ [pc_clad_l P; pc_clad_u P]) -> ly_zmin ly <= snd p < ly_zmax ly ->
  (forall p, In p pts -> Rabs (fst (fst p)) <= 15 / 8 /\ Rabs (snd (fst p)) <= 15 / 8) ->
  (forall s, In s (ly_shapes ly) -> forall x y, sh_inside s x y = true -> Rsqr x + Rsqr y <= Rsqr (1 / 2)) ->
  last_wins (fun s => covers_any L s (fst p)) (ly_epsb ly) (ly_shapes ly) v.
Proof.
  intros P HL Hd Hg Hp Hv Hly Hz Hm Hs. destruct (get_eps_regions L el eu ops pts Hd) as (res' & Hg' & Hl & HR & _). fold P in Hg', HR.
  rewrite Hg in Hg'. inversion Hg'; subst res'. assert (EL : pc_lattice P = L) by (unfold P; rewrite run_lattice; reflexivity).
  apply in_height_iff in Hz. destruct (filter_pos (in_height ly) pts res k p v Hl Hp Hv Hz) as (k' & H1 & H2).
  assert (Hne : filter (in_height ly) pts <> []) by (intros E; rewrite E in H1; now destruct k').
  specialize (HR ly Hly Hne). rewrite EL in HR. apply (map_nth_error fst) in H1. refine (hex_value L ly _ _ k' _ _ HL _ Hs HR H1 H2).
  intros q Hq. apply in_map_iff in Hq. destruct Hq as (r & <- & Hr). apply filter_In in Hr. apply Hm, Hr.
Qed.
Lemma hex_section L el eu ops pt lo1 hi1 n lo2 hi2 m a im : let P := run_ops (phc_init L el eu) ops in lattice_init (LatName "hexagonal") = Ok L ->
  Forall (fun d => 0 <= d) (thicknesses ops) -> lo1 <= hi1 -> lo2 <= hi2 -> (0 < n)%nat -> (0 < m)%nat ->
  (forall u v, lo1 <= u <= hi1 -> lo2 <= v <= hi2 -> Rabs (fst (fst (pt (u, v)))) <= 15 / 8 /\ Rabs (snd (fst (pt (u, v)))) <= 15 / 8) ->
  section_image P pt (linspace lo1 hi1 n) (linspace lo2 hi2 m) = Ok (a, im) -> shows_repeated P (1 / 2) pt n m a im.
Proof.
  intros P HL Hd H1 H2 Hn Hm Hpt. set (g1 := linspace lo1 hi1 n). set (g2 := linspace lo2 hi2 m).
  destruct (get_eps_regions L el eu ops (map pt (meshgrid g1 g2)) Hd) as (res & Hg & Hl & _). fold P in Hg.
  assert (EL : pc_lattice P = L) by (unfold P; rewrite run_lattice; reflexivity).
  assert (L1 : List.length g1 = n) by apply linspace_len. assert (L2 : List.length g2 = m) by apply linspace_len.
  rewrite map_length, mesh_len, L1, L2 in Hl.
  unfold section_image. rewrite Hg. cbn [bind].
  assert (E1 := linspace_ends lo1 hi1 n Hn). assert (E2 := linspace_ends lo2 hi2 m Hm). fold g1 in E1. fold g2 in E2. rewrite E1, E2. cbn [bind].
  intros E. injection E as <- <-. rewrite L1, L2.
  intros i j Hi' Hj'. destruct (linspace_pixel lo1 hi1 n i H1 Hi') as (u & l & r & Hu & Hends & Hpu). fold g1 in Hu, Hends. rewrite E1 in Hends. inversion Hends; subst l r; clear Hends.
  destruct (linspace_pixel lo2 hi2 m j H2 Hj') as (v & b & t & Hv & Hends & Hpv). fold g2 in Hv, Hends. rewrite E2 in Hends. inversion Hends; subst b t; clear Hends.
  pose proof (mesh_nth g1 g2 i j u v Hu Hv) as Hq. rewrite L1 in Hq. apply (map_nth_error pt) in Hq.
  assert (Hk : (j * n + i < List.length res)%nat) by (rewrite Hl; nia).
  destruct (nth_error res (j * n + i)) as [e|] eqn:He; [|apply nth_error_None in He; lia].
  exists u, v, e. split; [now rewrite rows_entry by assumption|]. split; [split; assumption|].
  rewrite EL. intros ly Hly Hz Hs. refine (hex_at L el eu ops _ _ _ _ _ _ HL Hd Hg Hq He Hly Hz _ Hs).
  intros q Hq'. apply in_map_iff in Hq'. destruct Hq' as ((u' & v') & <- & Hin). apply mesh_both in Hin. destruct Hin as [I1 I2]. apply Hpt; eapply linspace_range; eauto.
Qed.

Lemma hex_window L Nx Ny : lattice_init (LatName "hexagonal") = Ok L ->
  xy_grid L Nx Ny PerNone = Ok (linspace (- (1 / 2)) (1 / 2) Nx, linspace (- (sqrt 3 / 2)) (sqrt 3 / 2) Ny).
Proof.
  intros HL. assert (P3 : 0 < sqrt 3) by (apply sqrt_lt_R0; lra). injection HL as <-. unfold xy_grid. cbn [lt_type lt_a1 lt_a2 fst snd bind].
  rewrite !Rmax_left by lra. rewrite !Rabs_pos_eq by lra. repeat f_equal; field.
Qed.
Lemma hex_pictures L el eu ops : let P := run_ops (phc_init L el eu) ops in lattice_init (LatName "hexagonal") = Ok L ->
  Forall (fun d => 0 <= d) (thicknesses ops) ->
  (forall z Nx Ny a im, (0 < Nx)%nat -> (0 < Ny)%nat -> eps_xy P z Nx Ny = Ok (a, im) -> shows_repeated P (1 / 2) (fun p => (fst p, snd p, z)) Nx Ny a im) /\
  (thicknesses ops <> [] ->
   (forall y Nx Nz a im, Rabs y <= 15 / 8 -> (0 < Nx)%nat -> (0 < Nz)%nat -> eps_xz P y Nx Nz = Ok (a, im) -> shows_repeated P (1 / 2) (fun p => (fst p, y, snd p)) Nx Nz a im) /\
   (forall x Ny Nz a im, Rabs x <= 15 / 8 -> (0 < Ny)%nat -> (0 < Nz)%nat -> eps_yz P x Ny Nz = Ok (a, im) -> shows_repeated P (1 / 2) (fun p => (x, fst p, snd p)) Ny Nz a im)).
Proof.
  intros P HL Hd. assert (EL : pc_lattice P = L) by (unfold P; rewrite run_lattice; reflexivity). pose proof (sqrt_sqrt 3 ltac:(lra)) as S3. assert (P3 : 0 < sqrt 3) by (apply sqrt_lt_R0; lra).
  assert (T3 : sqrt 3 <= 2) by (apply Rsqr_incr_0_var; [unfold Rsqr; lra|lra]).
  split; [|intros Hne; split].
  - intros z Nx Ny a im Hx Hy. unfold eps_xy. rewrite EL, (hex_window L _ _ HL). cbn [bind].
    apply (hex_section L el eu ops _ _ _ _ _ _ _ _ _ HL Hd); try lra; auto. intros u v Hu Hv. cbn [fst snd]. split; apply Rabs_le; lra.
  - intros y Nx Nz a im By Hx Hz. unfold eps_xz. rewrite EL, (hex_window L _ _ HL). cbn [bind]. destruct (zgrid_ok L el eu ops Nz Hd Hne) as (EZ & T0). fold P in EZ. rewrite EZ. cbn [bind].
    apply (hex_section L el eu ops _ _ _ _ _ _ _ _ _ HL Hd); try lra; auto. intros u v Hu Hv. cbn [fst snd]. split; [apply Rabs_le; lra|exact By].
  - intros x Ny Nz a im Bx Hy Hz. unfold eps_yz. rewrite EL, (hex_window L _ _ HL). cbn [bind]. destruct (zgrid_ok L el eu ops Nz Hd Hne) as (EZ & T0). fold P in EZ. rewrite EZ. cbn [bind].
    apply (hex_section L el eu ops _ _ _ _ _ _ _ _ _ HL Hd); try lra; auto. intros u v Hu Hv. cbn [fst snd]. split; [exact Bx|apply Rabs_le; lra].
Qed.
(** a point of the cell around the origin: the value does not depend on the other points of the mesh *)
Lemma home_value L a b ly pts vs j x y v : bricks L a b ->
  (forall s, In s (ly_shapes ly) -> inside_cell (a / 2) (b / 2) s) -> - (a / 2) < x < a / 2 -> - (b / 2) < y < b / 2 ->
  layer_get_eps L ly pts = Ok vs -> nth_error pts j = Some (x, y) -> nth_error vs j = Some v ->
  last_wins (fun s => sh_inside s x y = true) (ly_epsb ly) (ly_shapes ly) v /\ last_wins (fun s => covers_any L s (x, y)) (ly_epsb ly) (ly_shapes ly) v.
Proof.
  intros HB Hs Hx Hy E Ep Ev. pose proof (layer_value L ly pts vs j _ v E Ep Ev) as Hl.
  assert (N0 : (0 <= nmax_of L pts)%Z) by apply nmax_nonneg.
  assert (K : forall N s, (0 <= N)%Z -> In s (ly_shapes ly) -> (covers L N s (x, y) <-> sh_inside s x y = true)) by (intros; apply (home_cell L a b HB); auto).
  split; (eapply last_wins_ext; [|exact Hl]); intros s Hin; cbv beta.
  - rewrite (K (nmax_of L pts) s N0 Hin). tauto.
  - assert (Q : covers_any L s (x, y) <-> covers L (nmax_of L pts) s (x, y)); [|tauto]. split; [|intros H; exists (nmax_of L pts); exact H].
    intros (N & H). apply (K _ s N0 Hin). apply (K N s); auto. destruct H as (n1 & n2 & B & _). lia.
Qed.
