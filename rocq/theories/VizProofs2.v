(** Proofs about the cross sections and the panels. *)
From Verif Require Import Py LatticeModel LatticeSpec CBase PhcModel PhcSpec PhcProofs PhcProofs3 PhcProofs4 VizModel VizSpec.
Open Scope R_scope.

(** ** Grids and pixels *)
Lemma nth_error_map_seq {A} (f : nat -> A) n i : (i < n)%nat -> nth_error (map f (seq 0 n)) i = Some (f i).
Proof. intros H. rewrite nth_error_map, (nth_error_nth' _ 0%nat) by (now rewrite seq_length). now rewrite seq_nth. Qed.
Lemma linspace_nth lo hi n i : (i < n)%nat -> nth_error (linspace lo hi n) i = Some (lo + (hi - lo) * (INR i / INR (n - 1))).
Proof. intros H. unfold linspace. now rewrite nth_error_map_seq. Qed.
Lemma linspace_len lo hi n : List.length (linspace lo hi n) = n.
Proof. unfold linspace. now rewrite map_length, seq_length. Qed.
Lemma last_nth_error {A} (l : list A) (d : A) : l <> [] -> nth_error l (List.length l - 1) = Some (last l d).
Proof.
  induction l as [|x t IH]; [easy|]. intros _. destruct t as [|y t]; [reflexivity|].
  replace (List.length (x :: y :: t) - 1)%nat with (S (List.length (y :: t) - 1)) by (cbn; lia). cbn [nth_error]. rewrite IH by easy. reflexivity.
Qed.
Lemma linspace_ends lo hi n : (0 < n)%nat -> ends (linspace lo hi n) = Ok (lo, if (n =? 1)%nat then lo else hi).
Proof.
  intros H. destruct (linspace lo hi n) as [|x t] eqn:E.
  { pose proof (linspace_len lo hi n) as Hl. rewrite E in Hl. cbn in Hl. lia. }
  unfold ends. assert (Hx : x = lo).
  { pose proof (linspace_nth lo hi n 0 H) as H0. rewrite E in H0. cbn [nth_error] in H0. inversion H0. cbn [INR]. unfold Rdiv. ring. }
  f_equal. f_equal; [exact Hx|].
  assert (Hl : nth_error (linspace lo hi n) (n - 1) = Some (last (x :: t) x)).
  { rewrite E, <- (last_nth_error (x :: t) x) by easy. rewrite <- E, linspace_len. reflexivity. }
  rewrite linspace_nth in Hl by lia. assert (Hv : last (x :: t) x = lo + (hi - lo) * (INR (n - 1) / INR (n - 1))) by congruence. rewrite Hv. destruct (Nat.eqb_spec n 1) as [->|Hn].
  - cbn [Nat.sub INR]. unfold Rdiv. ring.
  - assert (0 < INR (n - 1)) by (apply lt_0_INR; lia). field. lra.
Qed.
Lemma linspace_pixel lo hi n i : lo <= hi -> (i < n)%nat ->
  exists u l r, nth_error (linspace lo hi n) i = Some u /\ ends (linspace lo hi n) = Ok (l, r) /\
    l + (r - l) * (INR i / INR n) <= u <= l + (r - l) * (INR (S i) / INR n).
Proof.
  intros Hle Hi. rewrite linspace_nth by exact Hi. rewrite linspace_ends by lia. do 3 eexists. split; [reflexivity|]. split; [reflexivity|].
  destruct (Nat.eqb_spec n 1) as [->|Hn].
  - assert (i = 0%nat) as -> by lia. cbn [Nat.sub INR]. unfold Rdiv. split; ring_simplify; lra.
  - assert (H1 : 0 < INR (n - 1)) by (apply lt_0_INR; lia). assert (H2 : 0 < INR n) by (apply lt_0_INR; lia).
    assert (En : INR n = INR (n - 1) + 1) by (rewrite <- S_INR; f_equal; lia).
    assert (Ei : INR i <= INR (n - 1)) by (apply le_INR; lia). pose proof (pos_INR i) as H0.
    assert (A : INR i / INR n <= INR i / INR (n - 1)).
    { apply Rmult_le_compat_l; [exact H0|]. apply Rinv_le_contravar; lra. }
    assert (B : INR i / INR (n - 1) <= INR (S i) / INR n).
    { apply (Rmult_le_reg_r (INR (n - 1) * INR n)); [nra|]. rewrite S_INR.
      replace (INR i / INR (n - 1) * (INR (n - 1) * INR n)) with (INR i * INR n) by (field; lra).
      replace ((INR i + 1) / INR n * (INR (n - 1) * INR n)) with ((INR i + 1) * INR (n - 1)) by (field; lra). nra. }
    split; apply Rplus_le_compat_l, Rmult_le_compat_l; lra.
Qed.

(** ** Meshes and rows *)
Lemma mesh_len g1 g2 : List.length (meshgrid g1 g2) = (List.length g2 * List.length g1)%nat.
Proof. unfold meshgrid. induction g2 as [|v t IH]; cbn [map List.concat List.length]; [reflexivity|]. rewrite app_length, map_length, IH. lia. Qed.
Lemma mesh_nth g1 g2 i j u v : nth_error g1 i = Some u -> nth_error g2 j = Some v ->
  nth_error (meshgrid g1 g2) (j * List.length g1 + i) = Some (u, v).
Proof.
  intros Hu. assert (Hi : (i < List.length g1)%nat) by (apply nth_error_Some; congruence).
  revert j. induction g2 as [|w t IH]; intros [|j] Hv; cbn [nth_error] in Hv; try discriminate; unfold meshgrid in *; cbn [map List.concat].
  - inversion Hv; subst w. cbn [Nat.mul plus]. rewrite nth_error_app1 by (now rewrite map_length). now rewrite nth_error_map, Hu.
  - rewrite nth_error_app2 by (rewrite map_length; lia). rewrite map_length.
    replace (S j * List.length g1 + i - List.length g1)%nat with (j * List.length g1 + i)%nat by lia. now apply IH.
Qed.
Lemma nth_error_firstn' {A} (l : list A) n i : (i < n)%nat -> nth_error (firstn n l) i = nth_error l i.
Proof. revert n i; induction l as [|x t IH]; intros [|n] [|i] H; cbn; try lia; try reflexivity. apply IH; lia. Qed.
Lemma nth_error_skipn' {A} (l : list A) n i : nth_error (skipn n l) i = nth_error l (n + i).
Proof. revert l; induction n as [|n IH]; intros [|x t]; cbn; try reflexivity; [now destruct i|apply IH]. Qed.
Lemma rows_entry {A} n m (l : list A) i j : (i < n)%nat -> (j < m)%nat -> entry (rows n m l) j i = nth_error l (j * n + i).
Proof.
  intros Hi. revert l j. induction m as [|m IH]; intros l j Hj; [lia|]. unfold entry in *. destruct j as [|j]; cbn [rows nth_error].
  - rewrite nth_error_firstn' by exact Hi. reflexivity.
  - rewrite IH by lia. rewrite nth_error_skipn'. f_equal. lia.
Qed.
Lemma rows_len {A} n m (l : list A) : List.length (rows n m l) = m.
Proof. revert l; induction m as [|m IH]; intros l; cbn; [reflexivity|now rewrite IH]. Qed.

(** ** The value at a point *)
Lemma filter_pos {A B} (f : A -> bool) (pts : list A) (res : list B) k p v : List.length res = List.length pts ->
  nth_error pts k = Some p -> nth_error res k = Some v -> f p = true ->
  exists k', nth_error (filter f pts) k' = Some p /\ nth_error (map snd (filter (fun pr => f (fst pr)) (combine pts res))) k' = Some v.
Proof.
  revert pts res; induction k as [|k IH]; intros [|a pts] [|b res] Hl Hp Hv Hf; cbn [nth_error] in *; try discriminate.
  - inversion Hp; inversion Hv; subst. exists 0%nat. cbn [filter combine fst]. rewrite Hf. cbn [nth_error map filter fst snd]. auto.
  - destruct (IH pts res) as (k' & H1 & H2); auto. cbn [filter combine fst]. destruct (f a); [exists (S k')|exists k']; cbn [nth_error map]; auto.
Qed.
Definition short (L : lattice) : R := Rmin (sqrt (Rsqr (fst (lt_a1 L)) + Rsqr (snd (lt_a1 L)))) (sqrt (Rsqr (fst (lt_a2 L)) + Rsqr (snd (lt_a2 L)))).
Lemma short_pos L : independent (lt_a1 L) (lt_a2 L) -> 0 < short L.
Proof.
  intros H. unfold short. unfold independent, det in H.
  apply Rmin_glb_lt; apply sqrt_lt_R0.
  - destruct (Req_dec (fst (lt_a1 L)) 0) as [E|E]; [|pose proof (Rsqr_pos_lt _ E); pose proof (Rle_0_sqr (snd (lt_a1 L))); lra].
    destruct (Req_dec (snd (lt_a1 L)) 0) as [E'|E']; [exfalso; apply H; rewrite E, E'; ring|]. pose proof (Rsqr_pos_lt _ E'); pose proof (Rle_0_sqr (fst (lt_a1 L))); lra.
  - destruct (Req_dec (fst (lt_a2 L)) 0) as [E|E]; [|pose proof (Rsqr_pos_lt _ E); pose proof (Rle_0_sqr (snd (lt_a2 L))); lra].
    destruct (Req_dec (snd (lt_a2 L)) 0) as [E'|E']; [exfalso; apply H; rewrite E, E'; ring|]. pose proof (Rsqr_pos_lt _ E'); pose proof (Rle_0_sqr (fst (lt_a2 L))); lra.
Qed.
Lemma nmax_reaches L pts p : independent (lt_a1 L) (lt_a2 L) -> In p pts -> sqrt (Rsqr (fst p) + Rsqr (snd p)) < IZR (nmax_of L pts) * short L.
Proof.
  intros Hi Hp. pose proof (short_pos L Hi) as Hs. unfold nmax_of. fold (short L).
  set (M := sqrt (Rsqr (maxabs (map fst pts)) + Rsqr (maxabs (map snd pts)))).
  assert (HM : sqrt (Rsqr (fst p) + Rsqr (snd p)) <= M).
  { apply sqrt_le_1_alt. apply Rplus_le_compat; apply Rsqr_le_abs_1; rewrite (Rabs_pos_eq (maxabs _)) by apply maxabs_nonneg; apply maxabs_ge, in_map, Hp. }
  rewrite plus_IZR. destruct (base_Int_part (M / short L)) as [_ H2].
  assert (M / short L < IZR (Int_part (M / short L)) + 1) by lra.
  apply (Rmult_lt_compat_r (short L)) in H; [|exact Hs]. replace (M / short L * short L) with M in H by (field; lra). lra.
Qed.
Lemma in_height_iff ly p : in_height ly p = true <-> ly_zmin ly <= snd p < ly_zmax ly.
Proof. unfold in_height. destruct (Rle_dec (ly_zmin ly) (snd p)); [destruct (Rlt_dec (snd p) (ly_zmax ly))|]; split; intros; try lra; try discriminate; reflexivity. Qed.

(** value at the k-th query point, from the region it is in *)
Lemma value_at L el eu ops pts res k p v ly : let P := run_ops (phc_init L el eu) ops in
  Forall (fun d => 0 <= d) (thicknesses ops) -> independent (lt_a1 L) (lt_a2 L) -> phc_get_eps P pts = Ok res -> nth_error pts k = Some p -> nth_error res k = Some v ->
  In ly (pc_layers P ++ [pc_clad_l P; pc_clad_u P]) -> ly_zmin ly <= snd p < ly_zmax ly ->
  (exists N, sqrt (Rsqr (fst (fst p)) + Rsqr (snd (fst p))) < IZR N * short L /\
    last_wins (fun s => covers L N s (fst p)) (ly_epsb ly) (ly_shapes ly) v) /\
  (inner (lt_a1 L) (lt_a2 L) = 0 -> (forall s, In s (ly_shapes ly) -> within_one_period L s) ->
    last_wins (fun s => covers_any L s (fst p)) (ly_epsb ly) (ly_shapes ly) v).
Proof.
  intros P Hd Hi Hg Hp Hv Hly Hz. destruct (get_eps_regions L el eu ops pts Hd) as (res' & Hg' & Hl & HR & _). fold P in Hg', HR.
  rewrite Hg in Hg'. inversion Hg'; subst res'. assert (HL : pc_lattice P = L) by (unfold P; rewrite run_lattice; reflexivity).
  apply in_height_iff in Hz. destruct (filter_pos (in_height ly) pts res k p v Hl Hp Hv Hz) as (k' & H1 & H2).
  assert (Hne : filter (in_height ly) pts <> []) by (intros E; rewrite E in H1; now destruct k').
  specialize (HR ly Hly Hne). rewrite HL in HR. apply (map_nth_error fst) in H1. split.
  - eexists. split; [|eapply layer_value; [exact HR|exact H1|exact H2]]. apply nmax_reaches; [exact Hi|]. eapply nth_error_In; exact H1.
  - intros Ho Hw. eapply orth_value; eauto.
Qed.

Lemma rows_width {A} n m (l : list A) : List.length l = (m * n)%nat -> Forall (fun r => List.length r = n) (rows n m l).
Proof.
  revert l; induction m as [|m IH]; intros l H; cbn [rows]; constructor.
  - rewrite firstn_length. lia.
  - apply IH. rewrite skipn_length. lia.
Qed.
Lemma section_shows L el eu ops pt lo1 hi1 n lo2 hi2 m : let P := run_ops (phc_init L el eu) ops in
  Forall (fun d => 0 <= d) (thicknesses ops) -> independent (lt_a1 L) (lt_a2 L) -> lo1 <= hi1 -> lo2 <= hi2 -> (0 < n)%nat -> (0 < m)%nat ->
  exists a im, section_image P pt (linspace lo1 hi1 n) (linspace lo2 hi2 m) = Ok (a, im) /\ shows_plane P pt n m a im /\
    ((2 <= n)%nat -> (2 <= m)%nat -> im_extent im = (lo1, hi1, lo2, hi2)).
Proof.
  intros P Hd Hi H1 H2 Hn Hm. set (g1 := linspace lo1 hi1 n). set (g2 := linspace lo2 hi2 m).
  destruct (get_eps_regions L el eu ops (map pt (meshgrid g1 g2)) Hd) as (res & Hg & Hl & _). fold P in Hg.
  assert (HL : pc_lattice P = L) by (unfold P; rewrite run_lattice; reflexivity).
  assert (L1 : List.length g1 = n) by apply linspace_len. assert (L2 : List.length g2 = m) by apply linspace_len.
  rewrite map_length, mesh_len, L1, L2 in Hl.
  unfold section_image. rewrite Hg. cbn [bind].
  assert (E1 := linspace_ends lo1 hi1 n Hn). assert (E2 := linspace_ends lo2 hi2 m Hm). fold g1 in E1. fold g2 in E2. rewrite E1, E2. cbn [bind].
  do 2 eexists. split; [reflexivity|]. rewrite L1, L2. split; [|intros Hn2 Hm2; cbn [im_extent]; destruct (Nat.eqb_spec n 1), (Nat.eqb_spec m 1); try lia; reflexivity].
  split; [reflexivity|]. split; [apply rows_len|]. split; [now apply rows_width|].
  intros i j Hi' Hj'. destruct (linspace_pixel lo1 hi1 n i H1 Hi') as (u & l & r & Hu & Hends & Hpu). fold g1 in Hu, Hends. rewrite E1 in Hends. inversion Hends; subst l r; clear Hends.
  destruct (linspace_pixel lo2 hi2 m j H2 Hj') as (v & b & t & Hv & Hends & Hpv). fold g2 in Hv, Hends. rewrite E2 in Hends. inversion Hends; subst b t; clear Hends.
  pose proof (mesh_nth g1 g2 i j u v Hu Hv) as Hq. rewrite L1 in Hq. apply (map_nth_error pt) in Hq.
  assert (Hk : (j * n + i < List.length res)%nat) by (rewrite Hl; nia).
  destruct (nth_error res (j * n + i)) as [e|] eqn:He; [|apply nth_error_None in He; lia].
  exists u, v, e. split; [now rewrite rows_entry by assumption|]. split; [split; assumption|].
  unfold shows_eps. rewrite HL. cbv zeta. intros ly Hly Hz. exact (value_at L el eu ops _ _ _ _ _ _ Hd Hi Hg Hq He Hly Hz).
Qed.

Lemma window L Nx Ny : exists X Y, 0 <= X /\ 0 <= Y /\ xy_grid L Nx Ny PerNone = Ok (linspace (- X) X Nx, linspace (- Y) Y Ny) /\
  forall Mx My, xy_grid L Mx My PerNone = Ok (linspace (- X) X Mx, linspace (- Y) Y My).
Proof.
  set (p := match lt_type L with LSquare | LRectangular => 1 | _ => 2 end).
  exists (Rabs (Rmax (fst (lt_a1 L)) (fst (lt_a2 L))) * p / 2), (Rabs (Rmax (snd (lt_a1 L)) (snd (lt_a2 L))) * p / 2).
  assert (Hp : 0 <= p) by (unfold p; destruct (lt_type L); lra).
  split; [|split]; try (apply Rmult_le_pos; try lra; apply Rmult_le_pos; try lra; apply Rabs_pos).
  split; [|intros Mx My]; unfold xy_grid, p; destruct (lt_type L); reflexivity.
Qed.

Lemma xy_shows L el eu ops z Nx Ny : let P := run_ops (phc_init L el eu) ops in
  Forall (fun d => 0 <= d) (thicknesses ops) -> independent (lt_a1 L) (lt_a2 L) -> (0 < Nx)%nat -> (0 < Ny)%nat ->
  exists a im, eps_xy P z Nx Ny = Ok (a, im) /\ shows_plane P (fun p => (fst p, snd p, z)) Nx Ny a im /\
    ((2 <= Nx)%nat -> (2 <= Ny)%nat -> exists X Y, xy_grid L 2 2 PerNone = Ok ([- X; X], [- Y; Y]) /\ im_extent im = (- X, X, - Y, Y)).
Proof.
  intros P Hd Hi Hx Hy. assert (HL : pc_lattice P = L) by (unfold P; rewrite run_lattice; reflexivity).
  destruct (window L Nx Ny) as (X & Y & HX & HY & HG & HM). unfold eps_xy. rewrite HL, HG. cbn [bind].
  destruct (section_shows L el eu ops (fun p => (fst p, snd p, z)) (- X) X Nx (- Y) Y Ny Hd Hi ltac:(lra) ltac:(lra) Hx Hy) as (a & im & H1 & H2 & H3). fold P in H1, H2.
  exists a, im. split; [exact H1|]. split; [exact H2|]. intros Hx2 Hy2. exists X, Y. split; [|now apply H3].
  rewrite HM. unfold linspace. cbn [seq map Nat.sub INR]. f_equal. f_equal; f_equal; try field; f_equal; field.
Qed.

Lemma zgrid_ok L el eu ops Nz : let P := run_ops (phc_init L el eu) ops in
  Forall (fun d => 0 <= d) (thicknesses ops) -> thicknesses ops <> [] ->
  z_grid P Nz 1 = Ok (linspace (-1) (total (thicknesses ops) + 1) Nz) /\ 0 <= total (thicknesses ops).
Proof.
  intros P Hd Hne. pose proof (Geo_reach L el eu ops) as G. fold P in G.
  assert (Ht : 0 <= total (thicknesses ops)) by (clear - Hd; induction Hd; cbn [total]; lra). split; [|exact Ht].
  pose proof (Geo_length _ _ G) as Hl. unfold z_grid. destruct (pc_layers P) as [|ly t] eqn:E.
  { destruct (thicknesses ops); [contradiction|discriminate]. }
  assert (H0 : nth_error (pc_layers P) 0 = Some ly) by (now rewrite E). destruct (Geo_layer _ _ _ _ G H0) as (d & _ & Hz & _). cbn [firstn total] in Hz.
  rewrite <- E. rewrite Hz. assert (HT : stack_top (pc_layers P) = total (thicknesses ops)); [|rewrite HT; f_equal; f_equal; lra].
  unfold stack_top. rewrite E. destruct (rev (ly :: t)) as [|ly' t'] eqn:Er.
  { apply (f_equal (@List.length _)) in Er. rewrite rev_length in Er. discriminate. }
  assert (Hlast : nth_error (pc_layers P) (List.length (pc_layers P) - 1) = Some ly').
  { rewrite E. apply (f_equal (@rev _)) in Er. rewrite rev_involutive in Er. rewrite Er. cbn [rev]. rewrite app_length. cbn [List.length].
    rewrite nth_error_app2 by lia. replace (_ - _)%nat with 0%nat by lia. reflexivity. }
  destruct (Geo_layer _ _ _ _ G Hlast) as (d' & Hd' & _ & Hz' & _). rewrite Hz'. rewrite firstn_all2; [reflexivity|].
  rewrite <- Hl, <- E. lia.
Qed.
Lemma xz_shows L el eu ops y Nx Nz : let P := run_ops (phc_init L el eu) ops in
  Forall (fun d => 0 <= d) (thicknesses ops) -> independent (lt_a1 L) (lt_a2 L) -> (0 < Nx)%nat -> (0 < Nz)%nat -> thicknesses ops <> [] ->
  exists a im, eps_xz P y Nx Nz = Ok (a, im) /\ shows_plane P (fun p => (fst p, y, snd p)) Nx Nz a im /\
    ((2 <= Nx)%nat -> (2 <= Nz)%nat -> exists X Y, xy_grid L 2 2 PerNone = Ok ([- X; X], [- Y; Y]) /\ im_extent im = (- X, X, -1, total (thicknesses ops) + 1)).
Proof.
  intros P Hd Hi Hx Hz Hne. assert (HL : pc_lattice P = L) by (unfold P; rewrite run_lattice; reflexivity).
  destruct (window L Nx 100) as (X & Y & HX & HY & HG & HM). destruct (zgrid_ok L el eu ops Nz Hd Hne) as [HZ Ht]. fold P in HZ.
  unfold eps_xz. rewrite HL, HG. cbn [bind]. rewrite HZ. cbn [bind].
  destruct (section_shows L el eu ops (fun p => (fst p, y, snd p)) (- X) X Nx (-1) (total (thicknesses ops) + 1) Nz Hd Hi ltac:(lra) ltac:(lra) Hx Hz) as (a & im & H1 & H2 & H3). fold P in H1, H2.
  exists a, im. split; [exact H1|]. split; [exact H2|]. intros Hx2 Hz2. exists X, Y. split; [|now apply H3].
  rewrite HM. unfold linspace. cbn [seq map Nat.sub INR]. f_equal. f_equal; f_equal; try field; f_equal; field.
Qed.
Lemma yz_shows L el eu ops x Ny Nz : let P := run_ops (phc_init L el eu) ops in
  Forall (fun d => 0 <= d) (thicknesses ops) -> independent (lt_a1 L) (lt_a2 L) -> (0 < Ny)%nat -> (0 < Nz)%nat -> thicknesses ops <> [] ->
  exists a im, eps_yz P x Ny Nz = Ok (a, im) /\ shows_plane P (fun p => (x, fst p, snd p)) Ny Nz a im /\
    ((2 <= Ny)%nat -> (2 <= Nz)%nat -> exists X Y, xy_grid L 2 2 PerNone = Ok ([- X; X], [- Y; Y]) /\ im_extent im = (- Y, Y, -1, total (thicknesses ops) + 1)).
Proof.
  intros P Hd Hi Hy Hz Hne. assert (HL : pc_lattice P = L) by (unfold P; rewrite run_lattice; reflexivity).
  destruct (window L 100 Ny) as (X & Y & HX & HY & HG & HM). destruct (zgrid_ok L el eu ops Nz Hd Hne) as [HZ Ht]. fold P in HZ.
  unfold eps_yz. rewrite HL, HG. cbn [bind]. rewrite HZ. cbn [bind].
  destruct (section_shows L el eu ops (fun p => (x, fst p, snd p)) (- Y) Y Ny (-1) (total (thicknesses ops) + 1) Nz Hd Hi ltac:(lra) ltac:(lra) Hy Hz) as (a & im & H1 & H2 & H3). fold P in H1, H2.
  exists a, im. split; [exact H1|]. split; [exact H2|]. intros Hy2 Hz2. exists X, Y. split; [|now apply H3].
  rewrite HM. unfold linspace. cbn [seq map Nat.sub INR]. f_equal. f_equal; f_equal; try field; f_equal; field.
Qed.
