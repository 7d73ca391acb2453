(** Proofs about the field sections and their drawings. *)
From Coq Require Import Ascii.
From Verif Require Import Py LatticeModel LatticeSpec CBase PhcModel RecipModel SlabModel MatElModel FieldsSpec FieldsModel FieldsProofs FieldsProofs2 FieldsProofs3 FieldsProofs4 FieldsProofs5 VizModel VizSpec VizProofs2 VizProofs4 Viz2Model Viz2Spec.
Open Scope R_scope.

Lemma nodup_val {A B} (fi : list (A * B)) c a b : NoDup (map fst fi) -> In (c, a) fi -> In (c, b) fi -> a = b.
Proof.
  induction fi as [|[k v] fi IH]; intros N Ha Hb; [contradiction|]. cbn [map fst] in N. inversion N as [|? ? Hn N']; subst.
  destruct Ha as [Ea|Ha], Hb as [Eb|Hb]; [congruence| | |now apply IH].
  - injection Ea as -> ->. exfalso. apply Hn. change c with (fst (c, b)). now apply in_map.
  - injection Eb as -> ->. exfalso. apply Hn. change c with (fst (c, a)). now apply in_map.
Qed.
Lemma get_key_in (fi : list (ascii * list (list C))) c a : NoDup (map fst fi) -> In (c, a) fi -> get_key c fi = Ok a.
Proof.
  induction fi as [|[k v] fi IH]; intros N Ha; [contradiction|]. cbn [map fst] in N. inversion N as [|? ? Hn N']; subst. cbn [get_key].
  destruct Ha as [Ea|Ha]; [injection Ea as -> ->; now rewrite Ascii.eqb_refl|]. destruct (Ascii.eqb_spec c k) as [<-|]; [|now apply IH].
  exfalso. apply Hn. change c with (fst (c, a)). now apply in_map.
Qed.
Lemma letter_letters c s : letter c s <-> In c (letters s).
Proof. induction s as [|d s IH]; cbn; [tauto|]. rewrite IH. split; intros [H|H]; auto. Qed.

Section S.
Variables (P : phc) (eps : list R) (d : gkdata) (ng : nat) (einv : nat -> cmat) (ms : list (nat * gmode)) (evec : nat -> C) (omega : R).
Variable gvec : list (R * R).
Variable field : string.
Variable component : string.
Hypothesis Hfield : lower field = "h"%string \/ lower field = "d"%string \/ lower field = "e"%string.
Hypothesis Hcomp : forall c, letter c component -> c = "x"%char \/ c = "y"%char \/ c = "z"%char.
Notation F := (ft_field_xy P eps d ng einv ms evec omega).

(** the function of the position that a letter stands for *)
Lemma one_function : exists V : ascii -> R -> R -> R -> C,
  (forall z mesh, exists fi, get_field_xy (fun f => F f z) gvec mesh field component = Ok fi /\ NoDup (map fst fi) /\ (forall c, In c (map fst fi) <-> letter c component) /\
     forall c a, In (c, a) fi -> a = map (fun p => V c (fst p) (snd p) z) mesh) /\
  (forall zg line, exists fi, get_field_z F gvec line zg field component = Ok fi /\ NoDup (map fst fi) /\ (forall c, In c (map fst fi) <-> letter c component) /\
     forall c a, In (c, a) fi -> a = map (fun z => map (fun p => V c (fst p) (snd p) z) line) zg).
Proof.
  destruct (fields_some field P eps d ng einv ms evec omega Hfield) as (Fx & Fy & Fz & EF).
  exists (fun c x y z => ftinv (if Ascii.eqb c "x" then Fx z else if Ascii.eqb c "y" then Fy z else Fz z) gvec x y). split.
  - intros z mesh. destruct (comps_xy field P eps d ng einv ms evec omega z gvec mesh component Hfield) as (Gx & Gy & Gz & E & H & _). rewrite EF in E. injection E as <- <- <-.
    destruct (H Hcomp) as (fi & E & N & K & Vl). exists fi. split; [exact E|]. split; [exact N|]. split; [exact K|].
    intros c a Hin. destruct (Vl c a Hin) as (G & HG & ->). destruct HG as [[-> ->]|[[-> ->]|[-> ->]]]; reflexivity.
  - intros zg line. destruct (comps_z field P eps d ng einv ms evec omega zg gvec line component Hfield) as (Gx & Gy & Gz & E & H & _).
    destruct (H Hcomp) as (fi & E' & N & K & Vl). exists fi. split; [exact E'|]. split; [exact N|]. split; [exact K|].
    intros c a Hin. destruct (Vl c a Hin) as (G & HG & ->). apply map_ext. intros z. specialize (E z). rewrite EF in E. injection E as E1 E2 E3.
    destruct HG as [[-> ->]|[[-> ->]|[-> ->]]]; cbn [Ascii.eqb Bool.eqb]; [rewrite <- E1|rewrite <- E2|rewrite <- E3]; reflexivity.
Qed.

(** the grids *)
Lemma xy_same L Nx Ny Mx My a b a' b' : xy_grid L Nx Ny PerNone = Ok (a, b) -> xy_grid L Mx My PerNone = Ok (a', b') -> (Nx = Mx -> a = a') /\ (Ny = My -> b = b').
Proof.
  destruct (window L Nx Ny) as (X & Y & _ & _ & HG & HM). rewrite HM. intros E1. injection E1 as <- <-. rewrite HM. intros E2. injection E2 as <- <-. split; intros ->; reflexivity.
Qed.
Lemma grids_exist xo yo zo Nx Ny Nz dst : (zo <> None \/ pc_layers P <> []) -> exists xg yg zg,
  (match xo, yo with Some x, Some y => Ok (x, y) | _, _ => let* (xgr, ygr) := xy_grid (pc_lattice P) Nx Ny PerNone in Ok (grid_or xo xgr, grid_or yo ygr) end) = Ok (xg, yg) /\
  (match xo with Some x => Ok x | None => let* r := xy_grid (pc_lattice P) Nx 2 PerNone in Ok (fst r) end) = Ok xg /\
  (match yo with Some y => Ok y | None => let* r := xy_grid (pc_lattice P) 2 Ny PerNone in Ok (snd r) end) = Ok yg /\
  zgrid_or P zo Nz dst = Ok zg.
Proof.
  intros Hz. destruct (window (pc_lattice P) Nx Ny) as (X & Y & _ & _ & _ & HM). rewrite !HM. cbn [bind fst snd].
  assert (Z : exists zg, zgrid_or P zo Nz dst = Ok zg).
  { unfold zgrid_or, z_grid. destruct zo as [g|]; [eauto|]. destruct (pc_layers P) as [|ly ls]; [destruct Hz; contradiction|eauto]. }
  destruct Z as (zg & Ez). exists (grid_or xo (linspace (- X) X Nx)), (grid_or yo (linspace (- Y) Y Ny)), zg.
  split; [destruct xo, yo; reflexivity|]. split; [destruct xo; reflexivity|]. split; [destruct yo; reflexivity|exact Ez].
Qed.

Lemma sections_agree xo yo zo Nx Ny Nz dst : (zo <> None \/ pc_layers P <> []) -> exists xg yg zg,
  (forall z, exists f, field_xy_on P F gvec z xo yo Nx Ny field component = Ok (f, xg, yg)) /\
  (forall y, exists f, field_xz_on P F gvec y xo zo Nx Nz dst field component = Ok (f, xg, zg)) /\
  (forall x, exists f, field_yz_on P F gvec x yo zo Ny Nz dst field component = Ok (f, yg, zg)) /\
  (forall i j l x y z f1 f2 f3 c, nth_error xg i = Some x -> nth_error yg j = Some y -> nth_error zg l = Some z -> letter c component ->
     field_xy_on P F gvec z xo yo Nx Ny field component = Ok (f1, xg, yg) ->
     field_xz_on P F gvec y xo zo Nx Nz dst field component = Ok (f2, xg, zg) ->
     field_yz_on P F gvec x yo zo Ny Nz dst field component = Ok (f3, yg, zg) ->
     exists a1 a2 a3 v, In (c, a1) f1 /\ In (c, a2) f2 /\ In (c, a3) f3 /\
       nth_error a1 (j * List.length xg + i) = Some v /\ entry a2 l i = Some v /\ entry a3 l j = Some v).
Proof.
  intros Hz. destruct (grids_exist xo yo zo Nx Ny Nz dst Hz) as (xg & yg & zg & E1 & E2 & E3 & E4). exists xg, yg, zg.
  destruct one_function as (V & HV1 & HV2).
  unfold field_xy_on, field_xz_on, field_yz_on. rewrite E1, E2, E3, E4. cbn [bind].
  split; [intros z; destruct (HV1 z (meshgrid xg yg)) as (fi & E & _); exists fi; now rewrite E|].
  split; [intros y; destruct (HV2 zg (map (fun x => (x, y)) xg)) as (fi & E & _); exists fi; now rewrite E|].
  split; [intros x; destruct (HV2 zg (map (fun y => (x, y)) yg)) as (fi & E & _); exists fi; now rewrite E|].
  intros i j l x y z f1 f2 f3 c Hx Hy Hl Hc.
  destruct (HV1 z (meshgrid xg yg)) as (g1 & G1 & _ & K1 & W1). destruct (HV2 zg (map (fun x => (x, y)) xg)) as (g2 & G2 & _ & K2 & W2). destruct (HV2 zg (map (fun y => (x, y)) yg)) as (g3 & G3 & _ & K3 & W3).
  rewrite G1, G2, G3. cbn [bind]. intros Q1 Q2 Q3. injection Q1 as <-. injection Q2 as <-. injection Q3 as <-.
  assert (I1 : exists a, In (c, a) g1) by (apply K1 in Hc; apply in_map_iff in Hc; destruct Hc as ((c' & a) & <- & H); eauto).
  assert (I2 : exists a, In (c, a) g2) by (apply K2 in Hc; apply in_map_iff in Hc; destruct Hc as ((c' & a) & <- & H); eauto).
  assert (I3 : exists a, In (c, a) g3) by (apply K3 in Hc; apply in_map_iff in Hc; destruct Hc as ((c' & a) & <- & H); eauto).
  destruct I1 as (a1 & I1), I2 as (a2 & I2), I3 as (a3 & I3). exists a1, a2, a3, (V c x y z). split; [exact I1|]. split; [exact I2|]. split; [exact I3|].
  rewrite (W1 _ _ I1), (W2 _ _ I2), (W3 _ _ I3). split; [|split].
  - rewrite nth_error_map, (mesh_nth xg yg i j x y Hx Hy). reflexivity.
  - unfold entry. rewrite nth_error_map, Hl. cbn [option_map]. rewrite map_map, nth_error_map, Hx. reflexivity.
  - unfold entry. rewrite nth_error_map, Hl. cbn [option_map]. rewrite map_map, nth_error_map, Hy. reflexivity.
Qed.

(** the dictionary of a vertical section is what viz.field needs *)
Lemma section_ready line zg fi : NoDup (letters component) -> get_field_z F gvec line zg field component = Ok fi -> forall g1, List.length g1 = List.length line -> comps_ready g1 zg component fi.
Proof.
  intros N E g1 Hg. destruct one_function as (V & _ & HV2). destruct (HV2 zg line) as (fi' & E' & N' & K & W). rewrite E in E'. injection E' as <-.
  split; [exact N|]. intros c Hc. apply letter_letters, K in Hc. apply in_map_iff in Hc. destruct Hc as ((c' & a) & <- & Ha). cbn [fst]. exists a. split; [now apply get_key_in|].
  rewrite (W _ _ Ha). split; [now rewrite map_length|]. apply Forall_forall. intros r Hr. apply in_map_iff in Hr. destruct Hr as (z & <- & _). now rewrite map_length.
Qed.

Lemma z_len Nz dst zg : zgrid_or P None Nz dst = Ok zg -> List.length zg = Nz.
Proof. unfold zgrid_or, z_grid. destruct (pc_layers P); [discriminate|]. intros E. injection E as <-. apply linspace_len. Qed.
Lemma len_ne {A} (l : list A) n : List.length l = n -> (0 < n)%nat -> l <> [].
Proof. intros H Hn ->. cbn in H. lia. Qed.
Lemma section_xz y Nx Nz dst kx ky periodic v p : pc_layers P <> [] -> (0 < Nx)%nat -> (0 < Nz)%nat -> lower v = val_name p -> lower component = component -> NoDup (letters component) ->
  exists fi xg zg ds, field_xz_on P F gvec y None None Nx Nz dst field component = Ok (fi, xg, zg) /\ viz_field false None (Some y) None kx ky periodic v component xg zg fi = Ok ds /\
    List.length ds = List.length (letters component) /\
    forall m c f, nth_error (letters component) m = Some c -> In (c, f) fi ->
      exists pic, nth_error ds m = Some pic /\ shows_wave p (if periodic then 0 else kx) (if periodic then 0 else ky) (fun u _ => (u, y)) xg zg f pic.
Proof.
  intros HL Hx Hz Hv Hlow HN. destruct (grids_exist None None None Nx 2 Nz dst (or_intror HL)) as (xg & yg & zg & E1 & E2 & E3 & E4).
  destruct one_function as (V & _ & HV2). destruct (HV2 zg (map (fun x => (x, y)) xg)) as (fi & E & N & _).
  assert (R : comps_ready xg zg (lower component) fi) by (rewrite Hlow; apply (section_ready _ _ _ HN E); now rewrite map_length).
  assert (Lx : xg <> []).
  { destruct (window (pc_lattice P) Nx 2) as (X & Y & _ & _ & _ & HM). rewrite HM in E2. cbn [bind fst] in E2. injection E2 as <-. apply (len_ne _ Nx); [apply linspace_len|exact Hx]. }
  assert (Lz : zg <> []) by (apply (len_ne _ Nz); [exact (z_len _ _ _ E4)|exact Hz]).
  destruct (field_xz kx ky y periodic v p component xg zg fi Hv Lx Lz R) as (ds & D1 & D2 & D3). rewrite Hlow in D2, D3. exists fi, xg, zg, ds. unfold field_xz_on. rewrite E2, E4. cbn [bind]. rewrite E. cbn [bind].
  split; [reflexivity|]. split; [exact D1|]. split; [exact D2|]. intros m c f Hm Hf. apply (D3 m c f Hm). now apply get_key_in.
Qed.
Lemma section_yz x Ny Nz dst kx ky periodic v p : pc_layers P <> [] -> (0 < Ny)%nat -> (0 < Nz)%nat -> lower v = val_name p -> lower component = component -> NoDup (letters component) ->
  exists fi yg zg ds, field_yz_on P F gvec x None None Ny Nz dst field component = Ok (fi, yg, zg) /\ viz_field false (Some x) None None kx ky periodic v component yg zg fi = Ok ds /\
    List.length ds = List.length (letters component) /\
    forall m c f, nth_error (letters component) m = Some c -> In (c, f) fi ->
      exists pic, nth_error ds m = Some pic /\ shows_wave p (if periodic then 0 else kx) (if periodic then 0 else ky) (fun u _ => (x, u)) yg zg f pic.
Proof.
  intros HL Hx Hz Hv Hlow HN. destruct (grids_exist None None None 2 Ny Nz dst (or_intror HL)) as (xg & yg & zg & E1 & E2 & E3 & E4).
  destruct one_function as (V & _ & HV2). destruct (HV2 zg (map (fun y => (x, y)) yg)) as (fi & E & N & _).
  assert (R : comps_ready yg zg (lower component) fi) by (rewrite Hlow; apply (section_ready _ _ _ HN E); now rewrite map_length).
  assert (Ly : yg <> []).
  { destruct (window (pc_lattice P) 2 Ny) as (X & Y & _ & _ & _ & HM). rewrite HM in E3. cbn [bind snd] in E3. injection E3 as <-. apply (len_ne _ Ny); [apply linspace_len|exact Hx]. }
  assert (Lz : zg <> []) by (apply (len_ne _ Nz); [exact (z_len _ _ _ E4)|exact Hz]).
  destruct (field_yz kx ky x periodic v p component yg zg fi Hv Ly Lz R) as (ds & D1 & D2 & D3). rewrite Hlow in D2, D3. exists fi, yg, zg, ds. unfold field_yz_on. rewrite E3, E4. cbn [bind]. rewrite E. cbn [bind].
  split; [reflexivity|]. split; [exact D1|]. split; [exact D2|]. intros m c f Hm Hf. apply (D3 m c f Hm). now apply get_key_in.
Qed.
End S.
