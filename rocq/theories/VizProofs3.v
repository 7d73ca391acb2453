(** Proofs about the panels of structure and eps_ft. *)
From Verif Require Import Py LatticeModel LatticeSpec CBase PhcModel PhcSpec PhcProofs PhcProofs3 VizModel VizSpec VizProofs2.
Open Scope R_scope.

Section Panels.
Context {A B : Type} (draw : B -> result A) (c : bool) (n : nat).
Definition tl (i : nat) : option title := if c then (if (0 <? i)%nat && (i <? n - 1)%nat then Some (TLayer i) else None) else Some (TLayer i).
Fixpoint mk (k : nat) (ims : list A) : list (option title * A) := match ims with [] => [] | im :: t => (tl k, im) :: mk (S k) t end.
Lemma mk_app k a b : mk k (a ++ b) = mk k a ++ mk (k + List.length a) b.
Proof.
  revert k; induction a as [|x a IH]; intros k; cbn [mk app List.length]; [now rewrite Nat.add_0_r|].
  rewrite IH. now replace (S k + List.length a)%nat with (k + S (List.length a))%nat by lia.
Qed.
Lemma mk_len k a : List.length (mk k a) = List.length a.
Proof. revert k; induction a as [|x a IH]; intros k; cbn; [reflexivity|now rewrite IH]. Qed.
Lemma mk_nth k a i im : nth_error a i = Some im -> nth_error (mk k a) i = Some (tl (k + i), im).
Proof.
  revert k i; induction a as [|x a IH]; intros k [|i] H; cbn [nth_error mk] in *; try discriminate.
  - inversion H. now rewrite Nat.add_0_r.
  - rewrite (IH (S k) i H). do 3 f_equal. lia.
Qed.
Lemma set_nth_end {D} (l : list D) (x y : D) : PhcModel.set_nth (List.length l) y (l ++ [x]) = l ++ [y].
Proof. induction l as [|a l IH]; cbn; [reflexivity|now rewrite IH]. Qed.
Lemma set_title_end (ts : list (option title * A)) o im t : set_title (ts ++ [(o, im)]) (List.length ts) t = ts ++ [(Some t, im)].
Proof. unfold set_title. rewrite nth_error_app2, Nat.sub_diag by lia. cbn [nth_error]. apply set_nth_end. Qed.
Lemma put_mk (ts : list A) im : (c = false \/ List.length ts < n - 1)%nat -> put_title c n (List.length ts) (mk 0 ts ++ [(None, im)]) = mk 0 (ts ++ [im]).
Proof.
  intros H. rewrite mk_app. cbn [mk plus]. unfold put_title, tl.
  assert (E : forall t, set_title (mk 0 ts ++ [(None, im)]) (List.length ts) t = mk 0 ts ++ [(Some t, im)]).
  { intros t. rewrite <- (mk_len 0 ts) at 1. apply set_title_end. }
  destruct c; [|apply E]. destruct H as [H|H]; [discriminate|]. destruct ((0 <? List.length ts)%nat && (List.length ts <? n - 1)%nat) eqn:E1; [apply E|].
  destruct (Nat.eqb_spec (List.length ts) (n - 1)); [lia|reflexivity].
Qed.
Lemma panels_mk ls ims ts : mapM draw ls = Ok ims -> (c = false \/ List.length ts + List.length ls <= n - 1)%nat ->
  panels draw c n (List.length ts) ls (mk 0 ts) = Ok (mk 0 (ts ++ ims)).
Proof.
  revert ims ts; induction ls as [|y ls IH]; intros ims ts E H; cbn [mapM panels] in *.
  - inversion E. now rewrite app_nil_r.
  - destruct (draw y) as [im|]; cbn [bind] in *; [|discriminate]. destruct (mapM draw ls) as [ims'|] eqn:E'; cbn [bind] in E; [|discriminate]. inversion E; subst ims.
    cbn [List.length] in H. rewrite put_mk by (destruct H; [now left|right; lia]).
    replace (S (List.length ts)) with (List.length (ts ++ [im])) by (rewrite app_length; cbn; lia).
    rewrite (IH ims' (ts ++ [im]) eq_refl) by (rewrite app_length; cbn [List.length]; destruct H; [now left|right; lia]). now rewrite <- app_assoc.
Qed.
Lemma panels_app a b k ts : panels draw c n k (a ++ b) ts = let* r := panels draw c n k a ts in panels draw c n (k + List.length a) b r.
Proof.
  revert k ts; induction a as [|x a IH]; intros k ts; cbn [panels app List.length bind]; [now rewrite Nat.add_0_r|].
  destruct (draw x) as [im|]; cbn [bind]; [|reflexivity]. rewrite IH. now replace (S k + List.length a)%nat with (k + S (List.length a))%nat by lia.
Qed.
End Panels.

Lemma panels_plain {A B} (draw : B -> result A) ls ims n : mapM draw ls = Ok ims ->
  exists ps, panels draw false n 0 ls [] = Ok ps /\ List.length ps = List.length ls /\
    forall i im, nth_error ims i = Some im -> nth_error ps i = Some (Some (TLayer i), im).
Proof.
  intros E. pose proof (panels_mk draw false n ls ims [] E (or_introl eq_refl)) as H. cbn [mk List.length app] in H. eexists. split; [exact H|].
  rewrite mk_len. split; [now apply mapM_ok_length in E|]. intros i im Hi. rewrite (mk_nth false n 0 ims i im Hi). reflexivity.
Qed.
Lemma panels_clad {A B} (draw : B -> result A) lo ls up il ims iu : draw lo = Ok il -> mapM draw ls = Ok ims -> draw up = Ok iu ->
  exists ps, panels draw true (List.length (lo :: ls ++ [up])) 0 (lo :: ls ++ [up]) [] = Ok ps /\ List.length ps = S (S (List.length ls)) /\
    nth_error ps 0 = Some (Some TLower, il) /\ nth_error ps (S (List.length ls)) = Some (Some TUpper, iu) /\
    forall i im, nth_error ims i = Some im -> nth_error ps (S i) = Some (Some (TLayer (S i)), im).
Proof.
  intros El E Eu. set (n := List.length (lo :: ls ++ [up])). assert (Hn : n = S (S (List.length ls))) by (unfold n; cbn [List.length]; rewrite app_length; cbn; lia). clearbody n.
  pose proof (mapM_ok_length _ _ _ E) as Hlen.
  assert (E1 : mapM draw (lo :: ls) = Ok (il :: ims)) by (cbn [mapM]; rewrite El; cbn [bind]; rewrite E; reflexivity).
  pose proof (panels_mk draw true n (lo :: ls) (il :: ims) [] E1) as H. cbn [List.length app plus] in H. assert (Hc : (S (List.length ls) <= n - 1)%nat) by lia. specialize (H (or_intror Hc)).
  change (lo :: ls ++ [up]) with ((lo :: ls) ++ [up]). rewrite panels_app. cbn [mk] in H. rewrite H. cbn [bind panels plus List.length]. rewrite Eu. cbn [bind].
  eexists. split; [reflexivity|]. unfold put_title. replace ((0 <? S (List.length ls))%nat && (S (List.length ls) <? n - 1)%nat) with false by (symmetry; apply andb_false_iff; right; apply Nat.ltb_ge; lia).
  replace (S (List.length ls) =? n - 1)%nat with true by (symmetry; apply Nat.eqb_eq; lia).
  set (M := mk true n 1 ims). assert (HM : List.length M = List.length ls) by (unfold M; rewrite mk_len; exact Hlen).
  assert (S0 : set_title (((tl true n 0, il) :: M) ++ [(None, iu)]) 0 TLower = (Some TLower, il) :: M ++ [(None, iu)]) by reflexivity.
  rewrite S0.
  assert (S1 : forall k, k = S (List.length M) -> set_title ((Some TLower, il) :: M ++ [(None, iu)]) k TUpper = (Some TLower, il) :: M ++ [(Some TUpper, iu)]).
  { intros k ->. change ((Some TLower, il) :: M ++ [(None, iu)]) with (((Some TLower, il) :: M) ++ [(None, iu)]). change (S (List.length M)) with (List.length ((Some TLower, il) :: M)). rewrite set_title_end. reflexivity. }
  rewrite S1 by (cbn [List.length app]; rewrite app_length; cbn [List.length]; lia).
  split; [cbn [List.length]; rewrite app_length; cbn [List.length]; lia|]. split; [reflexivity|]. split.
  - cbn [nth_error]. rewrite nth_error_app2 by lia. rewrite HM, Nat.sub_diag. reflexivity.
  - intros i im Hi. cbn [nth_error]. assert (Hi' : (i < List.length ims)%nat) by (apply nth_error_Some; congruence).
    rewrite nth_error_app1 by lia. unfold M. rewrite (mk_nth true n 1 ims i im Hi). unfold tl. cbn [plus].
    replace ((0 <? S i)%nat && (S i <? n - 1)%nat) with true; [reflexivity|]. symmetry. apply andb_true_iff. split; apply Nat.ltb_lt; lia.
Qed.

(** ** structure *)
Definition mid (ly : layer) : R := (ly_zmax ly + ly_zmin ly) / 2.
Lemma draw_ok L el eu ops Nx Ny z : let P := run_ops (phc_init L el eu) ops in
  Forall (fun d => 0 <= d) (thicknesses ops) -> independent (lt_a1 L) (lt_a2 L) -> (0 < Nx)%nat -> (0 < Ny)%nat ->
  exists a im, (let* r := eps_xy P z Nx Ny in Ok (snd r)) = Ok im /\ shows_plane P (fun p => (fst p, snd p, z)) Nx Ny a im.
Proof.
  intros P Hd Hi Hx Hy. destruct (xy_shows L el eu ops z Nx Ny Hd Hi Hx Hy) as (a & im & E & Hs & _). fold P in E, Hs. rewrite E. cbn [bind snd]. eauto.
Qed.
Lemma pos_nonneg ds : Forall (fun d => 0 < d) ds -> Forall (fun d => 0 <= d) ds.
Proof. apply Forall_impl. intros; lra. Qed.
Lemma total_firstn ds i : Forall (fun d => 0 < d) ds -> forall d, nth_error ds i = Some d -> total (firstn (S i) ds) = total (firstn i ds) + d /\ 0 < d.
Proof.
  intros H. revert i. induction H as [|x ds Hx H IH]; intros [|i] d Hd; cbn [nth_error] in Hd; try discriminate.
  - inversion Hd; subst. cbn [firstn total]. split; lra.
  - destruct (IH i d Hd) as [E Hp]. change (firstn (S (S i)) (x :: ds)) with (x :: firstn (S i) ds). cbn [total]. rewrite E. cbn [firstn total]. split; lra.
Qed.
Lemma mid_inside L el eu ops ly : let P := run_ops (phc_init L el eu) ops in Forall (fun d => 0 < d) (thicknesses ops) -> total (thicknesses ops) < 10 ^ 10 ->
  In ly (pc_clad_l P :: pc_layers P ++ [pc_clad_u P]) -> ly_zmin ly <= mid ly < ly_zmax ly.
Proof.
  intros P Hd Ht Hin. pose proof (Geo_reach L el eu ops) as G. fold P in G. unfold mid.
  assert (T10 : 0 < 10 ^ 10) by (apply pow_lt; lra).
  assert (ly_zmin ly < ly_zmax ly) as H; [|lra]. cbn [In] in Hin. rewrite in_app_iff in Hin. destruct Hin as [<-|[Hin|[<-|[]]]].
  - destruct G as (_ & G & _). unfold zinfo in G. inversion G as [[E1 E2 E3]]. lra.
  - apply In_nth_error in Hin. destruct Hin as [i Hi]. destruct (Geo_layer _ _ _ _ G Hi) as (d & Hdn & E1 & E2 & _).
    destruct (total_firstn _ _ Hd d Hdn) as [E Hp]. lra.
  - destruct G as (_ & _ & E1 & E2). lra.
Qed.

Lemma structure_plain L el eu ops Nx Ny : let P := run_ops (phc_init L el eu) ops in
  Forall (fun d => 0 < d) (thicknesses ops) -> total (thicknesses ops) < 10 ^ 10 -> thicknesses ops <> [] -> independent (lt_a1 L) (lt_a2 L) -> (0 < Nx)%nat -> (0 < Ny)%nat ->
  exists ps, structure_xy P Nx Ny false = Ok ps /\ List.length ps = List.length (pc_layers P) /\
    forall i ly, nth_error (pc_layers P) i = Some ly -> exists im, nth_error ps i = Some (Some (TLayer i), im) /\ pictures P Nx Ny ly im.
Proof.
  intros P Hd Ht Hne Hi Hx Hy. pose proof (pos_nonneg _ Hd) as Hd'. unfold structure_xy, shown_layers.
  destruct (zgrid_ok L el eu ops 2 Hd' Hne) as [HZ _]. fold P in HZ. rewrite HZ. cbn [bind].
  pose proof (Geo_length _ _ (Geo_reach L el eu ops)) as Hlen. fold P in Hlen.
  set (draw := fun ly => _ : result image).
  destruct (mapM_all_ok draw (pc_layers P)) as [ims E].
  { intros ly _. destruct (draw_ok L el eu ops Nx Ny (mid ly) Hd' Hi Hx Hy) as (a & im & Ed & _). eauto. }
  destruct (panels_plain draw (pc_layers P) ims (List.length (pc_layers P)) E) as (ps & Hp & Hl & Hn). exists ps.
  split; [destruct (pc_layers P); [destruct (thicknesses ops); [contradiction|discriminate]|exact Hp]|]. split; [exact Hl|].
  intros i ly Hly. destruct (mapM_ok_nth _ _ _ E _ _ Hly) as (im & Him & Hn'). exists im. split; [now apply Hn|].
  destruct (draw_ok L el eu ops Nx Ny (mid ly) Hd' Hi Hx Hy) as (a & im' & Ed & Hs). fold P in Ed, Hs. change (draw ly = Ok im') in Ed. rewrite Ed in Him. inversion Him; subst im'.
  exists (mid ly), a. split; [|exact Hs]. apply (mid_inside L el eu ops ly Hd Ht). right. apply in_app_iff. left. eapply nth_error_In; exact Hly.
Qed.
Lemma structure_clad L el eu ops Nx Ny : let P := run_ops (phc_init L el eu) ops in
  Forall (fun d => 0 < d) (thicknesses ops) -> total (thicknesses ops) < 10 ^ 10 -> thicknesses ops <> [] -> independent (lt_a1 L) (lt_a2 L) -> (0 < Nx)%nat -> (0 < Ny)%nat ->
  exists ps, structure_xy P Nx Ny true = Ok ps /\ List.length ps = S (S (List.length (pc_layers P))) /\
    (exists im, nth_error ps 0 = Some (Some TLower, im) /\ pictures P Nx Ny (pc_clad_l P) im) /\
    (exists im, nth_error ps (S (List.length (pc_layers P))) = Some (Some TUpper, im) /\ pictures P Nx Ny (pc_clad_u P) im) /\
    forall i ly, nth_error (pc_layers P) i = Some ly -> exists im, nth_error ps (S i) = Some (Some (TLayer (S i)), im) /\ pictures P Nx Ny ly im.
Proof.
  intros P Hd Ht Hne Hi Hx Hy. pose proof (pos_nonneg _ Hd) as Hd'. unfold structure_xy, shown_layers.
  destruct (zgrid_ok L el eu ops 2 Hd' Hne) as [HZ _]. fold P in HZ. rewrite HZ. cbn [bind].
  set (draw := fun ly => _ : result image).
  assert (D : forall ly, In ly (pc_clad_l P :: pc_layers P ++ [pc_clad_u P]) -> exists im, draw ly = Ok im /\ pictures P Nx Ny ly im).
  { intros ly Hin. destruct (draw_ok L el eu ops Nx Ny (mid ly) Hd' Hi Hx Hy) as (a & im & Ed & Hs). exists im. split; [exact Ed|].
    exists (mid ly), a. split; [|exact Hs]. now apply (mid_inside L el eu ops ly Hd Ht). }
  destruct (D (pc_clad_l P)) as (il & Dl & Pl); [now left|]. destruct (D (pc_clad_u P)) as (iu & Du & Pu); [right; apply in_app_iff; right; now left|].
  destruct (mapM_all_ok draw (pc_layers P)) as [ims E].
  { intros ly Hin. destruct (D ly) as (im & Ed & _); [right; apply in_app_iff; now left|eauto]. }
  destruct (panels_clad draw (pc_clad_l P) (pc_layers P) (pc_clad_u P) il ims iu Dl E Du) as (ps & Hp & Hl & H0 & Hu & Hn). exists ps.
  split; [exact Hp|]. split; [exact Hl|]. split; [eauto|]. split; [eauto|].
  intros i ly Hly. destruct (mapM_ok_nth _ _ _ E _ _ Hly) as (im & Him & Hn'). exists im. split; [now apply Hn|].
  destruct (D ly) as (im' & Ed & Hs); [right; apply in_app_iff; left; eapply nth_error_In; exact Hly|]. rewrite Ed in Him. inversion Him; subst. exact Hs.
Qed.

(** A layer without shapes is shown in its background permittivity. *)
Lemma plain_picture P Nx Ny ly im : In ly (pc_layers P ++ [pc_clad_l P; pc_clad_u P]) -> ly_shapes ly = [] -> (0 < Nx)%nat -> (0 < Ny)%nat ->
  pictures P Nx Ny ly im -> entry (im_rows im) 0 0 = Some (ly_epsb ly).
Proof.
  intros Hin Hs Hx Hy (z & a & Hz & Ha & _ & _ & H). destruct (H 0%nat 0%nat Hx Hy) as (u & v & e & He & _ & Hv). rewrite Ha, He. f_equal.
  destruct (Hv ly Hin Hz) as [(N & _ & [(pre & s & post & E & _)|[E _]]) _]; [|exact E].
  rewrite Hs in E. destruct pre; discriminate.
Qed.
Lemma title_shift : exists L, lattice_init (LatName "square") = Ok L /\
  let P := run_ops (phc_init L 1 1) [OpLayer 1 4 "shapes"; OpLayer 1 9 "shapes"] in
  forall Nx Ny, (0 < Nx)%nat -> (0 < Ny)%nat -> exists ps im ly0 ly1, structure_xy P Nx Ny true = Ok ps /\
    nth_error (pc_layers P) 0 = Some ly0 /\ nth_error (pc_layers P) 1 = Some ly1 /\
    In (Some (TLayer 1), im) ps /\ pictures P Nx Ny ly0 im /\ ~ pictures P Nx Ny ly1 im.
Proof.
  eexists. split; [reflexivity|]. set (L := mkLattice _ _ _ _ _ _ _). set (ops := [_; _]). intros P Nx Ny Hx Hy.
  assert (Ht : thicknesses ops = [1; 1]) by reflexivity.
  assert (T10 : 2 < 10 ^ 10) by (apply Rlt_le_trans with (10 ^ 1); [lra|apply Rle_pow; [lra|lia]]).
  destruct (structure_clad L 1 1 ops Nx Ny) as (ps & E & _ & _ & _ & H); rewrite ?Ht; auto.
  { repeat constructor; lra. } { cbn [total]. lra. } { discriminate. }
  { unfold independent, det. cbn. lra. }
  fold P in E, H. destruct (H 0%nat (shapes_layer 0 (0 + 1) 4) eq_refl) as (im & Him & Hp).
  exists ps, im, (shapes_layer 0 (0 + 1) 4), (shapes_layer (0 + 1) (0 + 1 + 1) 9). split; [exact E|]. split; [reflexivity|]. split; [reflexivity|].
  split; [eapply nth_error_In; exact Him|]. split; [exact Hp|]. intros Hq.
  apply plain_picture in Hp; [|now left|reflexivity|exact Hx|exact Hy]. apply plain_picture in Hq; [|right; now left|reflexivity|exact Hx|exact Hy].
  rewrite Hp in Hq. cbn [ly_epsb shapes_layer] in Hq. inversion Hq. lra.
Qed.

(** ** eps_ft *)
Lemma eps_ft_given {A} (is_pwe : bool) (get : R -> result A) layers clads m cladding : layers <> [] -> eps_ft is_pwe get layers clads m cladding true true = Raise NameError.
Proof. intros H. unfold eps_ft. destruct is_pwe, cladding; try reflexivity. destruct layers; [contradiction|reflexivity]. Qed.
Lemma eps_ft_half {A} (is_pwe : bool) (get : R -> result A) layers clads m cladding b : layers <> [] -> eps_ft is_pwe get layers clads m cladding b (negb b) = Raise ValueError.
Proof. intros H. unfold eps_ft. destruct b, is_pwe, cladding; try reflexivity; (destruct layers; [contradiction|reflexivity]). Qed.
Lemma eps_ft_pwe {A} (get : R -> result A) layers clads m cladding im : get m = Ok im ->
  eps_ft true get layers clads m cladding false false = Ok [(Some (if cladding then TUpper else TLayer 0), im)].
Proof. intros H. unfold eps_ft. cbn [andb orb panels List.length]. rewrite H. cbn [bind app]. destruct cladding; reflexivity. Qed.
Lemma eps_ft_gme {A} (get : R -> result A) layers ims clads m : layers <> [] -> mapM get layers = Ok ims ->
  exists ps, eps_ft false get layers clads m false false false = Ok ps /\ List.length ps = List.length layers /\
    forall i im, nth_error ims i = Some im -> nth_error ps i = Some (Some (TLayer i), im).
Proof.
  intros Hne E. destruct (panels_plain get layers ims (List.length layers) E) as (ps & Hp & H). exists ps. split; [|exact H].
  unfold eps_ft. cbn [andb orb]. destruct layers; [contradiction|exact Hp].
Qed.
Lemma eps_ft_gme_clad {A} (get : R -> result A) layers ims lo up il iu m : mapM get layers = Ok ims -> get lo = Ok il -> get up = Ok iu ->
  exists ps, eps_ft false get layers (lo, up) m true false false = Ok ps /\ List.length ps = S (S (List.length layers)) /\
    nth_error ps 0 = Some (Some TLower, il) /\ nth_error ps (S (List.length layers)) = Some (Some TUpper, iu) /\
    forall i im, nth_error ims i = Some im -> nth_error ps (S i) = Some (Some (TLayer (S i)), im).
Proof. intros E El Eu. exact (panels_clad get lo layers up il ims iu El E Eu). Qed.
