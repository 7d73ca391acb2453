(** The potential of the exciton equation as an integral. *)
From Coq Require Import List.
From Verif Require Import Py CBase CInt LatticeModel LatticeSpec LatticeProofs PhcModel PhcSpec PhcProofs PhcProofs2 PhcProofs3 PhcProofs4 PhcProps ShapesSpec ShapesModel ShapesProofs3.
From Verif Require Import ImgProofs3 FourSpec FourProofs FourProofs2.
Open Scope R_scope.
Open Scope list_scope.

Definition relabel (e : R) (s : shape) : shape := mkShape e (sh_area s) (sh_inside s) (sh_ft s).
Definition covered (ss : list shape) (x y : R) : bool := existsb (fun s => sh_inside s x y) ss.
Lemma relabel_wins e eb ss x y : last_wins (fun s => sh_inside s x y = true) eb (map (relabel e) ss) (if covered ss x y then e else eb).
Proof.
  pose proof (fold_last (fun s => sh_inside s x y) (fun s => sh_inside s x y = true) (fun s => conj (fun H => H) (fun H => H)) (map (relabel e) ss) eb) as W.
  replace (if covered ss x y then e else eb) with (fold_left (fun e s => if sh_inside s x y then sh_eps s else e) (map (relabel e) ss) eb); [exact W|].
  clear W. revert eb. induction ss as [|s ss IH]; intros eb; [reflexivity|]. cbn [map fold_left covered existsb relabel sh_inside sh_eps]. fold (covered ss x y). rewrite IH.
  destruct (sh_inside s x y), (covered ss x y); reflexivity.
Qed.
Lemma relabel_apart e ss : apart ss -> apart (map (relabel e) ss).
Proof.
  intros H pre s mid t post E x y Hs Ht. apply map_eq_app in E. destruct E as (l1 & l2 & -> & <- & E). destruct l2 as [|s0 l2]; [discriminate|]. cbn [map] in E. injection E as <- E.
  apply map_eq_app in E. destruct E as (l3 & l4 & -> & <- & E). destruct l4 as [|t0 l4]; [discriminate|]. cbn [map] in E. injection E as <- E.
  exact (H l1 s0 l3 t0 l4 eq_refl x y Hs Ht).
Qed.
Lemma relabel_sum e eb g ss : clsum (map (contrib eb g) (map (relabel e) ss)) = Cmult (RtoC (e - eb)) (clsum (map (fun s => sh_ft s g) ss)).
Proof.
  induction ss as [|s ss IH]; cbn [map clsum fold_right]; [ring|]. unfold clsum in IH. rewrite IH. unfold contrib. cbn [relabel sh_eps sh_ft]. ring.
Qed.
Lemma landscape_series args L a b M sd e eb g : lattice_init args = Ok L -> bricks L a b -> 0 < a -> 0 < b -> a / 2 <= M -> b / 2 <= M ->
  in_lattice (lt_b1 L) (lt_b2 L) g -> apart (map fst sd) ->
  (forall s, In s (map fst sd) -> inside_cell (a / 2) (b / 2) s) -> (forall p, In p sd -> transform_within M (snd p) g (fst p)) ->
  exists I, is_cell_integral (fun x y => Cmult (RtoC (if covered (map fst sd) x y then e else eb)) (expi (- (fst g * x + snd g * y)))) (a / 2) (b / 2) I /\
    Cmod (Cminus (Cplus (if Req_EM_T (Rabs (fst g) + Rabs (snd g)) 0 then RtoC eb else RtoC 0)
      (Cdiv (Cmult (RtoC (e - eb)) (clsum (map (fun s => sh_ft s g) (map fst sd)))) (RtoC (lt_ec_area L)))) (Cdiv I (RtoC (lt_ec_area L))))
      <= Rabs (e - eb) * total (map snd sd) / lt_ec_area L.
Proof.
  intros HL HB Ha Hb Ma Mb Hg Hap Hs Ht.
  set (sd' := map (fun p => (relabel e (fst p), snd p)) sd). assert (E1 : map fst sd' = map (relabel e) (map fst sd)) by (unfold sd'; rewrite !map_map; reflexivity).
  assert (E2 : weighted eb sd' = Rabs (e - eb) * total (map snd sd)).
  { unfold sd'. clear. induction sd as [|p sd IH]; cbn [map weighted fold_right total]; [ring|]. unfold weighted in IH. rewrite IH. cbn [fst snd relabel sh_eps]. ring. }
  rewrite <- E2, <- relabel_sum, <- E1. apply (cell_series args L a b HL HB Ha Hb M sd' eb g (fun x y => if covered (map fst sd) x y then e else eb) Ma Mb Hg).
  - rewrite E1. apply relabel_apart. exact Hap.
  - rewrite E1. intros s Hin. apply in_map_iff in Hin. destruct Hin as (t & <- & Hin). exact (Hs t Hin).
  - intros p Hin. unfold sd' in Hin. apply in_map_iff in Hin. destruct Hin as (q & <- & Hin). exact (Ht q Hin).
  - intros x y _ _. rewrite E1. apply relabel_wins.
Qed.

Lemma zero_cases g : g = (0, 0) \/ ~ is_g0 g -> (if Req_EM_T (Rabs (fst g) + Rabs (snd g)) 0 then is_g0 g else ~ is_g0 g).
Proof.
  intros H. destruct (Req_EM_T _ 0) as [E|E].
  - unfold is_g0. rewrite E. apply Rinv_0_lt_compat. lra.
  - destruct H as [->|H]; [|exact H]. cbn [fst snd] in E. rewrite Rabs_R0 in E. lra.
Qed.
Lemma well args L a b M ly s d V gs : lattice_init args = Ok L -> bricks L a b -> 0 < a -> 0 < b -> a / 2 <= M -> b / 2 <= M ->
  ly_shapes ly = [s] -> V <> 0 -> In (0, 0) gs -> (forall g, In g gs -> in_lattice (lt_b1 L) (lt_b2 L) g /\ (g = (0, 0) \/ ~ is_g0 g) /\ transform_within M d g s) ->
  inside_cell (a / 2) (b / 2) s -> sh_ft s (0, 0) = RtoC (sh_area s) -> 0 < sh_area s ->
  exists vs, layer_exc_ft (lt_ec_area L) ly V gs = Ok vs /\ List.length vs = List.length gs /\
  forall i g v, nth_error gs i = Some g -> nth_error vs i = Some v ->
  exists I, is_cell_integral (fun x y => Cmult (RtoC (if sh_inside s x y then Rmax V 0 else Rmax 0 (- V))) (expi (- (fst g * x + snd g * y)))) (a / 2) (b / 2) I /\
    Cmod (Cminus v (Cdiv I (RtoC (lt_ec_area L)))) <= Rabs V * d / lt_ec_area L.
Proof.
  intros HL HB Ha Hb Ma Mb Es HV H0 Hgs Hc Hf HA. assert (P : 0 < lt_ec_area L) by (destruct HB as (-> & _); nra).
  assert (G0 : exists g, In g gs /\ is_g0 g). { exists (0, 0). split; [exact H0|]. unfold is_g0. cbn [fst snd]. rewrite Rabs_R0, Rplus_0_l. apply Rinv_0_lt_compat. lra. }
  assert (Z : forall g, In g gs -> is_g0 g -> g = (0, 0)) by (intros g Hi Hz; destruct (Hgs g Hi) as (_ & [->|N] & _); [reflexivity|tauto]).
  assert (S : forall g e eb, In g gs -> e - eb = V -> exists I, is_cell_integral (fun x y => Cmult (RtoC (if sh_inside s x y then e else eb)) (expi (- (fst g * x + snd g * y)))) (a / 2) (b / 2) I /\
     Cmod (Cminus (Cplus (if Req_EM_T (Rabs (fst g) + Rabs (snd g)) 0 then RtoC eb else RtoC 0) (Cdiv (Cmult (RtoC V) (sh_ft s g)) (RtoC (lt_ec_area L)))) (Cdiv I (RtoC (lt_ec_area L)))) <= Rabs V * d / lt_ec_area L).
  { intros g e eb Hi <-. destruct (Hgs g Hi) as (Q1 & _ & Q3).
    destruct (landscape_series args L a b M [(s, d)] e eb g HL HB Ha Hb Ma Mb Q1) as (I & HI & BI).
    - intros pre s1 mid t post E. destruct pre as [|? [|? ?]]; cbn in E; [injection E as E1 E2; destruct mid; discriminate|discriminate|discriminate].
    - intros t [<-|[]]. exact Hc.
    - intros p [<-|[]]. exact Q3.
    - exists I. cbn [map fst snd clsum fold_right total covered existsb] in HI, BI. rewrite Rplus_0_r in BI. replace (Cplus (sh_ft s g) (RtoC 0)) with (sh_ft s g) in BI by ring. split; [|exact BI].
      destruct HI as (inn & H1 & H2). exists inn. split; [|exact H2]. intros y Hy. eapply is_CInt_ext; [|apply H1; exact Hy]. intros x _. cbv beta. rewrite Bool.orb_false_r. reflexivity. }
  destruct (Rtotal_order V 0) as [N|[N|N]]; [|tauto|].
  - destruct (C17_attractive_partial (lt_ec_area L) ly s V gs P Es N G0) as (vs & E & Hl & Hv).
    { intros g Hi Hz. rewrite (Z g Hi Hz), Hf. exact HA. }
    exists vs. split; [exact E|]. split; [exact Hl|]. intros i g v Hi Hvi. pose proof (nth_error_In _ _ Hi) as Hin.
    destruct (S g 0 (- V) Hin ltac:(ring)) as (I & HI & BI). rewrite Rmax_right, Rmax_right by lra. exists I. split; [exact HI|].
    destruct (Hv i g Hi) as (V1 & V2). pose proof (zero_cases g (proj1 (proj2 (Hgs g Hin)))) as ZC. destruct (Req_EM_T (Rabs (fst g) + Rabs (snd g)) 0).
    + specialize (V1 ZC). rewrite V1 in Hvi. injection Hvi as <-. eapply Rle_trans; [|exact BI]. right. f_equal. ring.
    + specialize (V2 ZC). rewrite V2 in Hvi. injection Hvi as <-. eapply Rle_trans; [|exact BI]. right. f_equal. ring.
  - pose proof (exc_ft_one_shape (lt_ec_area L) ly s V gs P Es N G0) as E.
    eexists. split; [apply E; intros g Hi Hz; rewrite (Z g Hi Hz), Hf; cbn; lra|]. split; [apply map_length|]. intros i g v Hi Hvi. pose proof (nth_error_In _ _ Hi) as Hin.
    rewrite nth_error_map, Hi in Hvi. cbn [option_map] in Hvi. injection Hvi as <-.
    destruct (S g V 0 Hin ltac:(ring)) as (I & HI & BI). rewrite (Rmax_left V 0), (Rmax_left 0 (- V)) by lra. exists I. split; [exact HI|].
    eapply Rle_trans; [|exact BI]. right. f_equal. destruct (Req_EM_T _ 0); ring.
Qed.
Lemma wells_unit args L a b M ly sd V gs : lattice_init args = Ok L -> bricks L a b -> 0 < a -> 0 < b -> a * b = 1 -> a / 2 <= M -> b / 2 <= M ->
  ly_shapes ly = map fst sd -> 0 < V -> In (0, 0) gs ->
  (forall g, In g gs -> in_lattice (lt_b1 L) (lt_b2 L) g /\ (g = (0, 0) \/ ~ is_g0 g) /\ forall p, In p sd -> transform_within M (snd p) g (fst p)) -> apart (map fst sd) ->
  (forall s, In s (map fst sd) -> inside_cell (a / 2) (b / 2) s /\ sh_ft s (0, 0) = RtoC (sh_area s) /\ 0 <= sh_area s) ->
  exists vs, layer_exc_ft (lt_ec_area L) ly V gs = Ok vs /\ List.length vs = List.length gs /\
  forall i g v, nth_error gs i = Some g -> nth_error vs i = Some v ->
  exists I, is_cell_integral (fun x y => Cmult (RtoC (if covered (map fst sd) x y then V else 0)) (expi (- (fst g * x + snd g * y)))) (a / 2) (b / 2) I /\
    Cmod (Cminus v (Cdiv I (RtoC (lt_ec_area L)))) <= V * total (map snd sd) / lt_ec_area L.
Proof.
  intros HL HB Ha Hb A1 Ma Mb Es HV H0 Hgs Hap Hs. assert (A : lt_ec_area L = 1) by (destruct HB as (-> & _); exact A1).
  assert (G0 : exists g, In g gs /\ is_g0 g). { exists (0, 0). split; [exact H0|]. unfold is_g0. cbn [fst snd]. rewrite Rabs_R0, Rplus_0_l. apply Rinv_0_lt_compat. lra. }
  eexists. split; [apply exc_ft_unit_area; auto|].
  - intros s g Hin Hi Hz. rewrite Es in Hin. destruct (Hs s Hin) as (_ & F & P). destruct (Hgs g Hi) as (_ & [->|N] & _); [|tauto]. rewrite F. cbn. lra.
  - split; [apply map_length|]. intros i g v Hi Hvi. pose proof (nth_error_In _ _ Hi) as Hin. rewrite nth_error_map, Hi in Hvi. cbn [option_map] in Hvi. injection Hvi as <-.
    destruct (Hgs g Hin) as (Q1 & _ & Q3). destruct (landscape_series args L a b M sd V 0 g HL HB Ha Hb Ma Mb Q1 Hap) as (I & HI & BI); auto.
    + intros s Hin'. apply Hs. exact Hin'.
    + exists I. split; [exact HI|]. rewrite Es. rewrite Rminus_0_r, (Rabs_pos_eq V) in BI by lra. eapply Rle_trans; [|exact BI]. right. f_equal. destruct (Req_EM_T _ 0); ring.
Qed.
Lemma two_wells_differ : exists L, lattice_init (LatVecs (2, 0) (0, 1)) = Ok L /\
  let c x := circle bessel_J1 (1, (x, 0), 1 / 4) in let ly := fold_left (append_shape (lt_ec_area L)) [c (- (1 / 2)); c (1 / 2)] (shapes_layer 0 1 1) in
  apart (ly_shapes ly) /\
  exists v I, layer_exc_ft (lt_ec_area L) ly 1 [(0, 0)] = Ok [v] /\
  is_cell_integral (fun x y => Cmult (RtoC (if existsb (fun s => sh_inside s x y) (ly_shapes ly) then 1 else 0)) (expi (- (0 * x + 0 * y)))) 1 (1 / 2) I /\
  (forall J, is_cell_integral (fun x y => Cmult (RtoC (if existsb (fun s => sh_inside s x y) (ly_shapes ly) then 1 else 0)) (expi (- (0 * x + 0 * y)))) 1 (1 / 2) J -> J = I) /\
  1 / 30 < Cmod (Cminus v (Cdiv I (RtoC (lt_ec_area L)))).
Proof.
  destruct (init_vecs (2, 0) (0, 1)) as (L & HL & A1 & A2 & _). exists L. split; [exact HL|]. cbv zeta. cbn [fold_left append_shape shapes_layer ly_shapes app].
  set (cs := [(1, (- (1 / 2), 0), 1 / 4); (1, (1 / 2, 0), 1 / 4)]).
  change [circle bessel_J1 (1, (- (1 / 2), 0), 1 / 4); circle bessel_J1 (1, (1 / 2, 0), 1 / 4)] with (map (circle bessel_J1) cs).
  assert (Hr : forall c, In c cs -> 0 < snd c) by (intros c [<-|[<-|[]]]; cbn [snd]; lra).
  assert (Hap : apart (map (circle bessel_J1) cs)). { apply circles_apart; [exact Hr|]. unfold cs. repeat constructor; unfold disjoint; cbn [fst snd]; lra. }
  split; [exact Hap|]. assert (HB := bricks_flat _ L 2 1 0 HL A1 A2 ltac:(lra) ltac:(lra)). assert (AR := proj1 HB).
  assert (Hin : forall c, In c cs -> inside_cell (2 / 2) (1 / 2) (circle bessel_J1 c)).
  { intros c Hc. apply circle_cell; [apply Hr; exact Hc| |]; destruct Hc as [<-|[<-|[]]]; cbn [fst snd]; rewrite ?Rabs_R0, ?Rabs_Ropp, ?(Rabs_pos_eq (1 / 2)) by lra; lra. }
  destruct (landscape_series _ L 2 1 1 (tolerances cs) 1 0 (0, 0) HL HB ltac:(lra) ltac:(lra) ltac:(lra) ltac:(lra)) as (I & HI & BI).
  - exists 0%Z, 0%Z. unfold comb. f_equal; ring.
  - rewrite tol_shapes. exact Hap.
  - rewrite tol_shapes. intros s Hs. apply in_map_iff in Hs. destruct Hs as (c & <- & Hc). apply Hin. exact Hc.
  - intros p Hp. unfold tolerances in Hp. apply in_map_iff in Hp. destruct Hp as (c & <- & Hc). cbn [fst snd]. apply (circle_within (2 / 2) (1 / 2) 1 c (0, 0) (Hr c Hc) (Hin c Hc)); lra.
  - rewrite tol_shapes in HI, BI. unfold covered in HI. replace (2 / 2) with 1 in HI by lra. cbn [fst snd] in HI.
    set (A := sh_area (circle bessel_J1 (1, (0, 0), 1 / 4))).
    assert (F : forall x, sh_ft (circle bessel_J1 (1, (x, 0), 1 / 4)) (0, 0) = RtoC A).
    { intros x. rewrite circle_area0. f_equal. unfold A, circle. cbn [fst snd circle_shape sh_area]. unfold circle_ft. cbn [fst snd]. do 3 f_equal. ring. }
    assert (SA := circle_area 1 0 0 (1 / 4) ltac:(lra) ltac:(lra)). change (sh_area (circle_shape bessel_J1 1 0 0 (1 / 4))) with A in SA.
    rewrite Rabs_minus_sym in SA. pose proof (Rle_abs (PI * (1 / 4) ^ 2 - A)) as S2. pose proof PI_4. assert (AB : 18 / 100 <= A) by (assert (3 < PI) by (pose proof PI2_3_2; lra); nra).
    clearbody A. exists (RtoC (3 / 4 * A)), I. split.
    { unfold layer_exc_ft, cs. cbn [append_shape shapes_layer ly_shapes app map]. change [RtoC 0] with (map (fun _ : R * R => RtoC 0) [(0:R,0:R)]). rewrite exc_loop_horner.
      - unfold horner. cbn [map fold_left]. rewrite !F, AR. do 2 f_equal. unfold Cdiv. rewrite <- RtoC_inv by lra. apply Ceq; cbn; lra.
      - rewrite AR. lra.
      - lra.
      - exists (0, 0). split; [left; reflexivity|]. unfold is_g0. cbn [fst snd]. rewrite Rabs_R0, Rplus_0_l. apply Rinv_0_lt_compat. lra.
      - intros s g [<-|[<-|[]]] [<-|[]] _; rewrite F; unfold nonneg_real; cbn; lra.
      - intros; unfold nonneg_real; cbn; lra. }
    split; [exact HI|]. split; [intros J HJ; apply (cell_unique _ 1 (1 / 2) J I ltac:(lra) HJ HI)|].
    unfold cs in BI at 1. cbn [map clsum fold_right] in BI. rewrite !F in BI. unfold tolerances, cs in BI. cbn [map snd total] in BI.
    rewrite AR in BI |- *. cbn [fst snd] in BI. rewrite Rabs_R0 in BI. destruct (Req_EM_T (0 + 0) 0) as [_|X]; [|lra]. rewrite Rminus_0_r, Rabs_R1 in BI.
    set (J := Cdiv I (RtoC (2 * 1))) in *.
    assert (EQ : Cplus (RtoC 0) (Cdiv (Cmult (RtoC 1) (Cplus (RtoC A) (Cplus (RtoC A) (RtoC 0)))) (RtoC (2 * 1))) = RtoC A).
    { unfold Cdiv. rewrite <- RtoC_inv by lra. apply Ceq; cbn; lra. }
    rewrite EQ in BI. assert (T : Rabs (1 / 4 * A) <= Cmod (Cminus (RtoC (3 / 4 * A)) J) + Cmod (Cminus (RtoC A) J)).
    { rewrite <- Cmod_R. replace (RtoC (1 / 4 * A)) with (Cplus (Cminus (RtoC A) J) (Copp (Cminus (RtoC (3 / 4 * A)) J))).
      - eapply Rle_trans; [apply Cmod_triangle|]. rewrite Cmod_opp. lra.
      - transitivity (Cminus (RtoC A) (RtoC (3 / 4 * A))); [ring|]. rewrite <- RtoC_minus. f_equal. lra. }
    rewrite (Rabs_pos_eq (1 / 4 * A)) in T by lra. lra.
Qed.
