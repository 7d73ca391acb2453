(** Proofs about __repr__ and viz.shapes. *)
From Coq Require Import Ascii.
From Verif Require Import Py LatticeModel CBase PhcModel VizModel VizSpec.
Open Scope R_scope.

Section Repr.
Variable fixed sci : nat -> R -> string.
Variable arr : list R -> string.
Variable dec : nat -> string.
Variable str : R -> string.

Lemma app_nil_s (s : string) : (s ++ "")%string = s.
Proof. induction s as [|c s IH]; cbn; [reflexivity|now rewrite IH]. Qed.
Lemma app_assoc_s (a b c : string) : ((a ++ b) ++ c)%string = (a ++ b ++ c)%string.
Proof. induction a as [|x a IH]; cbn; [reflexivity|now rewrite IH]. Qed.

(** what follows a first line *)
Fixpoint tails (l : list string) : string := match l with [] => EmptyString | x :: t => (nl ++ x ++ tails t)%string end.
Lemma concat_tails h l : String.concat nl (h :: l) = (h ++ tails l)%string.
Proof.
  revert h; induction l as [|x t IH]; intros h; [cbn; now rewrite app_nil_s|].
  change (String.concat nl (h :: x :: t)) with (h ++ nl ++ String.concat nl (x :: t))%string. now rewrite IH.
Qed.
Lemma tails_app a b : tails (a ++ b) = (tails a ++ tails b)%string.
Proof. induction a as [|x a IH]; cbn [tails app]; [reflexivity|]. rewrite IH. now rewrite !app_assoc_s. Qed.

Lemma repr_shape_ok s : (exists t, repr_shape fixed arr dec s = Ok t) <-> ~ is_ellipse s.
Proof.
  split.
  - intros [t H] (e & x & y & rx & ry & phi & ->). discriminate.
  - intros H. destruct s; cbn [repr_shape]; eauto. exfalso; apply H; unfold is_ellipse; eauto 8.
Qed.
Lemma repr_shape_bad s e : repr_shape fixed arr dec s = Raise e -> e = NameError /\ is_ellipse s.
Proof. destruct s; cbn [repr_shape]; intros H; try discriminate. inversion H. split; [reflexivity|unfold is_ellipse; eauto 8]. Qed.

Lemma repr_shapes_val rep l : repr_shapes fixed arr dec rep l = let* ts := mapM (repr_shape fixed arr dec) l in Ok (rep ++ tails ts)%string.
Proof.
  revert rep; induction l as [|s t IH]; intros rep; cbn [repr_shapes mapM bind tails]; [now rewrite app_nil_s|].
  destruct (repr_shape fixed arr dec s) as [r|e]; cbn [bind]; [|reflexivity]. rewrite IH.
  destruct (mapM (repr_shape fixed arr dec) t) as [ts|e]; cbn [bind tails]; [|reflexivity]. now rewrite !app_assoc_s.
Qed.
Lemma repr_layer_val ly : repr_layer fixed arr dec ly = let* ts := mapM (repr_shape fixed arr dec) (vl_shapes ly) in
  Ok match ts with [] => (layer_head fixed ly ++ ")")%string | _ => String.concat nl ((layer_head fixed ly ++ ",")%string :: ts ++ [")"%string]) end.
Proof.
  unfold repr_layer. rewrite repr_shapes_val. fold (layer_head fixed ly).
  destruct (vl_shapes ly) as [|s t]; [cbn [mapM bind tails]; now rewrite !app_nil_s|].
  destruct (mapM (repr_shape fixed arr dec) (s :: t)) as [ts|e] eqn:E; cbn [bind]; [|reflexivity].
  pose proof (mapM_ok_length _ _ _ E) as Hl. destruct ts as [|u ts]; [discriminate|].
  rewrite concat_tails, tails_app. f_equal. rewrite !app_assoc_s. cbn [tails]. now rewrite app_nil_s.
Qed.

Lemma numbered_nth n l i : nth_error (numbered dec n l) i = match nth_error l i with Some x => Some (dec (n + i) ++ ": " ++ x)%string | None => None end.
Proof.
  revert n i; induction l as [|x t IH]; intros n [|i]; cbn [numbered nth_error]; try reflexivity.
  - now rewrite Nat.add_0_r.
  - rewrite IH. now replace (S n + i)%nat with (n + S i)%nat by lia.
Qed.
Lemma numbered_length n l : List.length (numbered dec n l) = List.length l.
Proof. revert n; induction l as [|x t IH]; intros n; cbn; [reflexivity|now rewrite IH]. Qed.
Lemma repr_layers_val rep n l : repr_layers fixed arr dec rep n l =
  let* ts := mapM (repr_layer fixed arr dec) l in Ok (rep ++ tails (numbered dec n ts))%string.
Proof.
  revert rep n; induction l as [|s t IH]; intros rep n; cbn [repr_layers mapM bind tails numbered]; [now rewrite app_nil_s|].
  destruct (repr_layer fixed arr dec s) as [r|e]; cbn [bind]; [|reflexivity]. rewrite IH.
  destruct (mapM (repr_layer fixed arr dec) t) as [ts|e]; cbn [bind tails numbered]; [|reflexivity]. now rewrite !app_assoc_s.
Qed.
Lemma repr_qws_val rep n l : repr_qws fixed sci dec str rep n l = (rep ++ tails (numbered dec n (map (repr_qw fixed sci str) l)))%string.
Proof.
  revert rep n; induction l as [|s t IH]; intros rep n; cbn [repr_qws map tails numbered]; [now rewrite app_nil_s|].
  rewrite IH. now rewrite !app_assoc_s.
Qed.

Lemma layer_bad ly e : repr_layer fixed arr dec ly = Raise e -> e = NameError /\ exists s, In s (vl_shapes ly) /\ is_ellipse s.
Proof.
  rewrite repr_layer_val. destruct (mapM _ _) as [ts|e'] eqn:E; cbn [bind]; intros H; [discriminate|]. inversion H; subst e'.
  apply mapM_raise in E. destruct E as (s & Hs & E). apply repr_shape_bad in E. destruct E; eauto.
Qed.
Lemma layer_ok ly : (forall s, In s (vl_shapes ly) -> ~ is_ellipse s) -> exists t, repr_layer fixed arr dec ly = Ok t.
Proof.
  intros H. rewrite repr_layer_val. destruct (mapM_all_ok (repr_shape fixed arr dec) (vl_shapes ly)) as [ts E].
  - intros s Hs. now apply repr_shape_ok, H.
  - rewrite E. cbn [bind]. eauto.
Qed.

Lemma repr_fails L layers qws :
  (exists ly s, In ly layers /\ In s (vl_shapes ly) /\ is_ellipse s) -> repr_phc fixed sci arr dec str L layers qws = Raise NameError.
Proof.
  intros (ly & s & Hl & Hs & He). unfold repr_phc. cbv zeta. rewrite repr_layers_val.
  destruct (mapM (repr_layer fixed arr dec) layers) as [ts|e] eqn:E; cbn [bind].
  - exfalso. apply In_nth_error in Hl. destruct Hl as [i Hi]. destruct (mapM_ok_nth _ _ _ E _ _ Hi) as (t & Ht & _).
    rewrite repr_layer_val in Ht. destruct (mapM (repr_shape fixed arr dec) (vl_shapes ly)) as [us|e] eqn:E'; cbn [bind] in Ht; [|discriminate].
    apply In_nth_error in Hs. destruct Hs as [j Hj]. destruct (mapM_ok_nth _ _ _ E' _ _ Hj) as (u & Hu & _).
    apply (proj1 (repr_shape_ok s)); eauto.
  - apply mapM_raise in E. destruct E as (ly' & _ & E). apply layer_bad in E. destruct E as [-> _]. reflexivity.
Qed.

Ltac text := repeat progress (cbn [said bare map String.concat String.append]; rewrite ?app_assoc_s, ?app_nil_s).
Lemma shape_text s u : repr_shape fixed arr dec s = Ok u -> shape_says fixed arr dec s = Some u.
Proof. destruct s; cbn [repr_shape]; intros H; inversion H; unfold shape_says; text; reflexivity. Qed.
Lemma lattice_text L : repr_lattice fixed L = lattice_says fixed L.
Proof. unfold repr_lattice, lattice_says. text. reflexivity. Qed.
Lemma well_text q : repr_qw fixed sci str q = well_says fixed sci str q.
Proof. unfold repr_qw, well_says. unfold said, bare. text. reflexivity. Qed.

(** The text, line by line: [body] are the printed layers. *)
Lemma repr_text L layers qws :
  (forall ly s, In ly layers -> In s (vl_shapes ly) -> ~ is_ellipse s) ->
  exists body, List.length body = List.length layers /\
    (forall i ly t, nth_error layers i = Some ly -> nth_error body i = Some t ->
       exists ts, Forall2 (fun s u => shape_says fixed arr dec s = Some u) (vl_shapes ly) ts /\
         t = match ts with [] => (layer_head fixed ly ++ ")")%string | _ => String.concat nl ((layer_head fixed ly ++ ",")%string :: ts ++ [")"%string]) end) /\
    repr_phc fixed sci arr dec str L layers qws =
      Ok (String.concat nl (["PhotonicCrystal("; lattice_says fixed L] ++ numbered dec 0 body ++ numbered dec 0 (map (well_says fixed sci str) qws)) ++
          match layers, qws with [], [] => ")" | _, _ => nl ++ ")" end)%string.
Proof.
  intros H. destruct (mapM_all_ok (repr_layer fixed arr dec) layers) as [body E].
  { intros ly Hl. apply layer_ok. intros s; now apply H. }
  exists body. split; [now apply mapM_ok_length in E|]. split.
  - intros i ly t Hi Ht. destruct (mapM_ok_nth _ _ _ E _ _ Hi) as (t' & Hr & Ht'). rewrite Ht in Ht'. inversion Ht'; subst t'.
    rewrite repr_layer_val in Hr. destruct (mapM (repr_shape fixed arr dec) (vl_shapes ly)) as [ts|] eqn:E'; cbn [bind] in Hr; [|discriminate].
    exists ts. split; [|now inversion Hr]. clear - E'. revert ts E'. induction (vl_shapes ly) as [|s l IH]; cbn [mapM]; intros ts E'.
    + inversion E'. constructor.
    + destruct (repr_shape fixed arr dec s) as [u|] eqn:Eu; cbn [bind] in E'; [|discriminate].
      destruct (mapM (repr_shape fixed arr dec) l) as [us|]; cbn [bind] in E'; [|discriminate]. inversion E'. constructor; auto using shape_text.
  - rewrite <- (map_ext _ _ well_text), <- lattice_text. unfold repr_phc. cbv zeta. rewrite repr_layers_val, E. cbn [bind]. rewrite repr_qws_val. f_equal.
    cbn [app]. rewrite concat_tails. cbn [tails]. rewrite tails_app. rewrite !app_assoc_s.
    destruct layers, qws; reflexivity.
Qed.
Lemma repr_iff L layers qws :
  (exists t, repr_phc fixed sci arr dec str L layers qws = Ok t) <-> forall ly s, In ly layers -> In s (vl_shapes ly) -> ~ is_ellipse s.
Proof.
  split.
  - intros [t Ht] ly s Hl Hs He. rewrite repr_fails in Ht by eauto. discriminate.
  - intros H. destruct (repr_text L layers qws H) as (body & _ & _ & E). eauto.
Qed.
End Repr.

(** ** viz.shapes *)
Lemma plot_circle_spec eps x y r n o : outlines n (VCircle eps x y r) o (plot_circle (x + fst o) (y + snd o) r n).
Proof.
  unfold outlines, plot_circle, linspace. split; [now rewrite !map_length, seq_length|]. intros j Hj.
  rewrite !nth_error_map.
  rewrite (nth_error_nth' _ 0%nat) by (now rewrite seq_length). rewrite seq_nth by exact Hj. cbn [option_map plus].
  replace (0 + (2 * PI - 0) * (INR j / INR (n - 1))) with (2 * PI * (INR j / INR (n - 1))) by ring. reflexivity.
Qed.
Lemma shift_spec p o : List.length (shift o p) = List.length p /\ forall j q, nth_error p j = Some q -> nth_error (shift o p) j = Some (fst q + fst o, snd q + snd o).
Proof. unfold shift. split; [apply map_length|]. intros j q H. now rewrite nth_error_map, H. Qed.
Lemma shift0 p : shift (0, 0) p = p.
Proof. unfold shift. rewrite <- (map_id p) at 2. apply map_ext. intros [a b]. cbn. f_equal; ring. Qed.

Lemma neighbours_pads L pad : neighbours L pad = (0, 0) :: if pad then pads L else [].
Proof. unfold neighbours, pads. destruct (lt_a1 L) as [x1 y1], (lt_a2 L) as [x2 y2]. cbn [fst snd]. reflexivity. Qed.

Lemma Forall2_map_r {A B D} (Q : A -> B -> Prop) (f : A -> B) (g : D -> A) l : (forall x, Q (g x) (f (g x))) -> Forall2 Q (map g l) (map (fun x => f (g x)) l).
Proof. intros H. induction l; cbn; constructor; auto. Qed.
Lemma Forall2_self {A B} (Q : A -> B -> Prop) (f : A -> B) l : (forall x, Q x (f x)) -> Forall2 Q l (map f l).
Proof. intros H. induction l; cbn; constructor; auto. Qed.

Lemma outline_ok L n pad s : ~ is_ellipse s -> exists cs, outline L n pad s = Ok cs /\ Forall2 (outlines n s) (neighbours L pad) cs.
Proof.
  intros Hne. rewrite neighbours_pads.
  assert (HP : forall p, (forall o, outlines n s o (shift o p)) -> Forall2 (outlines n s) ((0, 0) :: (if pad then pads L else [])) (p :: if pad then map (fun q => shift q p) (pads L) else [])).
  { intros p Hp. constructor; [rewrite <- (shift0 p); apply Hp|]. destruct pad; [|constructor]. apply Forall2_self. exact Hp. }
  destruct s as [eps x y r|eps x y rx ry phi|eps p|eps x y a p|eps x y a p|eps x y m p]; cbn [outline edges_of bind].
  - eexists; split; [reflexivity|]. constructor.
    + pose proof (plot_circle_spec eps x y r n (0, 0)) as H. cbn [fst snd] in H. now rewrite !Rplus_0_r in H.
    + destruct pad; [|constructor]. apply Forall2_self. intros o. apply plot_circle_spec.
  - exfalso. apply Hne. unfold is_ellipse; eauto 8.
  - eexists; split; [reflexivity|]. apply HP. intros o. apply shift_spec.
  - eexists; split; [reflexivity|]. apply HP. intros o. apply shift_spec.
  - eexists; split; [reflexivity|]. apply HP. intros o. apply shift_spec.
  - eexists; split; [reflexivity|]. apply HP. intros o. apply shift_spec.
Qed.
Lemma outline_bad L n pad s e : outline L n pad s = Raise e -> e = AttributeError /\ is_ellipse s.
Proof.
  destruct s; cbn [outline edges_of bind]; intros H; try discriminate. inversion H. split; [reflexivity|unfold is_ellipse; eauto 8].
Qed.

Lemma grid2 L : exists x y, xy_grid L 2 2 PerNone = Ok ([- x; x], [- y; y]) /\ 0 <= x /\ 0 <= y.
Proof.
  set (p := match lt_type L with LSquare | LRectangular => 1 | _ => 2 end).
  exists (Rabs (Rmax (fst (lt_a1 L)) (fst (lt_a2 L))) * p / 2), (Rabs (Rmax (snd (lt_a1 L)) (snd (lt_a2 L))) * p / 2).
  assert (Hp : 0 <= p) by (unfold p; destruct (lt_type L); lra).
  assert (HL : forall a, linspace (- a) a 2 = [- a; a]).
  { intros a. unfold linspace. cbn [seq map Nat.sub INR]. f_equal; [field|f_equal; field]. }
  split; [|split; apply Rmult_le_pos; try lra; apply Rmult_le_pos; try lra; apply Rabs_pos].
  unfold xy_grid, p. destruct (lt_type L); cbn [bind]; now rewrite !HL.
Qed.

Lemma shapes_fail L shapes n pad : (exists s, In s shapes /\ is_ellipse s) -> viz_shapes L shapes n pad = Raise AttributeError.
Proof.
  intros (s & Hs & He). unfold viz_shapes. destruct (grid2 L) as (x & y & -> & _). cbn [bind].
  destruct (mapM (outline L n pad) shapes) as [cs|e] eqn:E; cbn [bind].
  - apply In_nth_error in Hs. destruct Hs as [i Hi]. destruct (mapM_ok_nth _ _ _ E _ _ Hi) as (c & Hc & _).
    destruct He as (a & b & c' & d & f & g & ->). discriminate.
  - apply mapM_raise in E. destruct E as (s' & _ & E). apply outline_bad in E. destruct E as [-> _]. reflexivity.
Qed.
Lemma Forall2_app2 {A B} (Q : A -> B -> Prop) a b c d : Forall2 Q a b -> Forall2 Q c d -> Forall2 Q (a ++ c) (b ++ d).
Proof. intros H. induction H; cbn; auto. Qed.
Lemma shapes_drawn L shapes n pad : (forall s, In s shapes -> ~ is_ellipse s) ->
  exists cs x y, viz_shapes L shapes n pad = Ok (cs, ([- x; x], [- y; y])) /\ 0 <= x /\ 0 <= y /\ xy_grid L 2 2 PerNone = Ok ([- x; x], [- y; y]) /\
    Forall2 (fun so c => outlines n (fst so) (snd so) c) (list_prod shapes (neighbours L pad)) cs.
Proof.
  intros H. unfold viz_shapes. destruct (grid2 L) as (x & y & EG & Hx & Hy). rewrite EG. cbn [bind].
  destruct (mapM_all_ok (outline L n pad) shapes) as [cs E].
  { intros s Hs. destruct (outline_ok L n pad s (H s Hs)) as (c & Hc & _). eauto. }
  rewrite E. cbn [bind]. exists (List.concat cs), x, y. split; [reflexivity|]. split; [exact Hx|]. split; [exact Hy|]. split; [reflexivity|].
  clear - H E. revert cs E. induction shapes as [|s l IH]; intros cs E; cbn [mapM] in E.
  - inversion E. constructor.
  - destruct (outline_ok L n pad s) as (c & Hc & HF); [apply H; now left|]. rewrite Hc in E. cbn [bind] in E.
    destruct (mapM (outline L n pad) l) as [cs'|]; cbn [bind] in E; [|discriminate]. inversion E; subst cs. cbn [List.concat list_prod].
    apply Forall2_app2; [|apply IH; [intros; apply H; now right|reflexivity]].
    clear - HF. induction HF; cbn [map]; constructor; auto.
Qed.

(** Circle of radius 1/4 on the corner of a square cell: its image on the opposite
    corner is within the window and is not drawn. *)
Lemma corner_missing : exists L, lattice_init (LatName "square") = Ok L /\
  exists cs ext, viz_shapes L [VCircle 1 (1 / 2) (1 / 2) (1 / 4)] 101 true = Ok (cs, ext) /\
  exists p, in_window ext p /\ on_image L (1 / 2) (1 / 2) (1 / 4) p /\
    forall c q, In c cs -> In q c -> 1 / 4 <= dist2 p q.
Proof.
  eexists. split; [reflexivity|]. set (L := mkLattice _ _ _ _ _ _ _).
  set (sh := VCircle 1 (1 / 2) (1 / 2) (1 / 4)).
  assert (A1 : lt_a1 L = (1, 0)) by reflexivity. assert (A2 : lt_a2 L = (0, 1)) by reflexivity.
  assert (G : xy_grid L 2 2 PerNone = Ok ([- (1 / 2); 1 / 2], [- (1 / 2); 1 / 2])).
  { unfold xy_grid. cbn [lt_type L bind]. rewrite A1, A2. cbn [fst snd].
    rewrite Rmax_left by lra. rewrite Rmax_right by lra. rewrite Rabs_R1. unfold linspace. cbn [seq map Nat.sub INR]. f_equal. f_equal; f_equal; try field; f_equal; field. }
  unfold viz_shapes. rewrite G. cbn [bind mapM outline sh]. do 2 eexists. split; [reflexivity|].
  exists (- (1 / 4), - (1 / 2)). split.
  { exists (- (1 / 2)), (1 / 2), (- (1 / 2)), (1 / 2). split; [reflexivity|]. cbn [fst snd]. lra. }
  split.
  { exists (-1)%Z, (-1)%Z. rewrite A1, A2. cbn [fst snd]. unfold Rsqr. field. }
  assert (Far : forall X Y phi, 3 / 4 <= X + 1 / 4 \/ 3 / 4 <= Y + 1 / 2 -> 1 / 4 <= dist2 (- (1 / 4), - (1 / 2)) (X + 1 / 4 * cos phi, Y + 1 / 4 * sin phi)).
  { intros X Y phi H. unfold dist2, Rsqr. cbn [fst snd]. pose proof (COS_bound phi) as Hc. pose proof (SIN_bound phi) as Hs.
    assert (1 / 2 <= X + 1 / 4 + 1 / 4 * cos phi \/ 1 / 2 <= Y + 1 / 2 + 1 / 4 * sin phi) as H' by (destruct H as [H|H]; [left|right]; lra).
    set (u := X + 1 / 4 + 1 / 4 * cos phi) in *. set (v := Y + 1 / 2 + 1 / 4 * sin phi) in *.
    replace (- (1 / 4) - (X + 1 / 4 * cos phi)) with (- u) by (unfold u; ring). replace (- (1 / 2) - (Y + 1 / 4 * sin phi)) with (- v) by (unfold v; ring).
    pose proof (Rle_0_sqr u) as Hu. pose proof (Rle_0_sqr v) as Hv. unfold Rsqr in Hu, Hv. destruct H' as [H'|H']; nra. }
  intros c q Hc Hq. unfold pads in Hc. rewrite A1, A2 in Hc. cbn [map fst snd List.concat app In] in Hc.
  destruct Hc as [<-|[<-|[<-|[<-|[<-|[]]]]]]; unfold plot_circle in Hq; apply in_map_iff in Hq; destruct Hq as (phi & <- & _); apply Far; first [left; lra|right; lra].
Qed.
