(** Proofs about grad_num, vjp_maker_num, the GDS export and viz.py. *)
From Verif Require Import Py CBase LatticeModel PhcModel ShapesModel RecipModel RadModel MiscModel MiscSpec MiscProofs.
Open Scope R_scope.
Open Scope list_scope.

(** ** Sums *)
Lemma sum_to_ext n f g : (forall i, (i < n)%nat -> f i = g i) -> sum_to n f = sum_to n g.
Proof. intros H. unfold sum_to. f_equal. apply map_ext_in. intros i Hi. apply H. apply in_seq in Hi. lia. Qed.
Lemma rsuml_app l l' : rsuml (l ++ l') = rsuml l + rsuml l'.
Proof. unfold rsuml. induction l as [|x l IH]; cbn [app fold_right]; [lra|]. rewrite IH. lra. Qed.
Lemma sum_to_S n f : sum_to (S n) f = sum_to n f + f n.
Proof. unfold sum_to. rewrite seq_S, map_app, rsuml_app. cbn. lra. Qed.
Lemma sum_to_0 f : sum_to 0 f = 0. Proof. reflexivity. Qed.
Lemma sum_to_plus n f g : sum_to n (fun i => f i + g i) = sum_to n f + sum_to n g.
Proof. induction n as [|n IH]; [rewrite !sum_to_0; lra|]. rewrite !sum_to_S, IH. lra. Qed.
Lemma sum_to_scal n c f : sum_to n (fun i => c * f i) = c * sum_to n f.
Proof. induction n as [|n IH]; [rewrite !sum_to_0; lra|]. rewrite !sum_to_S, IH. lra. Qed.
Lemma sum_to_delta n f k : (k < n)%nat -> (forall i, (i < n)%nat -> i <> k -> f i = 0) -> sum_to n f = f k.
Proof.
  induction n as [|n IH]; intros Hk H; [lia|]. rewrite sum_to_S. destruct (Nat.eq_dec k n) as [->|Hne].
  - assert (E : sum_to n f = 0); [|lra]. rewrite (sum_to_ext n f (fun i => 0 * f i)) by (intros i Hi; rewrite (H i) by lia; lra).
    rewrite sum_to_scal. lra.
  - rewrite IH by (lia || intros; apply H; lia). rewrite (H n) by lia. lra.
Qed.
Lemma sum_to_swap n m f : sum_to n (fun i => sum_to m (fun j => f i j)) = sum_to m (fun j => sum_to n (fun i => f i j)).
Proof.
  induction n as [|n IH].
  - rewrite sum_to_0. rewrite (sum_to_ext m _ (fun i => 0 * 0)) by (intros; rewrite sum_to_0; lra). rewrite sum_to_scal. lra.
  - rewrite sum_to_S, IH, <- sum_to_plus. apply sum_to_ext. intros. rewrite sum_to_S. reflexivity.
Qed.

(** ** Heap *)
Lemma hwrite_length h r a : List.length (hwrite h r a) = List.length h.
Proof. revert r; induction h as [|x h IH]; intros [|r]; cbn; auto. Qed.
Lemma hread_app_new h a : hread (h ++ [a]) (List.length h) = a.
Proof. unfold hread. rewrite app_nth2, Nat.sub_diag by lia. reflexivity. Qed.
Lemma hread_app_old h a r : (r < List.length h)%nat -> hread (h ++ [a]) r = hread h r.
Proof. intros H. unfold hread. apply app_nth1. exact H. Qed.
Lemma hread_write h r a : (r < List.length h)%nat -> hread (hwrite h r a) r = a.
Proof. revert r; induction h as [|x h IH]; intros [|r] H; cbn in *; try lia; auto. apply IH. lia. Qed.
Lemma hread_write_ne h r r' a : r <> r' -> hread (hwrite h r a) r' = hread h r'.
Proof. revert r r'; induction h as [|x h IH]; intros [|r] [|r'] H; cbn; auto; try lia. apply IH. lia. Qed.

Lemma bump_length int i h l : List.length (bump int i h l) = List.length l.
Proof. revert i; induction l as [|x l IH]; intros [|i]; cbn; auto. Qed.
Lemma bump_nth int i h l j : (i < List.length l)%nat -> nth j (bump int i h l) 0 = if Nat.eqb j i then store int (nth i l 0 + h) else nth j l 0.
Proof.
  revert i j; induction l as [|x l IH]; intros [|i] [|j] H; cbn in *; try lia; auto. apply IH. lia.
Qed.

Lemma nth_map_seq (f : nat -> R) n i : (i < n)%nat -> nth i (map f (seq 0 n)) 0 = f i.
Proof. intros H. transitivity (nth i (map f (seq 0 n)) (f 0%nat)); [apply nth_indep; rewrite map_length, seq_length; exact H|]. rewrite map_nth, seq_nth by exact H. reflexivity. Qed.
Lemma nth_map_of {A} (f : A -> R) l i d : (i < List.length l)%nat -> nth i (map f l) 0 = f (nth i l d).
Proof. intros H. transitivity (nth i (map f l) (f d)); [apply nth_indep; rewrite map_length; exact H|]. apply map_nth. Qed.
(** the loop: what it returns and what it leaves alone *)
Lemma grad_loop_spec fn arg shape f_old st is : forall h, (arg < List.length h)%nat ->
  (forall i, In i is -> (i < List.length st)%nat) ->
  exists h', grad_loop fn arg shape f_old st is h =
    (h', Ok (map (fun i => (fn (reshape (moved (flatten (hread h arg)) i (nth i st 0)) shape) - f_old) / nth i st 0) is)) /\
    (List.length h <= List.length h')%nat /\ forall r, (r < List.length h)%nat -> hread h' r = hread h r.
Proof.
  induction is as [|i is IH]; intros h Ha Hs; [exists h; split; [reflexivity|split; auto]|].
  cbn [grad_loop]. unfold nth_or at 1. destruct (nth_error st i) as [d|] eqn:Ed.
  2: { exfalso. apply nth_error_None in Ed. specialize (Hs i (or_introl eq_refl)). lia. }
  rewrite hread_app_new. set (h1 := hwrite (h ++ [flatten (hread h arg)]) (List.length h) (moved (flatten (hread h arg)) i d)).
  assert (L1 : List.length h1 = S (List.length h)) by (unfold h1; rewrite hwrite_length, app_length; cbn; lia).
  assert (K1 : forall r, (r < List.length h)%nat -> hread h1 r = hread h r).
  { intros r Hr. unfold h1. rewrite hread_write_ne by lia. apply hread_app_old. exact Hr. }
  assert (N1 : hread h1 (List.length h) = moved (flatten (hread h arg)) i d).
  { unfold h1. apply hread_write. rewrite app_length. cbn. lia. }
  destruct (IH h1 ltac:(lia) (fun j Hj => Hs j (or_intror Hj))) as (h' & E & L & K). rewrite E. exists h'. split; [|split; [lia|]].
  - cbn [bind map]. rewrite N1, (K1 arg Ha), (nth_error_nth st i 0 Ed). reflexivity.
  - intros r Hr. rewrite K by lia. apply K1. exact Hr.
Qed.
Lemma moved_reshape a i d : reshape (moved (flatten a) i d) (nd_shape a) = moved a i d.
Proof. reflexivity. Qed.
Lemma steps_sizes n s sz : step_sizes n s sz -> exists st, steps n s = Ok st /\ List.length st = n /\ forall i, (i < n)%nat -> nth i st 0 = sz i.
Proof.
  intros [h|l Hl]; cbn [steps].
  - exists (List.repeat h n). split; [reflexivity|]. split; [apply repeat_length|]. intros i Hi.
    transitivity (nth i (List.repeat h n) h); [apply nth_indep; rewrite repeat_length; exact Hi|apply nth_repeat].
  - exists l. auto.
Qed.
Lemma grad_num_spec fn arg s sz h : (arg < List.length h)%nat -> step_sizes (List.length (nd_data (hread h arg))) s sz ->
  exists h', grad_num fn arg s h =
    (h', Ok (Nd (nd_shape (hread h arg)) false (map (fun i => (fn (moved (hread h arg) i (sz i)) - fn (hread h arg)) / sz i) (seq 0 (List.length (nd_data (hread h arg))))))) /\
    forall r, (r < List.length h)%nat -> hread h' r = hread h r.
Proof.
  intros Ha Hs. destruct (steps_sizes _ _ _ Hs) as (st & Es & Ls & Ns). unfold grad_num. rewrite Es.
  destruct (grad_loop_spec fn arg (nd_shape (hread h arg)) (fn (hread h arg)) st (seq 0 (List.length (nd_data (hread h arg)))) h Ha) as (h' & E & _ & K).
  { intros i Hi. apply in_seq in Hi. lia. }
  rewrite E. cbn [bind]. exists h'. split; [|exact K]. do 3 f_equal. apply map_ext_in. intros i Hi. apply in_seq in Hi.
  rewrite moved_reshape, Ns by lia. reflexivity.
Qed.
Lemma quadratic_gradient fn a c w q i h : let n := List.length (nd_data a) in is_quadratic n (nd_shape a) fn c w q -> nd_int a = false -> (i < n)%nat -> h <> 0 ->
  (fn (moved a i h) - fn a) / h = w i + sum_to n (fun j => (q i j + q j i) * nth j (nd_data a) 0) + h * q i i.
Proof.
  intros n Hq Hint Hi Hh. unfold n in *. rewrite (Hq a) by reflexivity. rewrite (Hq (moved a i h)) by (cbn; [reflexivity|apply bump_length] || reflexivity || (cbn; apply bump_length)).
  cbn [moved nd_data]. rewrite Hint. set (x := fun j => nth j (nd_data a) 0). set (e := fun j => if Nat.eqb j i then h else 0).
  assert (B : forall j, nth j (bump false i h (nd_data a)) 0 = x j + e j).
  { intros j. rewrite bump_nth by exact Hi. unfold x, e. destruct (Nat.eqb_spec j i) as [->|]; cbn [store]; lra. }
  fold n. fold n in Hi.
  rewrite (sum_to_ext n (fun j => w j * nth j (bump false i h (nd_data a)) 0) (fun j => w j * x j + w j * e j)) by (intros; rewrite B; lra).
  rewrite sum_to_plus. rewrite (sum_to_delta n (fun j => w j * e j) i Hi) by (intros j Hj Hne; unfold e; rewrite (proj2 (Nat.eqb_neq j i) Hne); lra).
  rewrite (sum_to_ext n (fun k => sum_to n (fun j => q k j * nth k (bump false i h (nd_data a)) 0 * nth j (bump false i h (nd_data a)) 0))
     (fun k => (sum_to n (fun j => q k j * x k * x j) + x k * (q k i * h)) + e k * (sum_to n (fun j => q k j * x j) + q k i * h))).
  2: { intros k Hk. rewrite (sum_to_ext n _ (fun j => (q k j * x k * x j + x k * (q k j * e j)) + e k * (q k j * x j + q k j * e j))) by (intros; rewrite !B; ring).
       rewrite !sum_to_plus, !sum_to_scal, !sum_to_plus.
       rewrite (sum_to_delta n (fun j => q k j * e j) i Hi) by (intros j Hj Hne; unfold e; rewrite (proj2 (Nat.eqb_neq j i) Hne); lra).
       replace (e i) with h by (unfold e; rewrite Nat.eqb_refl; reflexivity). reflexivity. }
  rewrite !sum_to_plus. rewrite (sum_to_delta n (fun k => e k * (sum_to n (fun j => q k j * x j) + q k i * h)) i Hi) by (intros j Hj Hne; unfold e; rewrite (proj2 (Nat.eqb_neq j i) Hne); lra).
  rewrite (sum_to_ext n (fun k => x k * (q k i * h)) (fun k => h * (q k i * x k))) by (intros; ring). rewrite sum_to_scal.
  rewrite (sum_to_ext n (fun j => (q i j + q j i) * nth j (nd_data a) 0) (fun j => q i j * x j + q j i * x j)) by (intros; unfold x; ring). rewrite sum_to_plus.
  unfold e. rewrite Nat.eqb_refl. unfold x. field. exact Hh.
Qed.
Lemma affine_quadratic n sh fn c w : is_affine n sh fn c w -> is_quadratic n sh fn c w (fun _ _ => 0).
Proof.
  intros H a Hs Hl. rewrite (H a Hs Hl). rewrite (sum_to_ext n (fun i => sum_to n _) (fun i => 0 * 0)); [rewrite sum_to_scal; lra|].
  intros i Hi. rewrite (sum_to_ext n _ (fun j => 0 * 0)) by (intros; ring). rewrite sum_to_scal. ring.
Qed.
Lemma grad_quadratic fn arg s sz h c w q : let a := hread h arg in let n := List.length (nd_data a) in (arg < List.length h)%nat -> step_sizes n s sz -> nd_int a = false ->
  (forall i, (i < n)%nat -> sz i <> 0) -> is_quadratic n (nd_shape a) fn c w q ->
  exists h' g, grad_num fn arg s h = (h', Ok g) /\ nd_shape g = nd_shape a /\ List.length (nd_data g) = n /\
    (forall i, (i < n)%nat -> nth i (nd_data g) 0 = w i + sum_to n (fun j => (q i j + q j i) * nth j (nd_data a) 0) + sz i * q i i) /\
    forall r, (r < List.length h)%nat -> hread h' r = hread h r.
Proof.
  intros a n Ha Hs Hint Hz Hq. destruct (grad_num_spec fn arg s sz h Ha Hs) as (h' & E & K). exists h', (Nd (nd_shape a) false (map (fun i => (fn (moved a i (sz i)) - fn a) / sz i) (seq 0 n))).
  split; [exact E|]. split; [reflexivity|]. split; [cbn; rewrite map_length, seq_length; reflexivity|]. split; [|exact K].
  intros i Hi. cbn [nd_data]. rewrite nth_map_seq by exact Hi. apply (quadratic_gradient fn a c w q i (sz i)); auto.
Qed.
Lemma grad_affine fn arg s sz h c w : let a := hread h arg in let n := List.length (nd_data a) in (arg < List.length h)%nat -> step_sizes n s sz -> nd_int a = false ->
  (forall i, (i < n)%nat -> sz i <> 0) -> is_affine n (nd_shape a) fn c w ->
  exists h' g, grad_num fn arg s h = (h', Ok g) /\ nd_shape g = nd_shape a /\ List.length (nd_data g) = n /\
    (forall i, (i < n)%nat -> nth i (nd_data g) 0 = w i) /\ forall r, (r < List.length h)%nat -> hread h' r = hread h r.
Proof.
  intros a n Ha Hs Hint Hz Hq. destruct (grad_quadratic fn arg s sz h c w (fun _ _ => 0) Ha Hs Hint Hz (affine_quadratic _ _ _ _ _ Hq)) as (h' & g & E & S1 & L & G & K).
  exists h', g. repeat split; auto. intros i Hi. rewrite (G i Hi). rewrite (sum_to_ext _ _ (fun j => 0 * 0)) by (intros; ring). rewrite sum_to_scal. ring.
Qed.
(** an integer array is not moved by a small step, or moved by a whole unit *)
Lemma np_int_half : np_int (3 + 1 / 2) = 3%Z.
Proof.
  unfold np_int. rewrite (proj2 (Rleb_true 0 (3 + 1 / 2))) by lra. destruct (base_Int_part (3 + 1 / 2)) as [A B].
  assert (2 < Int_part (3 + 1 / 2) < 4)%Z by (split; apply lt_IZR; lra). lia.
Qed.
Lemma grad_int_wrong : let a := Nd [1%nat] true [3] in let fn := fun b => nth 0 (nd_data b) 0 in
  is_affine 1 [1%nat] fn 0 (fun _ => 1) /\ exists h', grad_num fn 0 (StFloat (1 / 2)) [a] = (h', Ok (Nd [1%nat] false [0])).
Proof.
  intros a fn. split.
  - intros b Hs Hl. unfold fn, sum_to. cbn. lra.
  - destruct (grad_num_spec fn 0 (StFloat (1 / 2)) (fun _ => 1 / 2) [a] ltac:(cbn; lia) (SsFloat _ _)) as (h' & E & _). exists h'. rewrite E. cbn [hread nth a nd_shape nd_data List.length seq map].
    do 4 f_equal. unfold fn, moved. cbn [nd_data nd_int a bump nth store]. rewrite np_int_half. lra.
Qed.
Lemma grad_int_step fn h arg z : grad_num fn arg (StInt z) h = (h, Raise AttributeError).
Proof. reflexivity. Qed.
Lemma nd_eta a : a = Nd (nd_shape a) (nd_int a) (nd_data a). Proof. destruct a; reflexivity. Qed.

(** ** vjp_maker_num *)
Lemma set_nth_length {A} (l : list A) i x : List.length (set_nth l i x) = List.length l.
Proof. revert i; induction l as [|y l IH]; intros [|i]; cbn; auto. Qed.
Lemma mapM_map {A B} (f : A -> result B) (g : A -> B) l : (forall x, In x l -> f x = Ok (g x)) -> mapM f l = Ok (map g l).
Proof. induction l as [|x l IH]; intros H; [reflexivity|]. cbn [mapM map]. rewrite (H x) by (left; reflexivity). cbn [bind]. rewrite IH by (intros; apply H; right; assumption). reflexivity. Qed.
Lemma combine_nth0 (l l' : list R) i : (i < List.length l)%nat -> List.length l = List.length l' -> nth i (combine l l') (0, 0) = (nth i l 0, nth i l' 0).
Proof. intros. apply combine_nth. assumption. Qed.
Lemma rsuml_combine v w : List.length v = List.length w -> rsuml (map (fun p => fst p * snd p) (combine v w)) = sum_to (List.length v) (fun j => nth j v 0 * nth j w 0).
Proof.
  revert w. induction v as [|x v IH]; intros [|y w] H; cbn in H; try lia; [reflexivity|]. cbn [combine map rsuml fold_right fst snd List.length].
  fold (rsuml (map (fun p => fst p * snd p) (combine v w))). rewrite IH by lia. unfold sum_to. cbn [seq map rsuml fold_right nth].
  rewrite <- seq_shift, map_map. reflexivity.
Qed.
(** every output is affine in the moved argument *)
Definition affine_in (fn : list nd -> list R) (args : list nd) (ai n m : nat) (J : nat -> nat -> R) : Prop :=
  forall b, nth_error args ai = Some b -> forall i h, (i < n)%nat -> List.length (fn (set_nth args ai (moved b i h))) = m /\
    forall o, (o < m)%nat -> nth o (fn (set_nth args ai (moved b i h))) 0 = nth o (fn args) 0 + J o i * h.
Lemma vjp_affine fn args ai step v a m J : nth_error args ai = Some a -> nd_int a = false -> step <> 0 -> List.length (fn args) = m -> List.length v = m ->
  affine_in fn args ai (List.length (nd_data a)) m J ->
  exists g, vjp_num fn (fn args) args ai step v = Ok g /\ nd_shape g = [List.length (nd_data a)] /\ List.length (nd_data g) = List.length (nd_data a) /\
    forall i, (i < List.length (nd_data a))%nat -> nth i (nd_data g) 0 = sum_to m (fun o => nth o v 0 * J o i).
Proof.
  intros Ea Hint Hs Hm Hv HJ. unfold vjp_num, nth_or. rewrite Ea. cbn [bind]. set (n := List.length (nd_data a)).
  rewrite (mapM_map _ (fun i => sum_to m (fun o => nth o v 0 * J o i))).
  - cbn [bind]. eexists. split; [reflexivity|]. split; [reflexivity|]. cbn [nd_data]. split; [rewrite map_length, seq_length; reflexivity|].
    intros i Hi. rewrite nth_map_seq by exact Hi. reflexivity.
  - intros i Hi. apply in_seq in Hi. destruct (HJ a Ea i step ltac:(unfold n in Hi; lia)) as [L N]. rewrite L, Hm, Nat.eqb_refl. unfold vdot.
    rewrite map_length, combine_length, L, Hm, Nat.min_id, Hv, Nat.eqb_refl. f_equal. rewrite rsuml_combine by (rewrite map_length, combine_length, L, Hm, Nat.min_id; exact Hv).
    rewrite Hv. apply sum_to_ext. intros o Ho. f_equal.
    rewrite (nth_map_of _ _ _ (0, 0)) by (rewrite combine_length, L, Hm, Nat.min_id; exact Ho).
    rewrite combine_nth by (rewrite L, Hm; reflexivity). cbn [fst snd]. rewrite N by exact Ho. field. exact Hs.
Qed.

(** ** GDS *)
Lemma element_of_spec tol i s : (exportable s -> exists e, element_of tol i s = Ok e) /\ (~ exportable s -> element_of tol i s = Raise RuntimeError) /\
  (forall e, element_of tol i s = Ok e -> match s with GPoly k P => po_pts P <> [] -> drawn tol i s e | _ => drawn tol i s e end).
Proof.
  destruct s as [k P|? x y r|]; cbn [exportable element_of].
  - split; [destruct k; cbn; intros H; try contradiction; eexists; reflexivity|]. split; [destruct k; cbn; intros H; try reflexivity; exfalso; apply H; exact I|].
    intros e He Hp. assert (Ee : e = ElPolygon (removelast (po_pts P)) i 1) by (destruct k; cbn in He; try discriminate He; injection He as <-; reflexivity). subst e.
    cbn [drawn]. split; [reflexivity|]. exists (last (po_pts P) (0, 0)). apply app_removelast_last. exact Hp.
  - split; [intros; eexists; reflexivity|]. split; [intros H; exfalso; apply H; exact I|]. intros e He. injection He as <-. cbn. auto.
  - split; [contradiction|]. split; [reflexivity|]. discriminate.
Qed.
Lemma cell_of_ok tol layers : forall i, Forall (fun p => exportable (snd p)) (numbered i layers) ->
  exists es, cell_of tol i layers = Ok es /\ Forall2 (fun p e => element_of tol (fst p) (snd p) = Ok e) (numbered i layers) es.
Proof.
  induction layers as [|ly t IH]; intros i H; [exists []; split; [reflexivity|constructor]|]. cbn [numbered cell_of] in *. apply Forall_app in H. destruct H as [H1 H2].
  assert (G : exists es, mapM (element_of tol i) ly = Ok es /\ Forall2 (fun p e => element_of tol (fst p) (snd p) = Ok e) (map (fun s => (i, s)) ly) es).
  { clear H2 IH. induction ly as [|s ly IHl]; [exists []; split; [reflexivity|constructor]|]. cbn [map mapM] in *. inversion H1 as [|? ? Hs Hl]; subst.
    destruct (proj1 (element_of_spec tol i s) Hs) as [e He]. destruct (IHl Hl) as (es & E & F). exists (e :: es). rewrite He. cbn [bind]. rewrite E. split; [reflexivity|constructor; [exact He|exact F]]. }
  destruct G as (es & E & F). destruct (IH (S i) H2) as (es' & E' & F'). exists (es ++ es'). rewrite E. cbn [bind]. rewrite E'. split; [reflexivity|]. apply Forall2_app; assumption.
Qed.
Lemma cell_of_raise tol layers : forall i, ~ Forall (fun p => exportable (snd p)) (numbered i layers) -> cell_of tol i layers = Raise RuntimeError.
Proof.
  induction layers as [|ly t IH]; intros i H; [exfalso; apply H; constructor|]. cbn [numbered cell_of] in *.
  assert (D : Forall exportable ly \/ mapM (element_of tol i) ly = Raise RuntimeError).
  { clear. induction ly as [|s ly IHl]; [left; constructor|].
    assert (X : exportable s \/ ~ exportable s) by (destruct s as [[]| |]; cbn; tauto). cbn [mapM]. destruct X as [X|X].
    - destruct (proj1 (element_of_spec tol i s) X) as [e ->]. cbn [bind]. destruct IHl as [I|I]; [left; constructor; assumption|right; rewrite I; reflexivity].
    - right. rewrite (proj1 (proj2 (element_of_spec tol i s)) X). reflexivity. }
  destruct D as [D|D]; [|rewrite D; reflexivity].
  assert (G : exists es, mapM (element_of tol i) ly = Ok es).
  { clear -D. induction D as [|s ly Hs Hl IHl]; [eexists; reflexivity|]. cbn [mapM]. destruct (proj1 (element_of_spec tol i s) Hs) as [e ->]. cbn [bind]. destruct IHl as [es ->]. eexists; reflexivity. }
  destruct G as [es ->]. cbn [bind]. rewrite IH; [reflexivity|]. intros F. apply H. apply Forall_app. split; [|exact F]. clear -D. induction D; constructor; auto.
Qed.
Lemma write_same fs n f : write_gds fs n f n = Some f.
Proof. unfold write_gds. rewrite String.eqb_refl. reflexivity. Qed.
Lemma write_only fs n f : only_changed fs (write_gds fs n f) n.
Proof. intros m Hm. unfold write_gds. rewrite (proj2 (String.eqb_neq m n) Hm). reflexivity. Qed.
Lemma gds_all_or_nothing gdspy fs layers name unit tol : let (fs', r) := generate_gds gdspy fs layers name unit tol in
  (r = Ok tt /\ gdspy = true /\ Forall (fun p => exportable (snd p)) (numbered 0 layers) /\ only_changed fs fs' name /\
     exists es, fs' name = Some (GdsFile unit es) /\ Forall2 (fun p e => element_of tol (fst p) (snd p) = Ok e) (numbered 0 layers) es) \/
  (fs' = fs /\ r = Raise (if gdspy then RuntimeError else NameError) /\ (gdspy = true -> ~ Forall (fun p => exportable (snd p)) (numbered 0 layers))).
Proof.
  unfold generate_gds. destruct gdspy; [|right; split; [reflexivity|split; [reflexivity|discriminate]]].
  assert (D : Forall (fun p => exportable (snd p)) (numbered 0 layers) \/ ~ Forall (fun p => exportable (snd p)) (numbered 0 layers)).
  { generalize (numbered 0 layers). induction l as [|p l IH]; [left; constructor|].
    assert (X : exportable (snd p) \/ ~ exportable (snd p)) by (destruct (snd p) as [[]| |]; cbn; tauto).
    destruct X as [X|X]; [|right; intros F; inversion F; contradiction]. destruct IH as [I|I]; [left; constructor; assumption|right; intros F; inversion F; contradiction]. }
  destruct D as [D|D].
  - destruct (cell_of_ok tol layers 0 D) as (es & E & F). rewrite E. left. split; [reflexivity|]. split; [reflexivity|]. split; [exact D|]. split; [apply write_only|].
    exists es. split; [apply write_same|exact F].
  - rewrite (cell_of_raise tol layers 0 D). right. auto.
Qed.
(** polygons built by the constructors are closed lists *)
Lemma combine_snoc (l l' : list R) x y : List.length l = List.length l' -> combine (l ++ [x]) (l' ++ [y]) = combine l l' ++ [(x, y)].
Proof. revert l'. induction l as [|a l IH]; intros [|b l'] E; cbn in E; try lia; [reflexivity|]. cbn [app combine]. f_equal. apply IH. lia. Qed.
Lemma poly_init_pts eps xs ys P : poly_init eps xs ys = Ok P -> xs <> [] /\ List.length xs = List.length ys /\ po_pts P = combine xs ys ++ [(hd 0 xs, hd 0 ys)].
Proof.
  unfold poly_init. destruct xs as [|x0 xs]; [discriminate|]. destruct ys as [|y0 ys]; [discriminate|]. destruct (Nat.eqb_spec (List.length (x0 :: xs)) (List.length (y0 :: ys))) as [E|]; [|discriminate].
  destruct (c_lt0 _); [discriminate|]. intros H. injection H as <-. split; [discriminate|]. split; [exact E|]. cbn [po_pts hd].
  exact (combine_snoc (x0 :: xs) (y0 :: ys) x0 y0 E).
Qed.
Lemma export_poly eps xs ys P tol i k : poly_init eps xs ys = Ok P -> exportable (GPoly k P) -> element_of tol i (GPoly k P) = Ok (ElPolygon (combine xs ys) i 1).
Proof.
  intros H Hk. destruct (poly_init_pts eps xs ys P H) as (_ & _ & E). assert (X : removelast (po_pts P) = combine xs ys).
  { rewrite E. rewrite removelast_app by discriminate. cbn. apply app_nil_r. }
  destruct k; cbn in Hk; try contradiction; cbn [element_of]; rewrite X; reflexivity.
Qed.
Lemma element_drawn tol i s e : element_of tol i s = Ok e -> has_points s -> drawn tol i s e.
Proof. intros H Hp. pose proof (proj2 (proj2 (element_of_spec tol i s)) e H) as D. destruct s; auto. Qed.
Lemma gds_drawn gdspy fs layers name unit tol : let (fs', r) := generate_gds gdspy fs layers name unit tol in
  (r = Ok tt /\ gdspy = true /\ Forall (fun p => exportable (snd p)) (numbered 0 layers) /\ only_changed fs fs' name /\
     exists es, fs' name = Some (GdsFile unit es) /\ Forall2 (fun p e => has_points (snd p) -> drawn tol (fst p) (snd p) e) (numbered 0 layers) es) \/
  (fs' = fs /\ r = Raise (if gdspy then RuntimeError else NameError) /\ (gdspy = true -> ~ Forall (fun p => exportable (snd p)) (numbered 0 layers))).
Proof.
  pose proof (gds_all_or_nothing gdspy fs layers name unit tol) as H. destruct (generate_gds gdspy fs layers name unit tol) as [fs' r].
  destruct H as [(H1 & H2 & H3 & H4 & es & H5 & H6)|H]; [left|right; exact H]. repeat split; auto. exists es. split; [exact H5|].
  clear -H6. induction H6 as [|p e l l' H H6 IH]; constructor; [intros Hp; apply element_drawn; assumption|exact IH].
Qed.
Lemma built_points k P : built k P -> has_points (GPoly k P).
Proof.
  assert (G : forall P eps xs ys, poly_init eps xs ys = Ok P -> po_pts P <> []).
  { clear. intros P eps xs ys H. destruct (poly_init_pts eps xs ys P H) as (_ & _ & ->). intros E. apply app_eq_nil in E. destruct E. discriminate. }
  intros [? ? ? ? H|? ? ? ? ? H|? ? ? ? ? H|? ? ? ? ? ? ? H]; cbn; [exact (G _ _ _ _ H)|exact (G _ _ _ _ H)|exact (G _ _ _ _ H)|].
  unfold fourier_init in H. destruct fa as [|a0 fas]; [discriminate|]. destruct (existsb _ _); [discriminate|]. exact (G _ _ _ _ H).
Qed.
