(** C18-C21: conjugate symmetry, polygon areas, rotation, translation. *)
From Coq Require Import Permutation.
From Verif Require Import Py LatticeSpec CBase PhcModel ShapesModel ShapesSpec.
Open Scope R_scope.
Open Scope list_scope.

(** ** cyclic lists *)
Lemma roll1_length {A} (l : list A) : List.length (roll1 l) = List.length l.
Proof. destruct l; simpl; auto. rewrite app_length; simpl; lia. Qed.
Lemma edges_length {A} (l : list A) : List.length (edges l) = List.length l.
Proof. unfold edges. rewrite combine_length, roll1_length, Nat.min_id; auto. Qed.
Lemma nth_roll1 {A} (l : list A) i d : (i < List.length l)%nat ->
  nth i (roll1 l) d = nth (S i mod List.length l) l d.
Proof.
  destruct l as [|x t]; simpl List.length; intros H; [lia|]. unfold roll1.
  destruct (Nat.eq_dec (S i) (S (List.length t))) as [E|E].
  - rewrite E, Nat.mod_same by lia. rewrite app_nth2 by lia.
    replace (i - List.length t)%nat with 0%nat by lia. auto.
  - rewrite Nat.mod_small by lia. rewrite app_nth1 by lia. auto.
Qed.
Lemma edges_nth (l : list (R * R)) i d : (i < List.length l)%nat ->
  nth i (edges l) d = (vert l i, vert l (S i)).
Proof.
  intros H. destruct d as [d1 d2]. unfold edges. rewrite combine_nth by (rewrite roll1_length; auto).
  unfold vert. rewrite Nat.mod_small by auto. f_equal; [apply nth_indep; auto|].
  rewrite nth_roll1 by auto. apply nth_indep. apply Nat.mod_upper_bound; lia.
Qed.
Lemma map_seq_nth {A B} (f : A -> B) (l : list A) d :
  map f l = map (fun i => f (nth i l d)) (seq 0 (List.length l)).
Proof.
  induction l as [|x t IH]; simpl; auto. f_equal. rewrite IH, <- seq_shift, map_map. auto.
Qed.
Lemma edges_verts {B} (f : (R * R) * (R * R) -> B) (l : list (R * R)) :
  map f (edges l) = map (fun i => f (vert l i, vert l (S i))) (seq 0 (List.length l)).
Proof.
  rewrite (map_seq_nth f (edges l) ((0,0),(0,0))), edges_length. apply map_ext_in.
  intros i Hi. apply in_seq in Hi. rewrite edges_nth by lia. auto.
Qed.
Lemma edges_map {A B} (f : A -> B) (l : list A) :
  edges (map f l) = map (fun e => (f (fst e), f (snd e))) (edges l).
Proof.
  unfold edges.
  assert (E : roll1 (map f l) = map f (roll1 l)) by (destruct l; simpl; auto; rewrite map_app; auto).
  rewrite E. generalize (roll1 l) as m. clear E. induction l; intros [|b m]; simpl; auto. f_equal; auto.
Qed.
(** closing a list adds one degenerate edge *)
Lemma combine_app_len {A B} (a : list A) (b : list B) a' b' : List.length a = List.length b ->
  combine (a ++ a') (b ++ b') = combine a b ++ combine a' b'.
Proof. revert b; induction a; destruct b; simpl; intros; try discriminate; auto. f_equal; auto. Qed.
Lemma edges_close {A} (x : A) t : edges ((x :: t) ++ [x]) = edges (x :: t) ++ [(x, x)].
Proof.
  unfold edges. change (roll1 ((x :: t) ++ [x])) with ((t ++ [x]) ++ [x]).
  rewrite combine_app_len by (rewrite app_length; simpl; lia). auto.
Qed.

Lemma rsuml_app l m : rsuml (l ++ m) = rsuml l + rsuml m.
Proof. induction l; simpl; [ring|unfold rsuml in *; simpl; rewrite IHl; ring]. Qed.
Lemma rsuml_plus {A} (f g : A -> R) l : rsuml (map (fun x => f x + g x) l) = rsuml (map f l) + rsuml (map g l).
Proof. induction l; unfold rsuml in *; simpl; [ring|rewrite IHl; ring]. Qed.
Lemma rsuml_scal {A} (f : A -> R) c l : rsuml (map (fun x => c * f x) l) = c * rsuml (map f l).
Proof. induction l; unfold rsuml in *; simpl; [ring|rewrite IHl; ring]. Qed.
Lemma rsuml_ext {A} (f g : A -> R) l : (forall x, In x l -> f x = g x) -> rsuml (map f l) = rsuml (map g l).
Proof. intros H. f_equal. apply map_ext_in; auto. Qed.
Lemma rsuml_perm l m : Permutation.Permutation l m -> rsuml l = rsuml m.
Proof. induction 1; unfold rsuml in *; simpl; try lra. Qed.

(** cyclic telescoping *)
Lemma edges_telescope {A} (f : A -> R) (l : list A) :
  rsuml (map (fun e => f (snd e) - f (fst e)) (edges l)) = 0.
Proof.
  destruct l as [|x t]; [auto|]. unfold edges, roll1.
  assert (G : forall t (x y : A), rsuml (map (fun e => f (snd e) - f (fst e)) (combine (x :: t) (t ++ [y]))) = f y - f x).
  { clear. induction t as [|z t IH]; intros x y; [unfold rsuml; simpl; ring|].
    change (combine (x :: z :: t) ((z :: t) ++ [y])) with ((x, z) :: combine (z :: t) (t ++ [y])).
    cbn [map]. unfold rsuml in *. simpl fold_right. simpl in IH. rewrite IH. simpl. ring. }
  rewrite G. ring.
Qed.

(** ** area *)
Lemma shoelace_signed vs : shoelace vs = 2 * signed_area vs.
Proof.
  unfold shoelace, signed_area. rewrite edges_verts. unfold det; simpl.
  rewrite <- Rmult_assoc, Rinv_r, Rmult_1_l by lra. auto.
Qed.
Lemma shoelace_close x t : shoelace ((x :: t) ++ [x]) = shoelace (x :: t).
Proof. unfold shoelace. rewrite edges_close, map_app, rsuml_app. unfold rsuml at 2. simpl. ring. Qed.
Lemma combine_close (xs ys : list R) x0 y0 xt yt : xs = x0 :: xt -> ys = y0 :: yt ->
  List.length xs = List.length ys ->
  combine (xs ++ [x0]) (ys ++ [y0]) = combine xs ys ++ [(x0, y0)].
Proof. intros -> -> H. rewrite combine_app_len by auto. auto. Qed.

Lemma ten10 : 0 < 1 / 10 ^ 10.
Proof. apply Rdiv_lt_0_compat; [lra|apply pow_lt; lra]. Qed.
Lemma poly_ft_0 rg pts : poly_ft rg pts (0, 0) = RtoC (shoelace pts / 2).
Proof.
  unfold poly_ft; cbn [fst snd]. rewrite Ropp_0, Rabs_R0.
  rewrite (proj2 (Rltb_true _ _) ten10). auto.
Qed.

Lemma poly_init_spec eps xs ys : xs <> [] -> List.length xs = List.length ys ->
  let vs := combine xs ys in
  (signed_area vs < 0 -> poly_init eps xs ys = Raise ValueError) /\
  (0 <= signed_area vs -> exists P, poly_init eps xs ys = Ok P /\
      po_eps P = eps /\ po_area P = signed_area vs /\
      exists p rest, vs = p :: rest /\ po_pts P = vs ++ [p]).
Proof.
  intros Hne Hl vs. destruct xs as [|x0 xt]; [congruence|]. destruct ys as [|y0 yt]; [discriminate|].
  unfold poly_init. rewrite Hl, Nat.eqb_refl.
  rewrite (combine_close (x0 :: xt) (y0 :: yt) x0 y0 xt yt) by auto.
  rewrite poly_ft_0. change (combine (x0 :: xt) (y0 :: yt)) with ((x0, y0) :: combine xt yt) in *.
  rewrite shoelace_close, shoelace_signed. subst vs. set (A := signed_area _).
  unfold c_lt0. cbn [fst snd RtoC]. replace (2 * A / 2) with A by field.
  split; intros H.
  - rewrite (proj2 (Rltb_true A 0) H). auto.
  - rewrite (proj2 (Rltb_false A 0) H). rewrite (proj2 (Rltb_false 0 0)) by lra. rewrite andb_false_r. simpl orb. cbn iota.
    eexists; split; [reflexivity|]. simpl. split; [auto|]. split; [unfold A; auto|]. eauto.
Qed.
Lemma poly_init_errors eps xs ys :
  (xs = [] \/ ys = [] -> poly_init eps xs ys = Raise IndexError) /\
  (xs <> [] -> ys <> [] -> List.length xs <> List.length ys -> poly_init eps xs ys = Raise ValueError).
Proof.
  split.
  - intros [->| ->]; simpl; auto. destruct xs; auto.
  - intros Hx Hy Hl. destruct xs, ys; try congruence. unfold poly_init.
    apply Nat.eqb_neq in Hl. rewrite Hl. auto.
Qed.

(** reversal, relabelling, translation *)
Definition crossl (e : (R * R) * (R * R)) := det (fst e) (snd e).
Lemma signed_edges vs : signed_area vs = / 2 * rsuml (map crossl (edges vs)).
Proof. unfold signed_area. rewrite edges_verts. auto. Qed.

Lemma edges_cycle_step {A} (x : A) t : Permutation.Permutation (edges (x :: t)) (edges (t ++ [x])).
Proof.
  destruct t as [|y t]; [simpl; auto|]. unfold edges, roll1.
  change (Permutation ((x, y) :: combine (y :: t) (t ++ [x])) (combine ((y :: t) ++ [x]) ((t ++ [x]) ++ [y]))).
  rewrite combine_app_len by (rewrite app_length; simpl; lia).
  cbn [combine]. apply Permutation.Permutation_cons_append.
Qed.
Lemma edges_cycle {A} (a b : list A) : Permutation.Permutation (edges (a ++ b)) (edges (b ++ a)).
Proof.
  revert b. induction a as [|x a IH]; intros b; simpl; [rewrite app_nil_r; auto|].
  eapply Permutation.perm_trans; [apply edges_cycle_step|]. rewrite <- app_assoc, IH.
  rewrite <- app_assoc. auto.
Qed.
Lemma signed_area_cycle a b : signed_area (a ++ b) = signed_area (b ++ a).
Proof.
  rewrite !signed_edges. f_equal. apply rsuml_perm, Permutation.Permutation_map, edges_cycle.
Qed.

Definition swap {A} (e : A * A) := (snd e, fst e).
Lemma combine_snoc_rev {A} (t : list A) x y :
  map swap (combine (x :: t) (t ++ [y])) = rev (combine (rev (t ++ [y])) (rev (x :: t))).
Proof.
  revert x y. induction t as [|z t IH]; intros x y; [reflexivity|].
  change (combine (x :: z :: t) ((z :: t) ++ [y])) with ((x, z) :: combine (z :: t) (t ++ [y])).
  cbn [map]. rewrite IH.
  change (rev ((z :: t) ++ [y])) with (rev (t ++ [y]) ++ [z]).
  change (rev (x :: z :: t)) with (rev (z :: t) ++ [x]).
  rewrite combine_app_len by (rewrite !rev_length, app_length; simpl; lia).
  rewrite (rev_app_distr (combine _ _)). reflexivity.
Qed.
Lemma edges_rev {A} (l : list A) : Permutation.Permutation (edges (rev l)) (map swap (edges l)).
Proof.
  destruct l as [|x t]; [simpl; auto|]. unfold edges at 2, roll1. rewrite combine_snoc_rev.
  eapply Permutation.perm_trans; [|apply Permutation.Permutation_rev].
  rewrite rev_app_distr. simpl. change (x :: rev t) with ([x] ++ rev t).
  eapply Permutation.perm_trans; [apply edges_cycle|]. 
  unfold edges. simpl. apply Permutation.Permutation_refl.
Qed.
Lemma signed_area_rev vs : signed_area (rev vs) = - signed_area vs.
Proof.
  rewrite !signed_edges. 
  rewrite (rsuml_perm _ _ (Permutation.Permutation_map crossl (edges_rev vs))), map_map.
  rewrite (rsuml_ext _ (fun e => -1 * crossl e)).
  - rewrite rsuml_scal. ring.
  - intros e _. unfold crossl, det, swap; simpl; ring.
Qed.
Lemma signed_area_shift t vs : signed_area (map (shift t) vs) = signed_area vs.
Proof.
  rewrite !signed_edges, edges_map, map_map. f_equal.
  pose (f := fun p : R * R => fst t * snd p - snd t * fst p).
  rewrite (rsuml_ext _ (fun e => crossl e + (f (snd e) - f (fst e)))).
  - rewrite rsuml_plus, (edges_telescope f). ring.
  - intros [p q] _. unfold crossl, det, shift, f; simpl. ring.
Qed.

(** ** the derived shapes *)
Lemma sqrt3_sq : sqrt 3 * sqrt 3 = 3. Proof. apply sqrt_sqrt; lra. Qed.
Lemma square_ok eps xc yc a : exists P, square_init eps xc yc a = Ok P /\ po_area P = a * a /\ po_eps P = eps.
Proof.
  unfold square_init. 
  destruct (poly_init_spec eps (map (fun d => xc + d) [- a / 2; a / 2; a / 2; - a / 2])
               (map (fun d => yc + d) [- a / 2; - a / 2; a / 2; a / 2])) as [_ H]; [discriminate|auto|].
  cbv zeta in H.
  assert (E : signed_area (combine (map (fun d => xc + d) [- a / 2; a / 2; a / 2; - a / 2])
                 (map (fun d => yc + d) [- a / 2; - a / 2; a / 2; a / 2])) = a * a).
  { unfold signed_area, vert, rsuml, det; simpl. field. }
  rewrite E in H. destruct H as (P & H1 & H2 & H3 & _); [nra|eauto].
Qed.
Lemma hexagon_ok eps xc yc a : exists P, hexagon_init eps xc yc a = Ok P /\
  po_area P = 3 * sqrt 3 / 2 * (a * a) /\ po_eps P = eps.
Proof.
  unfold hexagon_init. set (h := sqrt 3 / 2 * a).
  destruct (poly_init_spec eps (map (fun d => xc + d) [a; a / 2; - a / 2; - a; - a / 2; a / 2; a])
                (map (fun d => yc + d) [0; h; h; 0; - h; - h; 0])) as [_ H]; [discriminate|auto|].
  cbv zeta in H.
  assert (E : signed_area (combine (map (fun d => xc + d) [a; a / 2; - a / 2; - a; - a / 2; a / 2; a])
                (map (fun d => yc + d) [0; h; h; 0; - h; - h; 0])) = 3 * sqrt 3 / 2 * (a * a)).
  { unfold signed_area, vert, rsuml, det; simpl. unfold h. field. }
  rewrite E in H. destruct H as (P & H1 & H2 & H3 & _); [|eauto].
  pose proof (sqrt_pos 3). pose proof (Rle_0_sqr a). unfold Rsqr in *. nra.
Qed.
