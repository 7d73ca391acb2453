(** Calculus of complex curves; the linear primitives extend and spdot. *)
From Verif Require Import Py CBase RecipModel PrimSpec PrimModel.
Open Scope R_scope.
Open Scope list_scope.

(** ** derivatives of complex curves *)
Lemma dlim_near f g l : nearby (fun s => f s = g s) -> derivable_pt_lim f 0 l -> derivable_pt_lim g 0 l.
Proof.
  intros (d & Hd & E) H eps He. destruct (H eps He) as (del & Hdel).
  assert (Hm : 0 < Rmin d del) by (apply Rmin_pos; [auto|apply cond_pos]).
  exists (mkposreal _ Hm). intros h Hh Hlt. cbn [pos] in Hlt.
  rewrite <- (E (0 + h)), <- (E 0).
  - apply Hdel; auto. eapply Rlt_le_trans; [exact Hlt|]. apply Rmin_r.
  - rewrite Rabs_R0. auto.
  - rewrite Rplus_0_l. eapply Rlt_le_trans; [exact Hlt|]. apply Rmin_l.
Qed.
Lemma dlim_ext f g l : (forall s, f s = g s) -> derivable_pt_lim f 0 l -> derivable_pt_lim g 0 l.
Proof. intros E. apply dlim_near. exists 1. split; [lra|]. auto. Qed.
Lemma dlim_val f l l' : l = l' -> derivable_pt_lim f 0 l -> derivable_pt_lim f 0 l'.
Proof. intros ->; auto. Qed.
Lemma dlim_zero_quad f K d : 0 < d -> f 0 = 0 -> (forall s, Rabs s < d -> Rabs (f s) <= K * (s * s)) -> derivable_pt_lim f 0 0.
Proof.
  intros Hd F0 H eps He.
  assert (K0 : 0 <= Rabs K) by apply Rabs_pos.
  assert (Hm : 0 < Rmin d (eps / (Rabs K + 1))).
  { apply Rmin_pos; auto. apply Rdiv_lt_0_compat; lra. }
  exists (mkposreal _ Hm). intros h Hh Hlt. cbn [pos] in Hlt.
  rewrite Rplus_0_l, F0, !Rminus_0_r.
  assert (Hl1 : Rabs h < d) by (eapply Rlt_le_trans; [exact Hlt|apply Rmin_l]).
  assert (Hl2 : Rabs h < eps / (Rabs K + 1)) by (eapply Rlt_le_trans; [exact Hlt|apply Rmin_r]).
  pose proof (H h Hl1) as B. assert (P : 0 < Rabs h) by (apply Rabs_pos_lt; auto).
  unfold Rdiv. rewrite Rabs_mult, Rabs_inv.
  apply (Rmult_lt_reg_r (Rabs h)); auto. rewrite Rmult_assoc, Rinv_l, Rmult_1_r by lra.
  assert (E : h * h = Rabs h * Rabs h) by (destruct (Rcase_abs h); [rewrite Rabs_left|rewrite Rabs_right]; auto; nra).
  rewrite E in B. apply (Rle_lt_trans _ (Rabs K * (Rabs h * Rabs h))).
  { eapply Rle_trans; [exact B|]. apply Rmult_le_compat_r; [nra|apply Rle_abs]. }
  apply (Rmult_lt_compat_r (Rabs K + 1)) in Hl2; [|lra]. unfold Rdiv in Hl2. rewrite Rmult_assoc, Rinv_l in Hl2 by lra. nra.
Qed.

Lemma cderiv_val z a b : a = b -> cderiv z a -> cderiv z b.
Proof. intros ->; auto. Qed.
Lemma cderiv_near z z' a : nearby (fun s => z s = z' s) -> cderiv z a -> cderiv z' a.
Proof.
  intros (d & Hd & E) (H1 & H2). split; (eapply dlim_near; [|eassumption]); exists d; split; auto; intros; rewrite E; auto.
Qed.
Lemma cderiv_ext z z' a : (forall s, z s = z' s) -> cderiv z a -> cderiv z' a.
Proof. intros E. apply cderiv_near. exists 1. split; [lra|auto]. Qed.
Lemma cderiv_const c : cderiv (fun _ => c) (RtoC 0).
Proof. split; apply (derivable_pt_lim_const _ 0). Qed.
Lemma cderiv_plus z w a b : cderiv z a -> cderiv w b -> cderiv (fun s => Cplus (z s) (w s)) (Cplus a b).
Proof. intros (A1 & A2) (B1 & B2). split; cbn [fst snd Cplus]; [apply (derivable_pt_lim_plus _ _ 0 _ _ A1 B1)|apply (derivable_pt_lim_plus _ _ 0 _ _ A2 B2)]. Qed.
Lemma cderiv_opp z a : cderiv z a -> cderiv (fun s => Copp (z s)) (Copp a).
Proof. intros (A1 & A2). split; cbn [fst snd Copp]; [apply (derivable_pt_lim_opp _ 0 _ A1)|apply (derivable_pt_lim_opp _ 0 _ A2)]. Qed.
Lemma cderiv_minus z w a b : cderiv z a -> cderiv w b -> cderiv (fun s => Cminus (z s) (w s)) (Cminus a b).
Proof. intros A B. apply (cderiv_plus z (fun s => Copp (w s)) a (Copp b)); auto. apply cderiv_opp; auto. Qed.
Lemma cderiv_conj z a : cderiv z a -> cderiv (fun s => Cconj (z s)) (Cconj a).
Proof. intros (A1 & A2). split; cbn [fst snd Cconj]; [auto|apply (derivable_pt_lim_opp _ 0 _ A2)]. Qed.
Lemma cderiv_mult z w a b : cderiv z a -> cderiv w b -> cderiv (fun s => Cmult (z s) (w s)) (Cplus (Cmult a (w 0)) (Cmult (z 0) b)).
Proof.
  intros (A1 & A2) (B1 & B2). split; cbn [fst snd Cplus Cmult].
  - eapply dlim_val; [|exact (derivable_pt_lim_minus _ _ 0 _ _ (derivable_pt_lim_mult _ _ 0 _ _ A1 B1) (derivable_pt_lim_mult _ _ 0 _ _ A2 B2))]. cbn. ring.
  - eapply dlim_val; [|exact (derivable_pt_lim_plus _ _ 0 _ _ (derivable_pt_lim_mult _ _ 0 _ _ A1 B2) (derivable_pt_lim_mult _ _ 0 _ _ A2 B1))]. cbn. ring.
Qed.
Lemma cderiv_scal c z a : cderiv z a -> cderiv (fun s => Cmult c (z s)) (Cmult c a).
Proof. intros A. eapply cderiv_val; [|apply (cderiv_mult (fun _ => c) z (RtoC 0) a); [apply cderiv_const|auto]]. cbn beta. ring. Qed.
Lemma cderiv_csum n Z dZ : (forall i, (i < n)%nat -> cderiv (fun s => Z s i) (dZ i)) -> cderiv (fun s => csum n (Z s)) (csum n dZ).
Proof.
  induction n; intros H; [apply (cderiv_const (RtoC 0))|]. cbn [csum]. apply (cderiv_plus (fun s => csum n (Z s)) (fun s => Z s n)); auto.
Qed.
Lemma cderiv_RtoC f l : derivable_pt_lim f 0 l -> cderiv (fun s => RtoC (f s)) (RtoC l).
Proof. intros H. split; cbn [fst snd RtoC]; [auto|apply (derivable_pt_lim_const 0 0)]. Qed.
Lemma cderiv_unique z a b : cderiv z a -> cderiv z b -> a = b.
Proof. intros (A1 & A2) (B1 & B2). apply Ceq; eapply uniqueness_limite; eauto. Qed.
Lemma cderiv_fst z a : cderiv z a -> derivable_pt_lim (fun s => fst (z s)) 0 (fst a).
Proof. intros (H & _); auto. Qed.

(** a fixed covector paired with a curve *)
Lemma pair1_curve n g X dX : curve1 n X dX -> derivable_pt_lim (fun s => pair1 n g (X s)) 0 (pair1 n g dX).
Proof.
  intros H. unfold pair1. apply (cderiv_fst (fun s => csum n (fun i => Cmult (g i) (X s i)))).
  apply (cderiv_csum n (fun s i => Cmult (g i) (X s i))). intros i Hi. apply cderiv_scal. auto.
Qed.
Lemma pair2_curve n m g X dX : curve2 n m X dX -> derivable_pt_lim (fun s => pair2 n m g (X s)) 0 (pair2 n m g dX).
Proof.
  intros H. unfold pair2. apply (cderiv_fst (fun s => csum n (fun i => csum m (fun j => Cmult (g i j) (X s i j))))).
  apply (cderiv_csum n (fun s i => csum m (fun j => Cmult (g i j) (X s i j)))). intros i Hi.
  apply (cderiv_csum m (fun s j => Cmult (g i j) (X s i j))). intros j Hj. apply cderiv_scal. auto.
Qed.

(** ** extend *)
Lemma put_length {A} (l : list A) i x : List.length (put l i x) = List.length l.
Proof. revert i; induction l; intros [|i]; simpl; auto. Qed.
Lemma nth_put {A} (l : list A) i x j d : (i < List.length l)%nat -> nth j (put l i x) d = if Nat.eqb j i then x else nth j l d.
Proof.
  revert i j; induction l as [|a l IH]; intros i j H; simpl in H; [lia|].
  destruct i, j; simpl; auto. apply IH. lia.
Qed.
Lemma position_lt n z i : position n z = Ok i -> (i < n)%nat.
Proof.
  unfold position. destruct (Z.leb_spec 0 z), (Z.ltb_spec z (Z.of_nat n)); cbn [andb].
  1:{ intros E; inversion E. lia. }
  all: destruct (Z.leb_spec (- Z.of_nat n) z), (Z.ltb_spec z 0); cbn [andb]; intros E; inversion E; lia.
Qed.
Definition stores (pv : list (nat * C)) (z : list C) : list C := fold_left (fun z iv => put z (fst iv) (snd iv)) pv z.
Lemma stores_length pv z : List.length (stores pv z) = List.length z.
Proof. revert z; induction pv; intros z; simpl; auto. rewrite IHpv, put_length. auto. Qed.
Lemma stores_pair ps vals z g : List.length ps = List.length vals -> NoDup ps -> (forall i, In i ps -> (i < List.length z)%nat) ->
  (forall i, In i ps -> nth i z (RtoC 0) = RtoC 0) ->
  csum (List.length z) (fun i => Cmult (g i) (nth i (stores (combine ps vals) z) (RtoC 0))) =
  Cplus (csum (List.length z) (fun i => Cmult (g i) (nth i z (RtoC 0))))
        (csum (List.length ps) (fun k => Cmult (g (nth k ps 0%nat)) (nth k vals (RtoC 0)))).
Proof.
  revert vals z. induction ps as [|p ps IH]; intros [|v vals] z L ND B Z; simpl in L; try discriminate.
  - simpl. ring.
  - inversion ND as [|? ? Hn ND']; subst. cbn [combine]. unfold stores. cbn [fold_left fst snd]. fold (stores (combine ps vals) (put z p v)).
    rewrite <- (put_length z p v). rewrite IH; [|lia|auto|intros; rewrite put_length; apply B; right; auto|].
    2:{ intros i I. rewrite nth_put by (apply B; left; auto). destruct (Nat.eqb_spec i p) as [->|]; [contradiction|]. apply Z; right; auto. }
    rewrite put_length. cbn [List.length]. rewrite csum_first. cbn [nth]. rewrite Cplus_assoc. f_equal.
    rewrite <- (csum_delta (List.length z) p (Cmult (g p) v)) by (apply B; left; auto).
    rewrite <- csum_plus. apply csum_ext. intros i Hi. rewrite nth_put by (apply B; left; auto).
    destruct (Nat.eqb_spec i p) as [->|]; [|ring]. rewrite Z by (left; auto). ring.
Qed.
Lemma nth_repeat' {A} (x : A) n i : nth i (repeat x n) x = x.
Proof. revert i; induction n; intros [|i]; simpl; auto. Qed.
Lemma vjp_extend_ok inds g ps : mapM (position (List.length g)) inds = Ok ps ->
  vjp_extend inds g = Ok (map (fun i => nth i g (RtoC 0)) ps).
Proof.
  unfold vjp_extend, getz. revert ps. induction inds as [|z t IH]; intros ps H.
  - inversion H. reflexivity.
  - cbn [mapM] in *. destruct (position (List.length g) z) as [i|]; [|discriminate]. cbn [bind] in *.
    destruct (mapM _ t) as [is|]; [|discriminate]. cbn [bind] in H. inversion H; subst.
    rewrite (IH is eq_refl). reflexivity.
Qed.
Lemma broadcast_id vals n : List.length vals = n -> broadcast vals n = vals.
Proof. intros <-. destruct vals as [|v [|w vals]]; reflexivity. Qed.
Lemma extend_pair vals inds m ps g : List.length vals = List.length inds -> mapM (position m) inds = Ok ps -> NoDup ps -> List.length g = m ->
  exists z w, extend vals inds m = Ok z /\ List.length z = m /\ vjp_extend inds g = Ok w /\ List.length w = List.length vals /\
    pair1 (List.length vals) (entries w) (entries vals) = pair1 m (entries g) (entries z).
Proof.
  intros L P ND G. pose proof (mapM_ok_length _ _ _ P) as LP.
  exists (stores (combine ps vals) (repeat (RtoC 0) m)), (map (fun i => nth i g (RtoC 0)) ps).
  split; [unfold extend; rewrite broadcast_id by exact L; rewrite L, Nat.eqb_refl; cbn [negb]; rewrite P; reflexivity|].
  split; [rewrite stores_length, repeat_length; auto|].
  split; [apply vjp_extend_ok; rewrite G; auto|]. split; [rewrite map_length; lia|].
  unfold pair1. f_equal.
  pose proof (stores_pair ps vals (repeat (RtoC 0) m) (entries g)) as S. rewrite repeat_length in S. symmetry. etransitivity; [apply S; auto; try lia; try (intros; apply nth_repeat')|].
  - intros i I. apply (In_nth _ _ 0%nat) in I. destruct I as (k & Hk & <-).
    assert (X : exists z, nth_error inds k = Some z) by (destruct (nth_error inds k) eqn:E; [eauto|]; apply nth_error_None in E; lia).
    destruct X as (z & E). destruct (mapM_ok_nth _ _ _ P k z E) as (y & Hy & Hn).
    apply nth_error_nth with (d := 0%nat) in Hn. rewrite Hn. apply (position_lt _ _ _ Hy).
  - rewrite (csum_0 m) by (intros; rewrite nth_repeat'; ring). rewrite Cplus_0_l. rewrite LP, L. symmetry. apply csum_ext.
    intros k Hk. unfold entries. f_equal. rewrite (nth_indep _ (RtoC 0) (nth 0 g (RtoC 0))) by (rewrite map_length; lia).
    apply (map_nth (fun i => nth i g (RtoC 0))).
Qed.
Lemma extend_adjoint (vals : R -> list C) dvals inds m ps g : lcurve (List.length inds) vals dvals ->
  mapM (position m) inds = Ok ps -> NoDup ps -> List.length g = m ->
  exists Z w, (forall s, extend (vals s) inds m = Ok (Z s)) /\ vjp_extend inds g = Ok w /\
    derivable_pt_lim (fun s => pair1 m (entries g) (entries (Z s))) 0 (pair1 (List.length inds) (entries w) (entries dvals)).
Proof.
  intros (L & Ld & H) P ND G.
  set (Z s := stores (combine ps (vals s)) (repeat (RtoC 0) m)). set (w := map (fun i => nth i g (RtoC 0)) ps).
  assert (F : forall s, extend (vals s) inds m = Ok (Z s) /\ vjp_extend inds g = Ok w /\
     pair1 (List.length inds) (entries w) (entries (vals s)) = pair1 m (entries g) (entries (Z s))).
  { intros s. destruct (extend_pair (vals s) inds m ps g) as (z & w' & E1 & E2 & E3 & E4 & E5); auto.
    assert (z = Z s) by (unfold extend in E1; rewrite broadcast_id in E1 by apply L; rewrite L, Nat.eqb_refl in E1; cbn [negb] in E1; rewrite P in E1; cbn [bind] in E1; inversion E1; reflexivity).
    assert (w' = w) by (rewrite (vjp_extend_ok inds g ps) in E3 by (rewrite G; auto); inversion E3; reflexivity).
    subst z w'. rewrite L in E5. auto. }
  exists Z, w. split; [intros; apply F|]. split; [apply (F 0)|].
  eapply dlim_ext; [intros s; apply (F s)|]. apply (pair1_curve _ _ (fun s => entries (vals s))). auto.
Qed.

Lemma position_ok n z : (- Z.of_nat n <= z < Z.of_nat n)%Z -> exists i, position n z = Ok i /\ (i < n)%nat.
Proof.
  intros H. unfold position. destruct (Z.leb_spec 0 z), (Z.ltb_spec z (Z.of_nat n)); cbn [andb]; try lia; [exists (Z.to_nat z); split; [reflexivity|lia]|].
  destruct (Z.leb_spec (- Z.of_nat n) z), (Z.ltb_spec z 0); cbn [andb]; try lia. eexists. split; [reflexivity|lia].
Qed.
Lemma position_bad n z : ~ (- Z.of_nat n <= z < Z.of_nat n)%Z -> position n z = Raise IndexError.
Proof.
  intros H. unfold position. destruct (Z.leb_spec 0 z), (Z.ltb_spec z (Z.of_nat n)); cbn [andb]; try lia; try reflexivity;
    destruct (Z.leb_spec (- Z.of_nat n) z), (Z.ltb_spec z 0); cbn [andb]; try lia; reflexivity.
Qed.
Lemma positions_ok n l : Forall (fun z => (- Z.of_nat n <= z < Z.of_nat n)%Z) l -> exists ps, mapM (position n) l = Ok ps.
Proof.
  induction 1 as [|z l H _ [ps IH]]; [now exists []|]. destruct (position_ok n z H) as (i & E & _). exists (i :: ps). cbn [mapM]. rewrite E, IH. reflexivity.
Qed.
Lemma positions_bad n l : ~ Forall (fun z => (- Z.of_nat n <= z < Z.of_nat n)%Z) l -> mapM (position n) l = Raise IndexError.
Proof.
  induction l as [|z l IH]; intros H; [contradiction H; constructor|]. cbn [mapM].
  destruct (Z_le_dec (- Z.of_nat n) z); [destruct (Z_lt_dec z (Z.of_nat n))|].
  - destruct (position_ok n z) as (i & E & _); [lia|]. rewrite E. cbn [bind]. rewrite IH; [reflexivity|]. intros F. apply H. constructor; [lia|exact F].
  - rewrite position_bad by lia. reflexivity.
  - rewrite position_bad by lia. reflexivity.
Qed.
Lemma broadcast_len vals n : List.length (broadcast vals n) = n <-> List.length vals = n \/ List.length vals = 1%nat.
Proof. destruct vals as [|v [|w vals]]; cbn [broadcast List.length]; [lia|rewrite repeat_length; lia|lia]. Qed.
Lemma extend_total vals inds m :
  (~ (List.length vals = List.length inds \/ List.length vals = 1%nat) -> extend vals inds m = Raise ValueError) /\
  ((List.length vals = List.length inds \/ List.length vals = 1%nat) ->
    (~ Forall (fun z => (- Z.of_nat m <= z < Z.of_nat m)%Z) inds -> extend vals inds m = Raise IndexError) /\
    (Forall (fun z => (- Z.of_nat m <= z < Z.of_nat m)%Z) inds -> exists z, extend vals inds m = Ok z /\ List.length z = m)).
Proof.
  unfold extend. split; [intros H|intros H].
  - rewrite <- broadcast_len in H. apply Nat.eqb_neq in H. now rewrite H.
  - apply broadcast_len, Nat.eqb_eq in H. rewrite H. cbn [negb]. split; intros F.
    + now rewrite positions_bad.
    + destruct (positions_ok m inds F) as (ps & ->). cbn [bind]. eexists. split; [reflexivity|]. clear.
      assert (G : forall l z, List.length (fold_left (fun z (iv : nat * C) => put z (fst iv) (snd iv)) l z) = List.length z).
      { induction l as [|a l IH]; intros z; cbn [fold_left]; [reflexivity|]. rewrite IH. apply put_length. }
      rewrite G. apply repeat_length.
Qed.
(** a single value for several places *)
Lemma extend_single v inds m ps : mapM (position m) inds = Ok ps -> exists z, extend [v] inds m = Ok z /\ forall k, (k < m)%nat -> nth k z (RtoC 0) = if existsb (Nat.eqb k) ps then v else RtoC 0.
Proof.
  intros H. unfold extend. rewrite (proj2 (broadcast_len [v] (List.length inds))) by now right. rewrite Nat.eqb_refl, H. cbn [negb bind broadcast]. eexists. split; [reflexivity|]. intros k Hk.
  assert (L : List.length ps = List.length inds). { clear - H. revert ps H. induction inds as [|z l IH]; intros ps H; [now inversion H|]. cbn [mapM] in H. destruct (position m z); [|discriminate]. cbn [bind] in H. destruct (mapM (position m) l); [|discriminate]. inversion H; subst. cbn. now rewrite IH. }
  rewrite <- L. clear H L inds.
  assert (P : forall (l : list C) i x, (k < List.length l)%nat -> nth k (put l i x) (RtoC 0) = if Nat.eqb k i then x else nth k l (RtoC 0)).
  { clear. revert k. intros k l. revert k. induction l as [|y l IH]; intros k i x Hk; [inversion Hk|]. destruct k as [|k], i as [|i]; cbn [put nth Nat.eqb]; try reflexivity. apply IH. cbn in Hk. lia. }
  assert (G : forall ps l, List.length l = m -> nth k (fold_left (fun z (iv : nat * C) => put z (fst iv) (snd iv)) (combine ps (repeat v (List.length ps))) l) (RtoC 0) = if existsb (Nat.eqb k) ps then v else nth k l (RtoC 0)).
  { induction ps0 as [|p q IH]; intros l Hl; [reflexivity|]. cbn [List.length repeat combine fold_left existsb fst snd]. rewrite IH by now rewrite put_length. rewrite P by lia. destruct (Nat.eqb k p), (existsb (Nat.eqb k) q); reflexivity. }
  rewrite G by apply repeat_length. rewrite nth_repeat. reflexivity.
Qed.

(** ** spdot *)
Lemma spdot_pair m n c S g B : pair2 n c (vjp_spdot m S g) B = pair2 m c g (spdot n S B).
Proof.
  unfold pair2, vjp_spdot, spdot, mmul, mtr. f_equal.
  transitivity (csum n (fun i => csum c (fun j => csum m (fun k => Cmult (Cmult (S k i) (g k j)) (B i j))))).
  { apply csum_ext. intros i _. apply csum_ext. intros j _. rewrite csum_scal_r. auto. }
  transitivity (csum m (fun k => csum c (fun j => csum n (fun i => Cmult (Cmult (S k i) (g k j)) (B i j))))).
  { rewrite (csum_ext n _ (fun i => csum m (fun k => csum c (fun j => Cmult (Cmult (S k i) (g k j)) (B i j))))) by (intros; apply csum_swap).
    rewrite csum_swap. apply csum_ext. intros k _. apply csum_swap. }
  apply csum_ext. intros k _. apply csum_ext. intros j _. rewrite <- csum_scal_l. apply csum_ext. intros. ring.
Qed.
Lemma spdot_adjoint m n c S g B dB : curve2 n c B dB ->
  derivable_pt_lim (fun s => pair2 m c g (spdot n S (B s))) 0 (pair2 n c (vjp_spdot m S g) dB).
Proof. intros H. eapply dlim_ext; [intros s; apply spdot_pair|]. apply pair2_curve. auto. Qed.
