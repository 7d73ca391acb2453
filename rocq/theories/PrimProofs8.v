(** Concrete curves for the examples in PrimProps, and the lists of the solvers. *)
From Coquelicot Require Import Coquelicot.
From Verif Require Import Py CBase LatticeModel LatticeSpec RecipModel RecipSpec RecipProofs RecipProofs3 PrimSpec PrimModel PrimProofs PrimProofs2 PrimProofs3 PrimProofs4 PrimProofs5 PrimProofs6.
Open Scope R_scope.
Open Scope list_scope.

Lemma solver_lists L gmax ft : 0 <= gmax -> independent (lt_b1 L) (lt_b2 L) -> conj_symmetric ft ->
  exists n1 n2, rc_n1 (recip_tbt L gmax) = Z.of_nat n1 /\ rc_n2 (recip_tbt L gmax) = Z.of_nat n2 /\ (0 < n1)%nat /\ (0 < n2)%nat /\
    consistent n1 n2 (map ft (G1_of (rc_g (recip_tbt L gmax)))) (map ft (G2_of (rc_g (recip_tbt L gmax)) n1 n2)).
Proof.
  intros Hg Hi Hc. destruct (recip_tbt_form L gmax Hg Hi) as (n1 & n2 & _ & _ & G & N1 & N2 & _).
  exists (2 * n1 + 1)%nat, (2 * n2 + 1)%nat. repeat (split; [auto; lia|]). apply (tbt_consistent (lt_b1 L) (lt_b2 L) n1 n2 ft (recip_tbt L gmax)); auto.
Qed.

Ltac dlim := apply is_derive_Reals; auto_derive; auto; cbn; ring.
Lemma line_deriv a b : cderiv (fun s => Cplus a (Cmult (RtoC s) b)) b.
Proof. split; cbn; dlim. Qed.
(** the straight line through l0 with velocity l *)
Definition line (l0 l : list C) (s : R) : list C := map (fun ab => Cplus (fst ab) (Cmult (RtoC s) (snd ab))) (combine l0 l).
Lemma line_curve l0 l : List.length l0 = List.length l -> lcurve (List.length l) (line l0 l) l.
Proof.
  intros E. split; [intros; unfold line; rewrite map_length, combine_length; lia|]. split; auto. intros i Hi.
  assert (N : forall s, entries (line l0 l s) i = Cplus (nth i l0 (RtoC 0)) (Cmult (RtoC s) (nth i l (RtoC 0)))).
  { intros s. unfold entries, line. rewrite (nth_indep _ (RtoC 0) ((fun ab => Cplus (fst ab) (Cmult (RtoC s) (snd ab))) (RtoC 0, RtoC 0))) by (rewrite map_length, combine_length; lia).
    rewrite (map_nth (fun ab => Cplus (fst ab) (Cmult (RtoC s) (snd ab)))), combine_nth by auto. reflexivity. }
  pose proof (line_deriv (nth i l0 (RtoC 0)) (nth i l (RtoC 0))) as [D1 D2]. split; (eapply dlim_ext; [|first [exact D1|exact D2]]; intros s; rewrite N; reflexivity).
Qed.
(** a shear and its inverse *)
Definition shear (s : R) : cmat := fun i j => if Nat.eqb i j then RtoC 1 else if Nat.ltb i j then RtoC s else RtoC 0.
Definition dshear : cmat := fun i j => if Nat.ltb i j then RtoC 1 else RtoC 0.
Lemma shear_curve : curve2 2 2 shear dshear.
Proof. intros i j Hi Hj. destruct i as [|[|i]]; [| |lia]; (destruct j as [|[|j]]; [| |lia]); split; cbn; dlim. Qed.
Lemma shear_inv : nearby (fun s => inverse_of 2 (shear s) (shear (- s))).
Proof.
  exists 1. split; [lra|]. intros s _. split; intros i j Hi Hj; (destruct i as [|[|i]]; [| |lia]); (destruct j as [|[|j]]; [| |lia]); apply injective_projections; cbn; ring.
Qed.
(** the projector on the second column of a rotation *)
Definition rot (s : R) : cmat := fun i j => RtoC (match i, j with 0%nat, 0%nat => cos s | 0%nat, _ => - sin s | _, 0%nat => sin s | _, _ => cos s end).
Definition drot : cmat := fun i j => RtoC (match i, j with 0%nat, 0%nat => 0 | 0%nat, _ => -1 | _, 0%nat => 1 | _, _ => 0 end).
Definition proj (s : R) : cmat := fun i j => RtoC (match i, j with 0%nat, 0%nat => sin s * sin s | 0%nat, _ => - (sin s * cos s) | _, 0%nat => - (sin s * cos s) | _, _ => cos s * cos s end).
Definition dproj : cmat := fun i j => RtoC (match i, j with 0%nat, 0%nat => 0 | 0%nat, _ => -1 | _, 0%nat => -1 | _, _ => 0 end).
Definition pw (s : R) (j : nat) : R := match j with 0%nat => 0 | _ => 1 end.
Ltac dlim0 := apply is_derive_Reals; auto_derive; auto; cbn; rewrite ?sin_0, ?cos_0; ring.
Lemma rot_curve : curve2 2 2 rot drot.
Proof. intros i j Hi Hj. destruct i as [|[|i]]; [| |lia]; (destruct j as [|[|j]]; [| |lia]); split; cbn; dlim0. Qed.
Lemma proj_curve : curve2 2 2 proj dproj.
Proof. intros i j Hi Hj. destruct i as [|[|i]]; [| |lia]; (destruct j as [|[|j]]; [| |lia]); split; cbn; dlim0. Qed.
Lemma sc s : sin s * sin s + cos s * cos s = 1.
Proof. pose proof (sin2_cos2 s). unfold Rsqr in *. lra. Qed.
Lemma rot_pairs (low : bool) : nearby (fun s => eigenpairs 2 2 (if low then herm_low (proj s) else herm_up (proj s)) (pw s) (rot s)).
Proof.
  exists 1. split; [lra|]. intros s _. pose proof (sc s) as E. set (a := sin s) in *. set (b := cos s) in *.
  split; intros i j Hi Hj; (destruct i as [|[|i]]; [| |lia]); (destruct j as [|[|j]]; [| |lia]); destruct low; apply injective_projections; cbn; fold a b; try ring; try nra.
  all: try (transitivity (b * (a * a + b * b)); [ring|rewrite E; ring]).
  all: try (transitivity (- a * (a * a + b * b)); [ring|rewrite E; ring]).
Qed.
Lemma rot_pairs' k : (k <= 2)%nat -> nearby (fun s => eigenpairs 2 k (proj s) (pw s) (rot s)).
Proof.
  intros Hk. exists 1. split; [lra|]. intros s _. pose proof (sc s) as E. set (a := sin s) in *. set (b := cos s) in *.
  split; intros i j Hi Hj; (destruct i as [|[|i]]; [| |lia]); (destruct j as [|[|j]]; [| |lia]); apply injective_projections; cbn; fold a b; try ring; try nra.
  all: try (transitivity (b * (a * a + b * b)); [ring|rewrite E; ring]).
  all: try (transitivity (- a * (a * a + b * b)); [ring|rewrite E; ring]).
Qed.
Lemma rot_phase j vg : (j < 2)%nat -> phase_ok 2 (fun i => rot 0 i j) (fun i => drot i j) vg.
Proof. intros Hj. left. destruct j as [|[|j]]; [| |lia]; apply injective_projections; cbn; rewrite ?sin_0, ?cos_0; ring. Qed.
Lemma parab_partials : partials 1 (fun x y => x * x - y 0%nat) 1 (fun _ => 1) 2 (fun i => nth i [-1] 0).
Proof.
  intros e He. exists e. split; auto. intros x y Hx _. unfold rsumf, rsuml. cbn [map seq fold_right nth].
  replace (x * x - y 0%nat - (1 * 1 - 1) - 2 * (x - 1) - (-1 * (y 0%nat - 1) + 0)) with ((x - 1) * (x - 1)) by ring.
  rewrite Rabs_mult. pose proof (Rabs_pos (x - 1)). pose proof (Rabs_pos (y 0%nat - 1)). nra.
Qed.

(** ** failures of extend and interp *)
Lemma vjp_extend_len inds g w : vjp_extend inds g = Ok w -> List.length w = List.length inds.
Proof.
  unfold vjp_extend. revert w. induction inds as [|z l IH]; intros w H; [now inversion H|]. cbn [mapM] in H. destruct (getz (RtoC 0) g z); [|discriminate]. cbn [bind] in H.
  destruct (mapM (getz (RtoC 0) g) l); [|discriminate]. inversion H; subst. cbn. now rewrite IH.
Qed.
Lemma interp_scan_last x : forall xp yp x0 y0, List.length xp = List.length yp -> (forall a, In a xp -> a <= x) -> interp_scan x0 y0 xp yp x = last yp y0.
Proof.
  induction xp as [|a xp IH]; intros [|b yp] x0 y0 L H; try discriminate; [reflexivity|]. cbn [interp_scan]. unfold Rleb. destruct (Rle_dec a x) as [_|n]; [|exfalso; apply n, H; now left].
  rewrite IH; [|now inversion L|intros c Hc; apply H; now right]. clear. revert b. induction yp as [|c yp IH]; intros b; [reflexivity|]. cbn [last] in *. destruct yp; [reflexivity|]. apply IH.
Qed.
Lemma last_any {A} (l : list A) x d d' : last (x :: l) d = last (x :: l) d'.
Proof. revert x. induction l as [|y l IH]; intros x; [reflexivity|]. change (last (y :: l) d = last (y :: l) d'). apply IH. Qed.
Lemma last_cons {A} (l : list A) x d : last (x :: l) d = last l x.
Proof. revert x. induction l as [|y l IH]; intros x; [reflexivity|]. change (last (y :: l) d = last (y :: l) x). apply last_any. Qed.
Lemma interp_total x xp yp : (interp x xp yp = Raise ValueError <-> xp = [] \/ List.length xp <> List.length yp) /\
  (xp <> [] -> List.length xp = List.length yp -> exists z, interp x xp yp = Ok z /\ List.length z = List.length x /\
    forall i, (i < List.length x)%nat ->
      (nth i x 0 < nth 0 xp 0 -> nth i z (RtoC 0) = nth 0 yp (RtoC 0)) /\
      ((forall a, In a xp -> a <= nth i x 0) -> nth i z (RtoC 0) = last yp (RtoC 0))).
Proof.
  unfold interp. split.
  - destruct (Nat.eqb_spec (List.length xp) (List.length yp)), xp as [|a xp]; cbn [List.length Nat.eqb orb negb]; split; intros H; try reflexivity; try (now left); try (now right); try discriminate H.
    destruct H as [H|H]; [discriminate H|contradiction].
  - intros Hx L. apply Nat.eqb_eq in L. rewrite L. apply Nat.eqb_eq in L. destruct xp as [|a xp]; [contradiction|]. destruct yp as [|b yp]; [discriminate|]. cbn [List.length Nat.eqb orb negb].
    eexists. split; [reflexivity|]. split; [apply map_length|]. intros i Hi. rewrite (nth_indep _ (RtoC 0) (interp1 (a :: xp) (b :: yp) 0)) by now rewrite map_length. rewrite map_nth.
    cbn [interp1 nth]. split; intros H.
    + unfold Rltb. destruct (Rlt_dec (nth i x 0) a); [reflexivity|lra].
    + unfold Rltb. destruct (Rlt_dec (nth i x 0) a) as [C|_]; [exfalso; specialize (H a (or_introl eq_refl)); lra|]. rewrite last_cons. apply interp_scan_last; [now inversion L|]. intros c Hc. apply H. now right.
Qed.
