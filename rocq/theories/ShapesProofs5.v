(** C22, second half: the code's edge terms against the exact ones. *)
From Coq Require Import Permutation.
From Verif Require Import Py LatticeSpec CBase PhcModel ShapesModel ShapesSpec ShapesProofs ShapesProofs2 CInt ShapesProofs4.
From Coquelicot Require Import Hierarchy RInt Derive AutoDerive Continuity Complex.
Open Scope R_scope.
Open Scope list_scope.

Lemma term_gx_close rg gx gy p : term_gx rg gx gy (p, p) = RtoC 0.
Proof. unfold term_gx. cbn [fst snd]. cbv zeta. ring. Qed.
Lemma term_gx0_close rg gx gy p : term_gx0 rg gx gy (p, p) = RtoC 0.
Proof. unfold term_gx0. cbn [fst snd]. cbv zeta. ring. Qed.
Lemma poly_ft_close rg p t g : poly_ft rg ((p :: t) ++ (p :: nil)) g = poly_ft rg (p :: t) g.
Proof.
  unfold poly_ft. rewrite shoelace_close, edges_close.
  destruct (Rltb _ _); [destruct (Rltb _ _); auto|]; rewrite map_app, csuml_app; cbn [map]; rewrite csuml_cons.
  - rewrite term_gx0_close. change (csuml nil) with (RtoC 0). ring.
  - rewrite term_gx_close. change (csuml nil) with (RtoC 0). ring.
Qed.

(** ratio d^2/(d^2+rd) *)
Definition err (dl gx gy s rd dm : R) : R :=
  Rabs dl / Rabs gx * (2 * Rabs gx * Rabs (dl * s - dm) + rd / ((gx * (gy + gx * s)) ^ 2 + rd)).

Lemma edge_bound W gx gy s rd dl dm : gx <> 0 -> 0 < rd -> Cmod W = 1 ->
  let c := gy + gx * s in let d := gx * c in
  Cmod (Cminus (Cmult (Cmult W (Cminus (expi (c * dl)) (RtoC 1))) (RtoC (d / (d ^ 2 + rd))))
               (Cmult (Cdiv Ci (RtoC gx)) (Cmult (RtoC dl) (Cmult W (kern (gx * dm + gy * dl)))))) <= err dl gx gy s rd dm.
Proof.
  intros Hg Hr HW c d. assert (Hd : 0 < d ^ 2 + rd) by (pose proof (pow2_ge_0 d); lra).
  set (th := gx * dm + gy * dl). set (rho := d ^ 2 / (d ^ 2 + rd)).
  assert (E : Cmult (Cmult W (Cminus (expi (c * dl)) (RtoC 1))) (RtoC (d / (d ^ 2 + rd))) =
     Cmult (Cdiv Ci (RtoC gx)) (Cmult (RtoC dl) (Cmult W (Cmult (RtoC rho) (kern (c * dl)))))).
  { rewrite kern_i.
    transitivity (Cmult (Cmult (Cmult Ci W) (kern (c * dl))) (RtoC (c * dl * (d / (d ^ 2 + rd))))); [rewrite (RtoC_mult (c * dl)); ring|].
    replace (c * dl * (d / (d ^ 2 + rd))) with (/ gx * (dl * rho)) by (unfold rho, d; field; split; [unfold d in Hd; lra|auto]).
    rewrite RtoC_mult, RtoC_inv, RtoC_mult by auto. unfold Cdiv. ring. }
  rewrite E.
  replace (Cminus (Cmult (Cdiv Ci (RtoC gx)) (Cmult (RtoC dl) (Cmult W (Cmult (RtoC rho) (kern (c * dl))))))
     (Cmult (Cdiv Ci (RtoC gx)) (Cmult (RtoC dl) (Cmult W (kern th))))) with
    (Cmult (Cmult (Cmult (Cdiv Ci (RtoC gx)) (RtoC dl)) W)
      (Cplus (Cmult (RtoC rho) (Cminus (kern (c * dl)) (kern th))) (Cmult (RtoC (rho - 1)) (kern th)))) by (rewrite RtoC_minus; ring).
  assert (Cmod Ci = 1) as HI by (unfold Cmod; simpl; replace (0 * (0 * 1) + 1 * (1 * 1)) with 1 by ring; apply sqrt_1).
  rewrite !Cmod_mult, Cmod_div by (apply RtoC_neq0; auto). rewrite !Cmod_R, HI, HW, Rmult_1_r.
  unfold err. replace (1 / Rabs gx * Rabs dl) with (Rabs dl / Rabs gx) by (unfold Rdiv; ring).
  apply Rmult_le_compat_l.
  { apply Rmult_le_pos; [apply Rabs_pos|]. left. apply Rinv_0_lt_compat, Rabs_pos_lt; auto. }
  assert (Hrho : 0 <= rho <= 1).
  { unfold rho. split; [apply Rmult_le_pos; [apply pow2_ge_0|left; apply Rinv_0_lt_compat; auto]|].
    apply Rmult_le_reg_r with (d ^ 2 + rd); auto. unfold Rdiv. rewrite Rmult_assoc, Rinv_l by lra. lra. }
  eapply Rle_trans; [apply Cmod_triangle|]. rewrite !Cmod_mult, !Cmod_R. apply Rplus_le_compat.
  - rewrite (Rabs_pos_eq rho) by lra.
    apply Rle_trans with (1 * (2 * Rabs (c * dl - th))).
    + apply Rmult_le_compat; try lra; [apply Cmod_ge_0|apply kern_lip].
    + unfold c, th. replace ((gy + gx * s) * dl - (gx * dm + gy * dl)) with (gx * (dl * s - dm)) by ring.
      rewrite Rabs_mult. lra.
  - replace (rho - 1) with (- (rd / (d ^ 2 + rd))) by (unfold rho; field; lra). rewrite Rabs_Ropp.
    assert (0 <= rd / (d ^ 2 + rd)) by (apply Rmult_le_pos; [lra|left; apply Rinv_0_lt_compat; auto]).
    rewrite Rabs_pos_eq by auto. pose proof (kern_le1 th). pose proof (Cmod_ge_0 (kern th)). change (gx * (gy + gx * s)) with d. set (q := rd / (d ^ 2 + rd)) in *. nra.
Qed.

Lemma term_gx_form rg gx gy e : let c := gy + gx * slope rg e in let d := gx * c in
  term_gx rg gx gy e = Cmult (Cmult (wave gx gy (fst e)) (Cminus (expi (c * dy e)) (RtoC 1))) (RtoC (d / (d ^ 2 + rg_d rg))).
Proof.
  cbv zeta. unfold term_gx. cbv zeta. set (a := slope rg e). f_equal.
  replace (gy * snd (snd e) + gx * (a * snd (snd e))) with ((gy * snd (fst e) + gx * (a * snd (fst e))) + (gy + gx * a) * dy e) by (unfold dy; ring).
  rewrite (expi_plus (gy * snd (fst e) + gx * (a * snd (fst e)))).
  transitivity (Cmult (Cmult (expi (gx * (fst (fst e) - a * snd (fst e)))) (expi (gy * snd (fst e) + gx * (a * snd (fst e))))) (Cminus (expi ((gy + gx * a) * dy e)) (RtoC 1))); [ring|].
  rewrite <- expi_plus. unfold wave. f_equal. f_equal. ring.
Qed.
Lemma term_gx0_form rg gx gy e : let c := gx + gy * (1 / slope rg e) in let d := gy * c in
  term_gx0 rg gx gy e = Cmult (Cmult (wave gx gy (fst e)) (Cminus (expi (c * dx e)) (RtoC 1))) (RtoC (d / (d ^ 2 + rg_d rg))).
Proof.
  cbv zeta. unfold term_gx0. cbv zeta. set (a := 1 / slope rg e). f_equal.
  replace (gx * fst (snd e) + gy * (a * fst (snd e))) with ((gx * fst (fst e) + gy * (a * fst (fst e))) + (gx + gy * a) * dx e) by (unfold dx; ring).
  rewrite (expi_plus (gx * fst (fst e) + gy * (a * fst (fst e)))).
  transitivity (Cmult (Cmult (expi (gy * (snd (fst e) - a * fst (fst e)))) (expi (gx * fst (fst e) + gy * (a * fst (fst e))))) (Cminus (expi ((gx + gy * a) * dx e)) (RtoC 1))); [ring|].
  rewrite <- expi_plus. unfold wave. f_equal. f_equal. ring.
Qed.
Lemma Cmod_wave gx gy p : Cmod (wave gx gy p) = 1. Proof. apply Cmod_expi. Qed.

Lemma term_gx_err rg gx gy e : gx <> 0 -> 0 < rg_d rg ->
  Cmod (Cminus (term_gx rg gx gy e) (Cmult (Cdiv Ci (RtoC gx)) (Cmult (RtoC (dy e)) (along gx gy e)))) <=
  err (dy e) gx gy (slope rg e) (rg_d rg) (dx e).
Proof. intros Hg Hr. rewrite term_gx_form. apply edge_bound; auto. apply Cmod_wave. Qed.
Lemma term_gx0_err rg gx gy e : gy <> 0 -> 0 < rg_d rg ->
  Cmod (Cminus (term_gx0 rg gx gy e) (Cmult (Cdiv Ci (RtoC gy)) (Cmult (RtoC (dx e)) (along gx gy e)))) <=
  err (dx e) gy gx (1 / slope rg e) (rg_d rg) (dy e).
Proof.
  intros Hg Hr. rewrite term_gx0_form. unfold along. rewrite (Rplus_comm (gx * dx e)).
  apply edge_bound; auto. apply Cmod_wave.
Qed.

Lemma Cmod_csuml {A} (f : A -> C) (b : A -> R) l : (forall x, In x l -> Cmod (f x) <= b x) ->
  Cmod (csuml (map f l)) <= rsuml (map b l).
Proof.
  induction l; intros H; cbn [map].
  - change (csuml nil) with (RtoC 0). rewrite Cmod_0. unfold rsuml; simpl; lra.
  - rewrite csuml_cons, rsuml_cons. eapply Rle_trans; [apply Cmod_triangle|].
    apply Rplus_le_compat; [apply H; left; auto|apply IHl; intros; apply H; right; auto].
Qed.
Lemma csuml_minus {A} (f g : A -> C) l : csuml (map (fun x => Cminus (f x) (g x)) l) = Cminus (csuml (map f l)) (csuml (map g l)).
Proof. induction l; simpl; [ring|]. rewrite IHl. ring. Qed.

Definition integrand (G : R * R) (vs : list (R * R)) (x y : R) : C :=
  Cmult (RtoC (winding vs x y)) (expi (- (fst G * x + snd G * y))).
Lemma integrand_ext vs G M v : 
  is_CInt2 (fun x y => Cmult (RtoC (winding vs x y)) (expi (- fst G * x + - snd G * y))) M v ->
  is_CInt2 (integrand G vs) M v.
Proof.
  intros (inner & H1 & H2). exists inner. split; auto. intros y. eapply is_CInt_ext; [|apply H1].
  intros x _. unfold integrand. cbv beta. f_equal. f_equal. ring.
Qed.

Lemma main_gx vs G M rg : inside_box vs M -> 1 / 10 ^ 10 <= Rabs (fst G) -> 0 < rg_d rg ->
  exists I, is_CInt2 (integrand G vs) M I /\
   I = Cmult (Cdiv (Copp Ci) (RtoC (- fst G))) (csuml (map (fun e => Cmult (RtoC (dy e)) (along (- fst G) (- snd G) e)) (edges vs))) /\
   Cmod (Cminus (poly_ft rg vs G) I) <=
   rsuml (map (fun e => err (dy e) (- fst G) (- snd G) (slope rg e) (rg_d rg) (dx e)) (edges vs)).
Proof.
  intros Hb HG Hr. pose proof ten10 as T. assert (Hn : - fst G <> 0) by (intros E; replace (fst G) with 0 in HG by lra; rewrite Rabs_R0 in HG; lra).
  eexists. split; [apply integrand_ext, area_gx; auto|]. split; [reflexivity|].
  unfold poly_ft. rewrite (Rabs_Ropp (fst G)), (proj2 (Rltb_false _ _) HG).
  rewrite <- Cmod_opp.
  replace (Copp _) with (csuml (map (fun e => Cminus (term_gx rg (- fst G) (- snd G) e)
     (Cmult (Cdiv Ci (RtoC (- fst G))) (Cmult (RtoC (dy e)) (along (- fst G) (- snd G) e)))) (edges vs))).
  - apply Cmod_csuml. intros e _. apply term_gx_err; auto.
  - rewrite csuml_minus, csuml_scal. unfold Cdiv. ring.
Qed.
Lemma main_gx0 vs G M rg : inside_box vs M -> Rabs (fst G) < 1 / 10 ^ 10 -> 1 / 10 ^ 10 <= Rabs (snd G) -> 0 < rg_d rg ->
  exists I, is_CInt2 (integrand G vs) M I /\
   I = Cmult (Cdiv Ci (RtoC (- snd G))) (csuml (map (fun e => Cmult (RtoC (dx e)) (along (- fst G) (- snd G) e)) (edges vs))) /\
   Cmod (Cminus (poly_ft rg vs G) I) <=
   rsuml (map (fun e => err (dx e) (- snd G) (- fst G) (1 / slope rg e) (rg_d rg) (dy e)) (edges vs)).
Proof.
  intros Hb Hx HG Hr. pose proof ten10 as T. assert (Hn : - snd G <> 0) by (intros E; replace (snd G) with 0 in HG by lra; rewrite Rabs_R0 in HG; lra).
  eexists. split; [|split; [reflexivity|]].
  - apply integrand_ext. destruct (Req_EM_T (- fst G) 0) as [E|E].
    + rewrite E. apply area_gx0; auto.
    + pose proof (area_gx vs (- fst G) (- snd G) M Hb E) as A. pose proof (green vs (- fst G) (- snd G)) as Gr.
      set (gx := - fst G) in *. set (gy := - snd G) in *.
      set (SX := csuml (map (fun e => Cmult (RtoC (dx e)) (along gx gy e)) (edges vs))) in *.
      set (SY := csuml (map (fun e => Cmult (RtoC (dy e)) (along gx gy e)) (edges vs))) in *.
      replace (Cmult (Cdiv Ci (RtoC gy)) SX) with (Cmult (Cdiv (Copp Ci) (RtoC gx)) SY); auto.
      assert (X : RtoC gx <> 0) by (apply RtoC_neq0; auto). assert (Y : RtoC gy <> 0) by (apply RtoC_neq0; auto).
      transitivity (Cplus (Cmult (Cdiv Ci (RtoC gy)) SX) (Cmult (Cdiv (Copp Ci) (Cmult (RtoC gx) (RtoC gy)))
          (Cplus (Cmult (RtoC gx) SX) (Cmult (RtoC gy) SY)))); [field; auto|]. rewrite Gr. ring.
  - unfold poly_ft. rewrite (Rabs_Ropp (fst G)), (Rabs_Ropp (snd G)), (proj2 (Rltb_true _ _) Hx), (proj2 (Rltb_false _ _) HG).
    replace (Cminus _ _) with (csuml (map (fun e => Cminus (term_gx0 rg (- fst G) (- snd G) e)
       (Cmult (Cdiv Ci (RtoC (- snd G))) (Cmult (RtoC (dx e)) (along (- fst G) (- snd G) e)))) (edges vs))).
    + apply Cmod_csuml. intros e _. apply term_gx0_err; auto.
    + rewrite csuml_minus, csuml_scal. auto.
Qed.
Lemma main_00 vs M rg : inside_box vs M -> is_CInt2 (integrand (0, 0) vs) M (poly_ft rg vs (0, 0)).
Proof.
  intros Hb. rewrite poly_ft_0, shoelace_signed. replace (2 * signed_area vs / 2) with (signed_area vs) by field.
  apply integrand_ext. cbn [fst snd]. rewrite Ropp_0. apply area_00; auto.
Qed.

(** ** the explicit error bound for the code's own regularisers *)
Lemma pow10_pos n : 0 < 1 / 10 ^ n.
Proof. apply Rdiv_lt_0_compat; [lra|apply pow_lt; lra]. Qed.
Definition closed (vs : list (R * R)) : list (R * R) := match vs with nil => nil | p :: _ => vs ++ (p :: nil) end.
Lemma poly_ft_closed rg vs g : poly_ft rg (closed vs) g = poly_ft rg vs g.
Proof. destruct vs; [auto|]. apply poly_ft_close. Qed.
Lemma err_neg dl gx gy s rd dm : err dl (- gx) (- gy) s rd dm = err dl gx gy s rd dm.
Proof.
  unfold err. rewrite Rabs_Ropp. replace (- gx * (- gy + - gx * s)) with (gx * (gy + gx * s)) by ring. auto.
Qed.
Lemma code_error_gx vs G M : inside_box vs M -> 1 / 10 ^ 10 <= Rabs (fst G) ->
  exists I, is_CInt2 (integrand G vs) M I /\
   Cmod (Cminus (poly_ft code_regs (closed vs) G) I) <=
   rsuml (map (fun i => edge_error (vert vs i) (vert vs (S i)) (fst G) (snd G)) (seq 0 (List.length vs))).
Proof.
  intros Hb HG. destruct (main_gx vs G M code_regs Hb HG (pow10_pos 50)) as (I & H1 & _ & H2).
  exists I. split; auto. rewrite poly_ft_closed. eapply Rle_trans; [exact H2|]. right.
  rewrite (edges_verts (fun e => err (dy e) (- fst G) (- snd G) (slope code_regs e) (rg_d code_regs) (dx e))).
  apply rsuml_ext. intros i _. rewrite err_neg. reflexivity.
Qed.
Lemma code_error_gx0 vs G M : inside_box vs M -> Rabs (fst G) < 1 / 10 ^ 10 -> 1 / 10 ^ 10 <= Rabs (snd G) ->
  exists I, is_CInt2 (integrand G vs) M I /\
   Cmod (Cminus (poly_ft code_regs (closed vs) G) I) <=
   rsuml (map (fun i => edge_error_gx0 (vert vs i) (vert vs (S i)) (fst G) (snd G)) (seq 0 (List.length vs))).
Proof.
  intros Hb HGx HG. destruct (main_gx0 vs G M code_regs Hb HGx HG (pow10_pos 50)) as (I & H1 & _ & H2).
  exists I. split; auto. rewrite poly_ft_closed. eapply Rle_trans; [exact H2|]. right.
  rewrite (edges_verts (fun e => err (dx e) (- snd G) (- fst G) (1 / slope code_regs e) (rg_d code_regs) (dy e))).
  apply rsuml_ext. intros i _. rewrite err_neg. unfold edge_error_gx0, err, slope. cbn [fst snd code_regs rg_x rg_y rg_d].
  unfold dx, dy; cbn [fst snd].
  set (a := fst (vert vs (S i)) - fst (vert vs i) + 1 / 10 ^ 10). set (b := snd (vert vs (S i)) - snd (vert vs i) + 1 / 10 ^ 20).
  replace (1 / (a / b)) with (b / a) by (unfold Rdiv; rewrite Rinv_mult, Rinv_inv; ring). auto.
Qed.

(** ** the limit of vanishing regularisers *)
Definition vanish (b : R -> R) : Prop := forall ep, 0 < ep -> exists r0, 0 < r0 /\ forall r, 0 < r < r0 -> Rabs (b r) < ep.
Lemma vanish_0 : vanish (fun _ => 0).
Proof. intros ep H. exists 1. split; [lra|]. intros. rewrite Rabs_R0. auto. Qed.
Lemma vanish_plus f g : vanish f -> vanish g -> vanish (fun r => f r + g r).
Proof.
  intros Hf Hg ep He. destruct (Hf (ep / 2)) as (r1 & P1 & Q1); [lra|]. destruct (Hg (ep / 2)) as (r2 & P2 & Q2); [lra|].
  exists (Rmin r1 r2). split; [apply Rmin_pos; auto|]. intros r Hr.
  pose proof (Rmin_l r1 r2). pose proof (Rmin_r r1 r2).
  specialize (Q1 r ltac:(lra)). specialize (Q2 r ltac:(lra)). eapply Rle_lt_trans; [apply Rabs_triang|]. lra.
Qed.
Lemma vanish_scal c f : vanish f -> vanish (fun r => c * f r).
Proof.
  intros Hf ep He. destruct (Hf (ep / (Rabs c + 1))) as (r1 & P1 & Q1).
  { apply Rdiv_lt_0_compat; auto. pose proof (Rabs_pos c). lra. }
  exists r1. split; auto. intros r Hr. specialize (Q1 r Hr). rewrite Rabs_mult. pose proof (Rabs_pos c). pose proof (Rabs_pos (f r)).
  apply Rle_lt_trans with ((Rabs c + 1) * Rabs (f r)); [nra|].
  replace ep with ((Rabs c + 1) * (ep / (Rabs c + 1))) by (field; lra). apply Rmult_lt_compat_l; lra.
Qed.
Lemma vanish_dom f g r1 : 0 < r1 -> (forall r, 0 < r < r1 -> Rabs (f r) <= Rabs (g r)) -> vanish g -> vanish f.
Proof.
  intros H1 H Hg ep He. destruct (Hg ep He) as (r2 & P2 & Q2). exists (Rmin r1 r2). split; [apply Rmin_pos; auto|].
  intros r Hr. pose proof (Rmin_l r1 r2). pose proof (Rmin_r r1 r2).
  eapply Rle_lt_trans; [apply H; lra|apply Q2; lra].
Qed.
Lemma vanish_abs f : vanish f -> vanish (fun r => Rabs (f r)).
Proof. intros H. apply (vanish_dom _ f 1); [lra| |auto]. intros. rewrite Rabs_Rabsolu. lra. Qed.
Lemma vanish_derive (f : R -> R) : ex_derive f 0 -> @eq R (f 0) 0 -> vanish f.
Proof.
  intros Hd H0 ep He. apply ex_derive_Reals_0 in Hd. apply derivable_continuous_pt in Hd.
  destruct (Hd ep He) as (alp & Ha & Hf). exists alp. split; auto. intros r Hr.
  specialize (Hf r). simpl in Hf. unfold R_dist in Hf. rewrite H0, !Rminus_0_r in Hf. apply Hf.
  split; [unfold D_x, no_cond; split; [auto|lra]|]. rewrite Rabs_pos_eq; lra.
Qed.
Lemma vanish_sum {A} (b : A -> R -> R) l : (forall x, In x l -> vanish (b x)) -> vanish (fun r => rsuml (map (fun x => b x r) l)).
Proof.
  induction l; intros H; [apply vanish_0|]. cbn [map].
  apply (vanish_plus (b a) (fun r => rsuml (map (fun x => b x r) l))); [apply H; left; auto|apply IHl; intros; apply H; right; auto].
Qed.

Definition fam (r : R) : regs := mkRegs r (r ^ 2) (r ^ 5).
Lemma fam_code : fam (1 / 10 ^ 10) = code_regs.
Proof. unfold fam, code_regs. f_equal; field. Qed.

Lemma vanish_err_gx gx gy e : gx <> 0 -> vanish (fun r => err (dy e) gx gy (slope (fam r) e) (r ^ 5) (dx e)).
Proof.
  intros Hg. destruct (Req_EM_T (dy e) 0) as [Z|NZ].
  { eapply vanish_dom with (g := fun _ => 0) (r1 := 1); [lra| |apply vanish_0]. intros r _. unfold err. rewrite Z, Rabs_R0.
    unfold Rdiv at 1. rewrite !Rmult_0_l, Rabs_R0. lra. }
  assert (S : forall r, slope (fam r) e = (dx e + r) / (dy e + r ^ 2)) by reflexivity.
  set (a := dx e) in *. set (b := dy e) in *.
  unfold err. apply (vanish_scal (Rabs b / Rabs gx)). apply vanish_plus.
  - apply (vanish_scal (2 * Rabs gx)). apply (vanish_abs (fun r => b * slope (fam r) e - a)).
    eapply vanish_dom with (g := fun r => b * ((a + r) / (b + r ^ 2)) - a) (r1 := 1); [lra| |].
    + intros r _. rewrite S. lra.
    + apply vanish_derive; [auto_derive; lra|]. field; auto. replace (b + 0 ^ 2) with b by ring. auto.
  - destruct (Req_EM_T (gx * a + gy * b) 0) as [T|T].
    + set (D := fun r => gx ^ 2 * (b - a * r) / (b * (b + r ^ 2))).
      eapply vanish_dom with (g := fun r => r ^ 3 / (D r ^ 2 + r ^ 3)) (r1 := Rmin 1 (Rabs b)).
      * apply Rmin_pos; [lra|apply Rabs_pos_lt; auto].
      * intros r Hr. pose proof (Rmin_l 1 (Rabs b)). pose proof (Rmin_r 1 (Rabs b)).
        assert (Hbr : b + r ^ 2 <> 0).
        { intros E. assert (r ^ 2 = - b) by lra. assert (r ^ 2 < Rabs b) by (simpl; nra).
          unfold Rabs in *. destruct (Rcase_abs b); nra. }
        rewrite S. right. f_equal.
        replace (gx * (gy + gx * ((a + r) / (b + r ^ 2)))) with (r * D r).
        2:{ unfold D. replace gy with (- (gx * a) / b) by (apply Rmult_eq_reg_r with b; auto; field_simplify; [lra|auto]). field. auto. }
        assert (0 < D r ^ 2 + r ^ 3) by (pose proof (pow2_ge_0 (D r)); assert (0 < r ^ 3) by (apply pow_lt; lra); lra).
        replace ((r * D r) ^ 2 + r ^ 5) with (r ^ 2 * (D r ^ 2 + r ^ 3)) by ring. field. split; [lra|]. lra.
      * apply vanish_derive.
        -- unfold D. auto_derive.
           assert (b * (b + 0 ^ 2) <> 0) by (simpl; rewrite Rmult_0_l, Rplus_0_r; auto).
           repeat split; auto. simpl. rewrite !Rmult_0_l, !Rmult_0_r, !Rplus_0_r, Ropp_0, Rplus_0_r, !Rmult_1_r.
           apply Rmult_integral_contrapositive. split; apply Rmult_integral_contrapositive; split; auto;
           try (apply Rmult_integral_contrapositive; auto); try apply Rinv_neq_0_compat; auto.
        -- simpl. unfold Rdiv. ring.
    + eapply vanish_dom with (g := fun r => r ^ 5 / ((gx * (gy + gx * ((a + r) / (b + r ^ 2)))) ^ 2 + r ^ 5)) (r1 := 1); [lra| |].
      * intros r _. rewrite S. lra.
      * apply vanish_derive; [|simpl; unfold Rdiv; ring].
        assert (Q : gx * (gy + gx * (a / b)) <> 0).
        { apply Rmult_integral_contrapositive; split; auto. intros E. apply T.
          apply Rmult_eq_reg_r with (/ b); [|apply Rinv_neq_0_compat; auto]. rewrite Rmult_0_l, <- E. field; auto. }
        auto_derive. split; [simpl; rewrite Rmult_0_l, Rplus_0_r; auto|]. split; [|auto].
        simpl. rewrite !Rmult_0_l, !Rplus_0_r, !Rmult_1_r. 
        apply Rmult_integral_contrapositive; split; exact Q.
Qed.
Lemma vanish_err_gx0 gx gy e : gy <> 0 -> vanish (fun r => err (dx e) gy gx (1 / slope (fam r) e) (r ^ 5) (dy e)).
Proof.
  intros Hg. destruct (Req_EM_T (dx e) 0) as [Z|NZ].
  { eapply vanish_dom with (g := fun _ => 0) (r1 := 1); [lra| |apply vanish_0]. intros r _. unfold err. rewrite Z, Rabs_R0.
    unfold Rdiv at 1. rewrite !Rmult_0_l, Rabs_R0. lra. }
  assert (S : forall r, 1 / slope (fam r) e = (dy e + r ^ 2) / (dx e + r)).
  { intros r. change (slope (fam r) e) with ((dx e + r) / (dy e + r ^ 2)). unfold Rdiv. rewrite Rinv_mult, Rinv_inv. ring. }
  set (a := dy e) in *. set (b := dx e) in *.
  unfold err. apply (vanish_scal (Rabs b / Rabs gy)). apply vanish_plus.
  - apply (vanish_scal (2 * Rabs gy)). apply (vanish_abs (fun r => b * (1 / slope (fam r) e) - a)).
    eapply vanish_dom with (g := fun r => b * ((a + r ^ 2) / (b + r)) - a) (r1 := 1); [lra| |].
    + intros r _. rewrite S. lra.
    + apply vanish_derive; [auto_derive; lra|]. field; lra.
  - assert (BR : forall r, 0 < r < Rabs b -> b + r <> 0).
    { intros r Hr E. replace b with (- r) in Hr by lra. rewrite Rabs_Ropp, Rabs_pos_eq in Hr; lra. }
    destruct (Req_EM_T (gy * a + gx * b) 0) as [T|T].
    + assert (GX : gx = - (gy * a) / b) by (apply Rmult_eq_reg_r with b; auto; field_simplify; [lra|auto]).
      destruct (Req_EM_T a 0) as [A0|A0].
      * set (D := fun r => gy ^ 2 / (b + r)).
        eapply vanish_dom with (g := fun r => r / (D r ^ 2 + r)) (r1 := Rabs b); [apply Rabs_pos_lt; auto| |].
        -- intros r Hr. specialize (BR r Hr). rewrite S. right. f_equal.
           replace (gy * (gx + gy * ((a + r ^ 2) / (b + r)))) with (r ^ 2 * D r) by (unfold D; rewrite GX, A0; field; auto).
           assert (0 < D r ^ 2 + r) by (pose proof (pow2_ge_0 (D r)); lra).
           replace ((r ^ 2 * D r) ^ 2 + r ^ 5) with (r ^ 4 * (D r ^ 2 + r)) by ring. field. split; lra.
        -- apply vanish_derive; [|unfold Rdiv; ring].
           unfold D. auto_derive. split; [lra|]. split; [|auto]. rewrite !Rplus_0_r.
           simpl. rewrite !Rmult_1_r. apply Rmult_integral_contrapositive; split; apply Rmult_integral_contrapositive; split;
             try (apply Rmult_integral_contrapositive; auto); apply Rinv_neq_0_compat; auto.
      * set (D := fun r => gy ^ 2 * (b * r - a) / (b * (b + r))).
        eapply vanish_dom with (g := fun r => r ^ 3 / (D r ^ 2 + r ^ 3)) (r1 := Rabs b); [apply Rabs_pos_lt; auto| |].
        -- intros r Hr. specialize (BR r Hr). rewrite S. right. f_equal.
           replace (gy * (gx + gy * ((a + r ^ 2) / (b + r)))) with (r * D r) by (unfold D; rewrite GX; field; auto).
           assert (0 < D r ^ 2 + r ^ 3) by (pose proof (pow2_ge_0 (D r)); assert (0 < r ^ 3) by (apply pow_lt; lra); lra).
           replace ((r * D r) ^ 2 + r ^ 5) with (r ^ 2 * (D r ^ 2 + r ^ 3)) by ring. field. split; lra.
        -- apply vanish_derive; [|simpl; unfold Rdiv; ring].
           unfold D. auto_derive. assert (b * (b + 0) <> 0) by (rewrite Rplus_0_r; auto).
           split; [auto|]. split; [|auto].
           simpl. rewrite !Rmult_0_r, !Rmult_0_l, !Rplus_0_r, !Rplus_0_l, !Rmult_1_r.
           apply Rmult_integral_contrapositive. split; apply Rmult_integral_contrapositive; split; auto;
           try (apply Rmult_integral_contrapositive; split; auto; lra); try apply Rinv_neq_0_compat; auto.
    + eapply vanish_dom with (g := fun r => r ^ 5 / ((gy * (gx + gy * ((a + r ^ 2) / (b + r)))) ^ 2 + r ^ 5)) (r1 := 1); [lra| |].
      * intros r _. rewrite S. lra.
      * apply vanish_derive; [|simpl; unfold Rdiv; ring].
        assert (Q : gy * (gx + gy * (a / b)) <> 0).
        { apply Rmult_integral_contrapositive; split; auto. intros E. apply T.
          apply Rmult_eq_reg_r with (/ b); [|apply Rinv_neq_0_compat; auto]. rewrite Rmult_0_l, <- E. field; auto. }
        auto_derive. split; [lra|]. split; [|auto].
        simpl. rewrite !Rmult_0_l, !Rplus_0_r, !Rmult_1_r.
        apply Rmult_integral_contrapositive; split; exact Q.
Qed.

Lemma poly_limit vs G M : inside_box vs M -> G = (0, 0) \/ 1 / 10 ^ 10 <= Rabs (fst G) \/ 1 / 10 ^ 10 <= Rabs (snd G) ->
  exists I, is_CInt2 (integrand G vs) M I /\
   forall ep, 0 < ep -> exists r0, 0 < r0 /\ forall r, 0 < r < r0 -> Cmod (Cminus (poly_ft (fam r) (closed vs) G) I) < ep.
Proof.
  intros Hb HG. pose proof ten10 as T. assert (P5 : forall r, 0 < r -> 0 < rg_d (fam r)) by (intros; apply pow_lt; auto).
  destruct (Req_EM_T (fst G) 0) as [X0|X0]; [destruct (Req_EM_T (snd G) 0) as [Y0|Y0]|].
  - destruct G as [Gx Gy]. simpl in X0, Y0. subst. exists (poly_ft code_regs vs (0, 0)). split; [apply main_00; auto|].
    intros ep He. exists 1. split; [lra|]. intros r Hr. rewrite poly_ft_closed, !poly_ft_0.
    replace (Cminus _ _) with (RtoC 0) by ring. rewrite Cmod_0. auto.
  - assert (HY : 1 / 10 ^ 10 <= Rabs (snd G)).
    { destruct HG as [->|[H|H]]; auto; [simpl in Y0; lra|]. rewrite X0, Rabs_R0 in H. lra. }
    assert (HX : Rabs (fst G) < 1 / 10 ^ 10) by (rewrite X0, Rabs_R0; auto).
    assert (V : vanish (fun r => rsuml (map (fun e => err (dx e) (- snd G) (- fst G) (1 / slope (fam r) e) (r ^ 5) (dy e)) (edges vs)))).
    { apply (vanish_sum (fun e r => err (dx e) (- snd G) (- fst G) (1 / slope (fam r) e) (r ^ 5) (dy e))). intros. apply vanish_err_gx0. lra. }
    destruct (main_gx0 vs G M (fam 1) Hb HX HY (P5 1 ltac:(lra))) as (I & H1 & H2 & _). exists I. split; auto. intros ep He.
    destruct (V ep He) as (r0 & Hr0 & HV). exists r0. split; auto. intros r Hr. specialize (HV r Hr).
    destruct (main_gx0 vs G M (fam r) Hb HX HY (P5 r ltac:(lra))) as (I' & _ & H2' & H3).
    rewrite poly_ft_closed, H2, <- H2'. eapply Rle_lt_trans; [exact H3|]. eapply Rle_lt_trans; [|exact HV]. apply Rle_abs.
  - destruct (Rlt_dec (Rabs (fst G)) (1 / 10 ^ 10)) as [HX|HX].
    + assert (HY : 1 / 10 ^ 10 <= Rabs (snd G)) by (destruct HG as [->|[H|H]]; auto; [simpl in X0|]; lra).
      assert (NY : - snd G <> 0) by (intros E; replace (snd G) with 0 in HY by lra; rewrite Rabs_R0 in HY; lra).
      assert (V : vanish (fun r => rsuml (map (fun e => err (dx e) (- snd G) (- fst G) (1 / slope (fam r) e) (r ^ 5) (dy e)) (edges vs)))).
      { apply (vanish_sum (fun e r => err (dx e) (- snd G) (- fst G) (1 / slope (fam r) e) (r ^ 5) (dy e))). intros. apply vanish_err_gx0; auto. }
      destruct (main_gx0 vs G M (fam 1) Hb HX HY (P5 1 ltac:(lra))) as (I & H1 & H2 & _). exists I. split; auto. intros ep He.
      destruct (V ep He) as (r0 & Hr0 & HV). exists r0. split; auto. intros r Hr. specialize (HV r Hr).
      destruct (main_gx0 vs G M (fam r) Hb HX HY (P5 r ltac:(lra))) as (I' & _ & H2' & H3).
      rewrite poly_ft_closed, H2, <- H2'. eapply Rle_lt_trans; [exact H3|]. eapply Rle_lt_trans; [|exact HV]. apply Rle_abs.
    + apply Rnot_lt_le in HX.
      assert (V : vanish (fun r => rsuml (map (fun e => err (dy e) (- fst G) (- snd G) (slope (fam r) e) (r ^ 5) (dx e)) (edges vs)))).
      { apply (vanish_sum (fun e r => err (dy e) (- fst G) (- snd G) (slope (fam r) e) (r ^ 5) (dx e))). intros. apply vanish_err_gx. lra. }
      destruct (main_gx vs G M (fam 1) Hb HX (P5 1 ltac:(lra))) as (I & H1 & H2 & _). exists I. split; auto. intros ep He.
      destruct (V ep He) as (r0 & Hr0 & HV). exists r0. split; auto. intros r Hr. specialize (HV r Hr).
      destruct (main_gx vs G M (fam r) Hb HX (P5 r ltac:(lra))) as (I' & _ & H2' & H3).
      rewrite poly_ft_closed, H2, <- H2'. eapply Rle_lt_trans; [exact H3|]. eapply Rle_lt_trans; [|exact HV]. apply Rle_abs.
Qed.

(** ** the code's own regularisers can drop an edge *)
Definition sq : list (R * R) := (-1/2, -1/2) :: (1/2, -1/2) :: (1/2, 1/2) :: (-1/2, 1/2) :: nil.
Definition s1 : R := (1 / 10 ^ 10) / (1 + 1 / 10 ^ 20).
Definition badG : R * R := (- PI, PI * s1).
Lemma s1_bound : 0 < s1 <= 1 / 10 ^ 10.
Proof.
  unfold s1. pose proof (pow10_pos 10). pose proof (pow10_pos 20). split; [apply Rdiv_lt_0_compat; lra|].
  apply Rmult_le_reg_r with (1 + 1 / 10 ^ 20); [lra|]. unfold Rdiv at 1. rewrite Rmult_assoc, Rinv_l by lra. nra.
Qed.
Lemma sq_box : inside_box sq 1.
Proof. intros v [<-|[<-|[<-|[<-|[]]]]]; cbn [fst snd]; split; apply Rabs_def1; lra. Qed.
Lemma Cmod_sub3 a b c : Cmod (Cminus a b) <= c -> Cmod b - c <= Cmod a.
Proof. intros H. pose proof (Cmod_triangle (Cminus b a) a). replace (Cplus (Cminus b a) a) with b in H0 by ring.
  rewrite <- Cmod_opp in H. replace (Copp (Cminus a b)) with (Cminus b a) in H by ring. lra. Qed.
Lemma poly_refuted : exists I, is_CInt2 (integrand badG sq) 1 I /\ 1 / 5 <= Cmod (Cminus (poly_ft code_regs (closed sq) badG) I).
Proof.
  pose proof PI_RGT_0 as HP. pose proof PI2_3_2 as HP2. pose proof s1_bound as HS. pose proof (PI_4) as HP4.
  assert (HG : 1 / 10 ^ 10 <= Rabs (fst badG)).
  { cbn [badG fst]. rewrite Rabs_Ropp, Rabs_pos_eq by lra. apply Rle_trans with 1; [|unfold PI2 in HP2; lra].
    apply Rmult_le_reg_r with (10 ^ 10); [apply pow_lt; lra|]. field_simplify; lra. }
  destruct (main_gx sq badG 1 code_regs sq_box HG (pow10_pos 50)) as (I & H1 & H2 & _). exists I. split; auto.
  assert (EX : - fst badG = PI) by (cbn [badG fst]; ring). assert (EY : - snd badG = - (PI * s1)) by reflexivity.
  rewrite EX, EY in H2. set (gy := - (PI * s1)) in *.
  assert (Hgy : Rabs gy <= PI / 10 ^ 10) by (unfold gy; rewrite Rabs_Ropp, Rabs_pos_eq by nra; unfold Rdiv in *; nra).
  (* code *)
  assert (CODE : Cmod (poly_ft code_regs (closed sq) badG) <= 1 / PI).
  { rewrite poly_ft_closed. unfold poly_ft. rewrite EX, EY. rewrite (Rabs_pos_eq PI) by lra.
    cbn [badG fst] in HG. rewrite Rabs_Ropp, (Rabs_pos_eq PI) in HG by lra. rewrite (proj2 (Rltb_false _ _) HG).
    cbn [edges roll1 combine sq app map]. rewrite !csuml_cons. change (csuml nil) with (RtoC 0). fold gy.
    set (e0 := ((-1/2, -1/2), (1/2, -1/2))). set (e1 := ((1/2, -1/2), (1/2, 1/2))).
    set (e2 := ((1/2, 1/2), (-1/2, 1/2))). set (e3 := ((-1/2, 1/2), (-1/2, -1/2))).
    assert (Z0 : term_gx code_regs PI gy e0 = RtoC 0).
    { rewrite term_gx_form. replace (dy e0) with 0 by (unfold dy, e0; cbn [fst snd]; ring). rewrite Rmult_0_r, expi_0. ring. }
    assert (Z2 : term_gx code_regs PI gy e2 = RtoC 0).
    { rewrite term_gx_form. replace (dy e2) with 0 by (unfold dy, e2; cbn [fst snd]; ring). rewrite Rmult_0_r, expi_0. ring. }
    assert (Z1 : term_gx code_regs PI gy e1 = RtoC 0).
    { rewrite term_gx_form. replace (gy + PI * slope code_regs e1) with 0.
      - rewrite Rmult_0_l, expi_0. ring.
      - unfold gy, slope, e1, s1. cbn [fst snd code_regs rg_x rg_y]. replace (1/2 - 1/2) with 0 by ring. replace (1 / 2 - - 1/2) with 1 by field.
        rewrite Rplus_0_l. ring. }
    rewrite Z0, Z1, Z2. rewrite Cmod_opp.
    replace (Cplus _ _) with (term_gx code_regs PI gy e3) by ring. rewrite term_gx_form.
    set (c := gy + PI * slope code_regs e3). rewrite !Cmod_mult, Cmod_wave, Rmult_1_l, Cmod_R.
    pose proof (expi_minus1 (c * dy e3)) as K. pose proof (Cmod_ge_0 (Cminus (expi (c * dy e3)) (RtoC 1))) as K0.
    replace (Rabs (c * dy e3)) with (Rabs c) in K.
    2:{ replace (c * dy e3) with (- c) by (unfold dy, e3; cbn [fst snd]; field). rewrite Rabs_Ropp. auto. }
    assert (R0 : 0 < rg_d code_regs) by apply pow10_pos. set (rd := rg_d code_regs) in *.
    assert (Hd : 0 < (PI * c) ^ 2 + rd) by (pose proof (pow2_ge_0 (PI * c)); lra).
    unfold Rdiv at 1. rewrite Rabs_mult, (Rabs_pos_eq (/ _)) by (left; apply Rinv_0_lt_compat; auto).
    rewrite Rabs_mult, (Rabs_pos_eq PI) by lra.
    apply Rle_trans with (Rabs c * (PI * Rabs c * / ((PI * c) ^ 2 + rd))).
    { apply Rmult_le_compat_r; auto. apply Rmult_le_pos; [apply Rmult_le_pos; [lra|apply Rabs_pos]|left; apply Rinv_0_lt_compat; auto]. }
    apply Rmult_le_reg_r with (PI * ((PI * c) ^ 2 + rd)); [apply Rmult_lt_0_compat; auto|].
    replace (Rabs c * (PI * Rabs c * / ((PI * c) ^ 2 + rd)) * (PI * ((PI * c) ^ 2 + rd))) with (PI ^ 2 * (Rabs c) ^ 2) by (field; lra).
    replace (1 / PI * (PI * ((PI * c) ^ 2 + rd))) with (PI ^ 2 * c ^ 2 + rd) by (field; lra).
    rewrite pow2_abs. lra. }
  assert (TRUE : Cmod (Cminus I (RtoC (2 / PI))) <= 5 * Rabs gy / PI).
  { rewrite H2. cbn [edges roll1 combine sq app map]. rewrite !csuml_cons. change (csuml nil) with (RtoC 0).
    unfold along, wave, dx, dy. cbn [fst snd].
    replace (-1 / 2 - -1 / 2) with 0 by ring. replace (1 / 2 - 1 / 2) with 0 by ring.
    replace (1 / 2 - -1 / 2) with 1 by field. replace (-1 / 2 - 1 / 2) with (-1) by field.
    replace (PI * (1 / 2) + gy * (-1 / 2)) with (PI / 2 + - (gy / 2)) by field.
    replace (PI * (-1 / 2) + gy * (1 / 2)) with (- (PI / 2) + gy / 2) by field.
    rewrite (expi_plus (PI / 2)), (expi_plus (- (PI / 2))).
    replace (expi (PI / 2)) with Ci by (unfold expi; rewrite cos_PI2, sin_PI2; auto).
    replace (expi (- (PI / 2))) with (Copp Ci) by (unfold expi; rewrite cos_neg, sin_neg, cos_PI2, sin_PI2; unfold Copp, Ci; cbn [fst snd]; f_equal; ring).
    replace (PI * 0 + gy * 1) with gy by ring. replace (PI * 0 + gy * -1) with (- gy) by ring.
    set (u := Cmult (expi (- (gy / 2))) (kern gy)). set (v := Cmult (expi (gy / 2)) (kern (- gy))).
    assert (HPC : RtoC PI <> RtoC 0) by (apply RtoC_neq0; lra).
    assert (CI2 : Cmult Ci Ci = RtoC (-1)) by (unfold Cmult, Ci, RtoC; cbn [fst snd]; f_equal; ring).
    assert (B : forall t w, Rabs t = Rabs gy / 2 -> Rabs w = Rabs gy -> Cmod (Cminus (Cmult (expi t) (kern w)) (RtoC 1)) <= 5 / 2 * Rabs gy).
    { intros t w Ht Hw. replace (Cminus (Cmult (expi t) (kern w)) (RtoC 1)) with
        (Cplus (Cmult (expi t) (Cminus (kern w) (kern 0))) (Cminus (expi t) (RtoC 1))) by (rewrite kern_0; ring).
      eapply Rle_trans; [apply Cmod_triangle|]. rewrite Cmod_mult, Cmod_expi, Rmult_1_l.
      pose proof (kern_lip w 0) as K1. rewrite Rminus_0_r, Hw in K1. pose proof (expi_minus1 t) as K2. rewrite Ht in K2. lra. }
    assert (BU : Cmod (Cminus u (RtoC 1)) <= 5 / 2 * Rabs gy).
    { apply B; auto. rewrite Rabs_Ropp. unfold Rdiv. rewrite Rabs_mult, (Rabs_pos_eq (/ 2)) by lra. auto. }
    assert (BV : Cmod (Cminus v (RtoC 1)) <= 5 / 2 * Rabs gy).
    { apply B; [|apply Rabs_Ropp]. unfold Rdiv. rewrite Rabs_mult, (Rabs_pos_eq (/ 2)) by lra. auto. }
    match goal with |- Cmod ?z <= _ => replace z with (Cmult (RtoC (/ PI)) (Cplus (Cminus u (RtoC 1)) (Cminus v (RtoC 1)))) end.
    - rewrite Cmod_mult, Cmod_R, Rabs_pos_eq by (left; apply Rinv_0_lt_compat; lra).
      replace (5 * Rabs gy / PI) with (/ PI * (5 * Rabs gy)) by (field; lra).
      apply Rmult_le_compat_l; [left; apply Rinv_0_lt_compat; lra|]. eapply Rle_trans; [apply Cmod_triangle|]. lra.
    - unfold u, v. set (k1 := kern gy). set (k2 := kern (- gy)). set (x1 := expi (- (gy / 2))). set (x2 := expi (gy / 2)).
      transitivity (Cminus (Cmult (Cdiv (Copp (Cmult Ci Ci)) (RtoC PI)) (Cplus (Cmult x1 k1) (Cmult x2 k2))) (RtoC (2 / PI))).
      + rewrite CI2. replace (RtoC (2 / PI)) with (Cdiv (RtoC 2) (RtoC PI)) by (rewrite RtoC_div; auto; lra).
        rewrite RtoC_inv by lra. replace (RtoC 2) with (Cplus (RtoC 1) (RtoC 1)) by (rewrite <- RtoC_plus; f_equal; ring).
        replace (RtoC (-1)) with (Copp (RtoC 1)) by (unfold RtoC, Copp; cbn [fst snd]; f_equal; ring). field. auto.
      + replace (RtoC (-1)) with (Copp (RtoC 1)) by (unfold RtoC, Copp; cbn [fst snd]; f_equal; ring). unfold Cdiv. ring. }
  pose proof (Cmod_sub3 _ _ _ TRUE) as L. rewrite Cmod_R, Rabs_pos_eq in L by (apply Rmult_le_pos; [lra|left; apply Rinv_0_lt_compat; lra]).
  pose proof (Cmod_triangle (Cminus (poly_ft code_regs (closed sq) badG) I) (Copp (poly_ft code_regs (closed sq) badG))) as T.
  replace (Cplus (Cminus (poly_ft code_regs (closed sq) badG) I) (Copp (poly_ft code_regs (closed sq) badG))) with (Copp I) in T by ring.
  rewrite !Cmod_opp in T.
  assert (5 * Rabs gy / PI <= 5 / 10 ^ 10).
  { apply Rmult_le_reg_r with PI; auto. unfold Rdiv at 1. rewrite Rmult_assoc, Rinv_l by lra. unfold Rdiv in *. lra. }
  assert (1 / 4 <= 1 / PI) by (apply Rmult_le_reg_r with (4 * PI); [lra|]; field_simplify; lra).
  assert (2 / PI = 1 / PI + 1 / PI) by (field; lra).
  assert (5 / 10 ^ 10 <= 1 / 20) by (apply Rmult_le_reg_r with (10 ^ 10); [apply pow_lt; lra|]; field_simplify; lra).
  lra.
Qed.
