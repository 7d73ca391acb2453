(** A root finder meeting its contract exists for every characteristic function
    of the slab: it is continuous wherever it does not vanish. *)
From Coq Require Import Classical ClassicalEpsilon Ranalysis5.
From Coquelicot Require Import Coquelicot.
From Verif Require Import Py CBase SlabModel SlabSpec.
Open Scope R_scope.

Definition ccnt (f : R -> C) (x : R) : Prop := continuous (fun w => fst (f w)) x /\ continuous (fun w => snd (f w)) x.
Lemma ccnt_ext f g x : (forall w, f w = g w) -> ccnt f x -> ccnt g x.
Proof. intros E [H1 H2]. split; [apply (continuous_ext (fun w => fst (f w)))|apply (continuous_ext (fun w => snd (f w)))]; auto; intros; rewrite E; reflexivity. Qed.
Lemma ccnt_const c x : ccnt (fun _ => c) x. Proof. split; apply continuous_const. Qed.
Lemma ccnt_plus f g x : ccnt f x -> ccnt g x -> ccnt (fun w => f w + g w)%C x.
Proof. intros [A B] [D E]. split; cbn [Cplus fst snd]; [apply (continuous_plus (fun w => fst (f w)) (fun w => fst (g w)))|apply (continuous_plus (fun w => snd (f w)) (fun w => snd (g w)))]; assumption. Qed.
Lemma ccnt_opp f x : ccnt f x -> ccnt (fun w => - f w)%C x.
Proof. intros [A B]. split; cbn [Copp fst snd]; [apply (continuous_opp (fun w => fst (f w)))|apply (continuous_opp (fun w => snd (f w)))]; assumption. Qed.
Lemma cm_mult (f g : R -> R) x : continuous f x -> continuous g x -> continuous (fun w => f w * g w) x.
Proof. intros. apply (continuous_mult f g); assumption. Qed.
Lemma ccnt_mult f g x : ccnt f x -> ccnt g x -> ccnt (fun w => f w * g w)%C x.
Proof.
  intros [A B] [D E]. split; cbn [Cmult fst snd].
  - apply (continuous_minus (fun w => fst (f w) * fst (g w)) (fun w => snd (f w) * snd (g w))); apply cm_mult; assumption.
  - apply (continuous_plus (fun w => fst (f w) * snd (g w)) (fun w => snd (f w) * fst (g w))); apply cm_mult; assumption.
Qed.
Lemma cm_inv (f : R -> R) x : continuous f x -> f x <> 0 -> continuous (fun w => / f w) x.
Proof. intros H N. apply (continuous_comp f Rinv); [exact H|]. apply continuity_pt_filterlim. apply (continuity_pt_inv (fun y => y)); [apply derivable_continuous_pt, derivable_pt_id|exact N]. Qed.
Lemma ccnt_inv f x : ccnt f x -> f x <> RtoC 0 -> ccnt (fun w => / f w)%C x.
Proof.
  intros [A B] N.
  assert (K : continuous (fun w => fst (f w) ^ 2 + snd (f w) ^ 2) x).
  { apply (continuous_plus (fun w => fst (f w) ^ 2) (fun w => snd (f w) ^ 2)).
    - apply (continuous_ext (fun w => fst (f w) * fst (f w))); [intros t; change (fst (f t) * fst (f t) = fst (f t) ^ 2 :> R); ring|apply cm_mult; assumption].
    - apply (continuous_ext (fun w => snd (f w) * snd (f w))); [intros t; change (snd (f t) * snd (f t) = snd (f t) ^ 2 :> R); ring|apply cm_mult; assumption]. }
  assert (Z : fst (f x) ^ 2 + snd (f x) ^ 2 <> 0).
  { intros Z. apply N. destruct (f x) as [a b]. cbn [fst snd] in Z. assert (a = 0 /\ b = 0) as [-> ->] by nra. reflexivity. }
  split; cbn [Cinv fst snd]; unfold Rdiv; apply cm_mult; try (apply cm_inv; assumption); try assumption. apply (continuous_opp (fun w => snd (f w))). assumption.
Qed.
Lemma ccnt_div f g x : ccnt f x -> ccnt g x -> g x <> RtoC 0 -> ccnt (fun w => f w / g w)%C x.
Proof. intros. unfold Cdiv. apply ccnt_mult; [assumption|apply ccnt_inv; assumption]. Qed.
Lemma ccnt_divc f (c : C) x : ccnt f x -> ccnt (fun w => f w / c)%C x.
Proof. intros. unfold Cdiv. apply ccnt_mult; [assumption|apply ccnt_const]. Qed.
Lemma ccnt_R f x : continuous f x -> ccnt (fun w => RtoC (f w)) x.
Proof. intros H. split; cbn [RtoC fst snd]; [exact H|apply continuous_const]. Qed.
Lemma cm_exp (f : R -> R) x : continuous f x -> continuous (fun w => exp (f w)) x.
Proof. intros H. apply (continuous_comp f exp); [exact H|apply continuity_pt_filterlim, derivable_continuous_pt, derivable_pt_exp]. Qed.
Lemma cm_sqrt (f : R -> R) x : continuous f x -> continuous (fun w => sqrt (f w)) x.
Proof. intros H. apply (continuous_comp f sqrt); [exact H|apply continuous_sqrt]. Qed.
Lemma ccnt_cexp f x : ccnt f x -> ccnt (fun w => cexp (f w)) x.
Proof.
  intros [A B]. unfold cexp. apply (ccnt_mult (fun w => RtoC (exp (fst (f w)))) (fun w => expi (snd (f w)))).
  - apply (ccnt_R (fun w => exp (fst (f w)))). apply cm_exp. exact A.
  - split; unfold expi; cbn [fst snd].
    + apply (continuous_comp (fun w => snd (f w)) cos); [exact B|apply continuous_cos].
    + apply (continuous_comp (fun w => snd (f w)) sin); [exact B|apply continuous_sin].
Qed.

(** chi is continuous *)
Lemma chi_alt w g e : chi w g e = (sqrt (e * (w * w) - g * g), sqrt (- (e * (w * w) - g * g))).
Proof.
  unfold chi, Rleb. destruct (Rle_dec 0 (e * (w * w) - g * g)) as [H|H].
  - apply (f_equal2 pair); [reflexivity|]. symmetry. apply sqrt_neg_0. lra.
  - unfold Cmult, Ci, RtoC. cbn [fst snd]. apply (f_equal2 pair); [|ring]. rewrite (sqrt_neg_0 (e * (w * w) - g * g)) by lra. ring.
Qed.
Lemma cm_sqarg g e x : continuous (fun w => e * (w * w) - g * g) x.
Proof. apply (continuous_minus (fun w => e * (w * w)) (fun _ => g * g)); [|apply continuous_const]. apply cm_mult; [apply continuous_const|]. apply cm_mult; apply continuous_id. Qed.
Lemma ccnt_chi g e x : ccnt (fun w => chi w g e) x.
Proof.
  apply (ccnt_ext (fun w => (sqrt (e * (w * w) - g * g), sqrt (- (e * (w * w) - g * g))))); [intros; symmetry; apply chi_alt|].
  split; cbn [fst snd]; apply cm_sqrt; [apply cm_sqarg|]. apply (continuous_opp (fun w => e * (w * w) - g * g)). apply cm_sqarg.
Qed.

(** ** matrices *)
Definition mcnt (f : R -> m2) (x : R) : Prop :=
  ccnt (fun w => m11 (f w)) x /\ ccnt (fun w => m12 (f w)) x /\ ccnt (fun w => m21 (f w)) x /\ ccnt (fun w => m22 (f w)) x.
Definition mzero : m2 := M2 (RtoC 0) (RtoC 0) (RtoC 0) (RtoC 0).
Lemma mcnt_mul f g x : mcnt f x -> mcnt g x -> mcnt (fun w => m2mul (f w) (g w)) x.
Proof.
  intros (a & b & c & d) (a' & b' & c' & d'). unfold mcnt, m2mul. cbn [m11 m12 m21 m22].
  split; [|split; [|split]].
  - apply (ccnt_plus (fun w => m11 (f w) * m11 (g w))%C (fun w => m12 (f w) * m21 (g w))%C); apply ccnt_mult; assumption.
  - apply (ccnt_plus (fun w => m11 (f w) * m12 (g w))%C (fun w => m12 (f w) * m22 (g w))%C); apply ccnt_mult; assumption.
  - apply (ccnt_plus (fun w => m21 (f w) * m11 (g w))%C (fun w => m22 (f w) * m21 (g w))%C); apply ccnt_mult; assumption.
  - apply (ccnt_plus (fun w => m21 (f w) * m12 (g w))%C (fun w => m22 (f w) * m22 (g w))%C); apply ccnt_mult; assumption.
Qed.

Lemma m2mul_zero_l b : m2mul mzero b = mzero. Proof. unfold m2mul, mzero. cbn [m11 m12 m21 m22]. f_equal; ring. Qed.
Lemma m2mul_zero_r a : m2mul a mzero = mzero. Proof. unfold m2mul, mzero. cbn [m11 m12 m21 m22]. f_equal; ring. Qed.

(** continuous at x, or zero there *)
Definition good (f : R -> m2) : Prop := forall x, mcnt f x \/ f x = mzero.

Lemma D_loop_fun : forall (Ss Ts : list (R -> m2)) (D : R -> m2), good D -> (forall f, In f Ss -> good f) -> (forall f x, In f Ts -> mcnt f x) ->
  (exists e, forall w, D_loop (D w) (map (fun f => f w) Ss) (map (fun f => f w) Ts) = Raise e) \/
  (exists E, good E /\ forall w, D_loop (D w) (map (fun f => f w) Ss) (map (fun f => f w) Ts) = Ok (E w)).
Proof.
  induction Ss as [|S1 Ss IH]; intros Ts D HD HS HT; [right; exists D; split; [exact HD|reflexivity]|].
  destruct Ts as [|T Ts]; [left; exists IndexError; reflexivity|]. cbn [map D_loop].
  apply (IH Ts (fun w => m2mul (S1 w) (m2mul (T w) (m2mul (T w) (D w))))); [|intros; apply HS; right; assumption|intros; apply HT; right; assumption].
  intros x. destruct (HD x) as [HD'|HD'].
  - destruct (HS S1 (or_introl eq_refl) x) as [HS'|HS'].
    + left. pose proof (HT T x (or_introl eq_refl)) as HT'. apply mcnt_mul; [exact HS'|]. apply mcnt_mul; [exact HT'|]. apply mcnt_mul; assumption.
    + right. rewrite HS'. apply m2mul_zero_l.
  - right. rewrite HD', !m2mul_zero_r. reflexivity.
Qed.

Lemma good_S (a b p q : R -> C) : (forall x, ccnt a x) -> (forall x, ccnt b x) -> (forall x, ccnt q x) -> (forall w, p w = (RtoC (/ 2) / q w)%C) ->
  good (fun w => M2 (p w * a w)%C (p w * b w)%C (p w * b w)%C (p w * a w)%C).
Proof.
  intros Ha Hb Hq Hp x. destruct (classic (q x = RtoC 0)) as [E|E].
  - right. rewrite Hp, E. unfold mzero, Cdiv. assert (Z : (/ RtoC 0)%C = RtoC 0). { unfold Cinv, RtoC. cbn [fst snd]. apply (f_equal2 pair); unfold Rdiv; ring. } rewrite Z. f_equal; ring.
  - left. assert (Cp : ccnt p x). { apply (ccnt_ext (fun w => RtoC (/ 2) / q w)%C); [intros; rewrite Hp; reflexivity|]. apply ccnt_div; [apply ccnt_const|apply Hq|exact E]. }
    unfold mcnt. cbn [m11 m12 m21 m22]. split; [|split; [|split]]; apply ccnt_mult; auto.
Qed.
Lemma good_TE g e1 e2 : good (fun w => S_TE (chi w g e1, e1) (chi w g e2, e2)).
Proof.
  apply (good_S (fun w => chi w g e1 + chi w g e2)%C (fun w => - chi w g e1 + chi w g e2)%C (fun w => RtoC (/ 2) / chi w g e2)%C (fun w => chi w g e2)); intros; try reflexivity; try apply ccnt_chi.
  - apply ccnt_plus; apply ccnt_chi.
  - apply ccnt_plus; [apply ccnt_opp|]; apply ccnt_chi.
Qed.
Lemma good_TM g e1 e2 : good (fun w => S_TM (chi w g e1, e1) (chi w g e2, e2)).
Proof.
  apply (good_S (fun w => chi w g e1 / RtoC e1 + chi w g e2 / RtoC e2)%C (fun w => - chi w g e1 / RtoC e1 + chi w g e2 / RtoC e2)%C (fun w => RtoC (/ 2) / (chi w g e2 / RtoC e2))%C (fun w => chi w g e2 / RtoC e2)%C); intros; try reflexivity.
  - apply (ccnt_plus (fun w => chi w g e1 / RtoC e1)%C (fun w => chi w g e2 / RtoC e2)%C); apply ccnt_divc; apply ccnt_chi.
  - apply (ccnt_plus (fun w => - chi w g e1 / RtoC e1)%C (fun w => chi w g e2 / RtoC e2)%C); apply ccnt_divc; [apply (ccnt_opp (fun w => chi w g e1))|]; apply ccnt_chi.
  - apply ccnt_divc; apply ccnt_chi.
Qed.
Lemma cnt_T g e d x : mcnt (fun w => T_half (chi w g e, d)) x.
Proof.
  unfold mcnt, T_half. cbn [m11 m12 m21 m22]. split; [|split; [apply ccnt_const|split; [apply ccnt_const|]]].
  - apply (ccnt_cexp (fun w => Ci * chi w g e * RtoC d / 2)%C). apply (ccnt_divc (fun w => Ci * chi w g e * RtoC d)%C).
    apply (ccnt_mult (fun w => Ci * chi w g e)%C (fun _ => RtoC d)); [apply ccnt_mult; [apply ccnt_const|apply ccnt_chi]|apply ccnt_const].
  - apply (ccnt_cexp (fun w => - Ci * chi w g e * RtoC d / 2)%C). apply (ccnt_divc (fun w => - Ci * chi w g e * RtoC d)%C).
    apply (ccnt_mult (fun w => - Ci * chi w g e)%C (fun _ => RtoC d)); [apply ccnt_mult; [apply ccnt_const|apply ccnt_chi]|apply ccnt_const].
Qed.

Lemma pairs_combine w g : forall eps, pairs (combine (chi_array w g eps) eps) = map (fun p => ((chi w g (fst p), fst p), (chi w g (snd p), snd p))) (pairs eps).
Proof.
  induction eps as [|e1 [|e2 l] IH]; try reflexivity. unfold chi_array in *. cbn [map combine pairs]. f_equal. exact IH.
Qed.
Lemma inner_map {A B} (f : A -> B) l : inner (map f l) = map f (inner l).
Proof.
  unfold inner. destruct l as [|x l]; [reflexivity|]. cbn [tl map]. induction l as [|y [|z l] IH]; try reflexivity. cbn [map removelast] in *. f_equal. exact IH.
Qed.
Lemma combine_map_l {A B D} (f : A -> B) : forall (l : list A) (m : list D), combine (map f l) m = map (fun p => (f (fst p), snd p)) (combine l m).
Proof. induction l as [|x l IH]; intros [|y m]; try reflexivity. cbn [map combine fst snd]. f_equal. apply IH. Qed.

Lemma good_real (E : R -> m2) x : good E -> fst (m22 (E x)) <> 0 -> continuous (fun w => fst (m22 (E w))) x.
Proof. intros H N. destruct (H x) as [(_ & _ & _ & K & _)|Z]; [exact K|]. rewrite Z in N. cbn in N. lra. Qed.

Lemma nlayer_cont pol g eps ds (D : R -> R) : (forall w, D w = match D22_nlayer pol w g eps ds with Ok z => fst z | Raise _ => 0 end) ->
  forall x, D x <> 0 -> continuous D x.
Proof.
  intros HD x N.
  assert (K : forall Sm, (forall e1 e2, good (fun w => Sm (chi w g e1, e1) (chi w g e2, e2))) ->
    (exists e, forall w, (let* ST := S_T_matrices Sm w g eps ds in match fst ST with [] => Raise IndexError | S0 :: Ss => let* D := D_loop S0 Ss (snd ST) in Ok (m22 D) end) = Raise e) \/
    (exists E, good E /\ forall w, (let* ST := S_T_matrices Sm w g eps ds in match fst ST with [] => Raise IndexError | S0 :: Ss => let* D := D_loop S0 Ss (snd ST) in Ok (m22 D) end) = Ok (m22 (E w)))).
  { intros Sm HS. unfold S_T_matrices. destruct (Nat.eqb (List.length ds + 2) (List.length eps)); [|left; exists AssertionError; reflexivity].
    set (Sf := map (fun p => fun w => Sm (chi w g (fst p), fst p) (chi w g (snd p), snd p)) (pairs eps)).
    set (Tf := map (fun p => fun w => T_half (chi w g (fst p), snd p)) (combine (inner eps) ds)).
    assert (ES : forall w, map (fun p => Sm (fst p) (snd p)) (pairs (combine (chi_array w g eps) eps)) = map (fun f => f w) Sf).
    { intros w. rewrite pairs_combine. unfold Sf. rewrite !map_map. reflexivity. }
    assert (ET : forall w, map T_half (combine (inner (chi_array w g eps)) ds) = map (fun f => f w) Tf).
    { intros w. unfold chi_array. rewrite inner_map, combine_map_l. unfold Tf. rewrite !map_map. reflexivity. }
    assert (GS : forall f, In f Sf -> good f) by (intros f Hf; apply in_map_iff in Hf; destruct Hf as (p & <- & _); apply HS).
    assert (GT : forall f x, In f Tf -> mcnt f x) by (intros f y Hf; apply in_map_iff in Hf; destruct Hf as (p & <- & _); apply cnt_T).
    destruct Sf as [|S0 Ss].
    - left. exists IndexError. intros w. rewrite ES. reflexivity.
    - destruct (D_loop_fun Ss Tf S0 (GS S0 (or_introl eq_refl)) (fun f H => GS f (or_intror H)) GT) as [(e & He)|(E & GE & HE)].
      + left. exists e. intros w. rewrite ES, ET. cbn [bind fst snd map]. rewrite He. reflexivity.
      + right. exists E. split; [exact GE|]. intros w. rewrite ES, ET. cbn [bind fst snd map]. rewrite HE. reflexivity. }
  assert (F : forall Sm, (forall e1 e2, good (fun w => Sm (chi w g e1, e1) (chi w g e2, e2))) ->
    (forall w, D w = match (let* ST := S_T_matrices Sm w g eps ds in match fst ST with [] => Raise IndexError | S0 :: Ss => let* D := D_loop S0 Ss (snd ST) in Ok (m22 D) end) with Ok z => fst z | Raise _ => 0 end) -> continuous D x).
  { intros Sm HS HD'. destruct (K Sm HS) as [(e & He)|(E & GE & HE)].
    - elim N. rewrite HD', He. reflexivity.
    - apply (continuous_ext (fun w => fst (m22 (E w)))); [intros w; rewrite HD', HE; reflexivity|]. apply good_real; [exact GE|]. rewrite HD', HE in N. exact N. }
  unfold D22_nlayer in HD. destruct (is_te pol); [exact (F S_TE (good_TE g) HD)|]. destruct (is_tm pol); [exact (F S_TM (good_TM g) HD)|].
  elim N. rewrite HD. reflexivity.
Qed.

Lemma ccnt_ccos f x : ccnt f x -> ccnt (fun w => ccos (f w)) x.
Proof.
  intros H. unfold ccos. apply (ccnt_divc (fun w => cexp (Ci * f w) + cexp (- (Ci * f w)))%C). apply (ccnt_plus (fun w => cexp (Ci * f w)%C) (fun w => cexp (- (Ci * f w)))%C).
  - apply (ccnt_cexp (fun w => Ci * f w)%C). apply ccnt_mult; [apply ccnt_const|exact H].
  - apply (ccnt_cexp (fun w => - (Ci * f w))%C). apply (ccnt_opp (fun w => Ci * f w)%C). apply ccnt_mult; [apply ccnt_const|exact H].
Qed.
Lemma ccnt_csin f x : ccnt f x -> ccnt (fun w => csin (f w)) x.
Proof.
  intros H. unfold csin, Cminus. apply (ccnt_divc (fun w => cexp (Ci * f w) + - cexp (- (Ci * f w)))%C). apply (ccnt_plus (fun w => cexp (Ci * f w)%C) (fun w => - cexp (- (Ci * f w)))%C).
  - apply (ccnt_cexp (fun w => Ci * f w)%C). apply ccnt_mult; [apply ccnt_const|exact H].
  - apply (ccnt_opp (fun w => cexp (- (Ci * f w)))%C). apply (ccnt_cexp (fun w => - (Ci * f w))%C). apply (ccnt_opp (fun w => Ci * f w)%C). apply ccnt_mult; [apply ccnt_const|exact H].
Qed.
Lemma three_cont pol g e1 e2 e3 ds (D : R -> R) : (forall w, D w = match D22_3layer pol w g e1 e2 e3 ds with Ok z => fst z | Raise _ => 0 end) ->
  forall x, continuous D x.
Proof.
  intros HD x. apply (continuous_ext (fun w => match D22_3layer pol w g e1 e2 e3 ds with Ok z => fst z | Raise _ => 0 end)); [intros; rewrite HD; reflexivity|].
  unfold D22_3layer, chis_3layer. destruct ds as [|d [|]]; try apply continuous_const.
  set (c1 := fun w => (Ci * RtoC (sqrt (g * g - e1 * (w * w))))%C). set (c2 := fun w => RtoC (sqrt (- (g * g) + e2 * (w * w)))). set (c3 := fun w => (Ci * RtoC (sqrt (g * g - e3 * (w * w))))%C).
  assert (Q : forall e, continuous (fun w => g * g - e * (w * w)) x).
  { intros e. apply (continuous_minus (fun _ => g * g) (fun w => e * (w * w))); [apply continuous_const|]. apply cm_mult; [apply continuous_const|]. apply cm_mult; apply continuous_id. }
  assert (K1 : ccnt c1 x) by (apply ccnt_mult; [apply ccnt_const|apply (ccnt_R (fun w => sqrt (g * g - e1 * (w * w)))); apply cm_sqrt; apply Q]).
  assert (K3 : ccnt c3 x) by (apply ccnt_mult; [apply ccnt_const|apply (ccnt_R (fun w => sqrt (g * g - e3 * (w * w)))); apply cm_sqrt; apply Q]).
  assert (K2 : ccnt c2 x).
  { apply ccnt_R. apply cm_sqrt. apply (continuous_plus (fun _ => - (g * g)) (fun w => e2 * (w * w))); [apply continuous_const|]. apply cm_mult; [apply continuous_const|]. apply cm_mult; apply continuous_id. }
  assert (KC : ccnt (fun w => - Ci * ccos (c2 w * RtoC d))%C x) by (apply ccnt_mult; [apply ccnt_const|apply ccnt_ccos; apply ccnt_mult; [exact K2|apply ccnt_const]]).
  assert (KS : ccnt (fun w => - csin (c2 w * RtoC d))%C x) by (apply (ccnt_opp (fun w => csin (c2 w * RtoC d)%C)); apply ccnt_csin; apply ccnt_mult; [exact K2|apply ccnt_const]).
  destruct (is_te pol); [|destruct (is_tm pol); [|apply continuous_const]].
  - refine (proj1 (_ : ccnt (fun w => c2 w * (c1 w + c3 w) * (- Ci * ccos (c2 w * RtoC d)) + (c1 w * c3 w + c2 w * c2 w) * (- csin (c2 w * RtoC d)))%C x)).
    apply ccnt_plus; apply ccnt_mult; try assumption; [apply ccnt_mult; [assumption|apply ccnt_plus; assumption]|apply ccnt_plus; apply ccnt_mult; assumption].
  - refine (proj1 (_ : ccnt (fun w => c2 w / RtoC e2 * (c1 w / RtoC e1 + c3 w / RtoC e3) * (- Ci * ccos (c2 w * RtoC d)) + (c1 w / RtoC e1 * c3 w / RtoC e3 + (c2 w / RtoC e2) * (c2 w / RtoC e2)) * (- csin (c2 w * RtoC d)))%C x)).
    apply ccnt_plus; apply ccnt_mult; try assumption.
    + apply ccnt_mult; [apply ccnt_divc; assumption|]. apply ccnt_plus; apply ccnt_divc; assumption.
    + apply ccnt_plus; [apply ccnt_divc; apply ccnt_mult; [apply ccnt_divc; assumption|assumption]|apply ccnt_mult; apply ccnt_divc; assumption].
Qed.

Lemma D22_cont pol g eps ds x : D22real pol g eps ds x <> 0 -> continuous (D22real pol g eps ds) x.
Proof.
  intros N. destruct eps as [|e1 [|e2 [|e3 [|e4 l]]]]; try (refine (nlayer_cont pol g _ ds _ (fun w => eq_refl) x N)).
  refine (three_cont pol g e1 e2 e3 ds _ (fun w => eq_refl) x).
Qed.

Lemma root_between (f : R -> R) : (forall x, f x <> 0 -> continuous f x) -> forall a b, a < b -> f a * f b < 0 -> exists c, a < c < b /\ f c = 0.
Proof.
  intros Hf a b Hab Hs. apply NNPP. intros N.
  assert (NZ : forall x, a <= x <= b -> f x <> 0).
  { intros x Hx E. destruct (Req_dec x a) as [->|]; [rewrite E in Hs; lra|]. destruct (Req_dec x b) as [->|]; [rewrite E in Hs; lra|]. apply N. exists x. split; [lra|exact E]. }
  assert (Cn : forall x, a <= x <= b -> continuity_pt f x) by (intros x Hx; apply continuity_pt_filterlim; apply Hf; apply NZ; exact Hx).
  destruct (Rlt_dec (f a) 0) as [L|L].
  - destruct (IVT_interv f a b Cn Hab L ltac:(nra)) as (z & Hz & E). exact (NZ z Hz E).
  - assert (0 < f a) by (pose proof (NZ a ltac:(lra)); lra).
    destruct (IVT_interv (fun x => - f x) a b) as (z & Hz & E); try lra; [|nra|].
    + intros x Hx. apply (continuity_pt_opp f). apply Cn. exact Hx.
    + apply (NZ z Hz). lra.
Qed.

Lemma finds_roots_exists : exists root, forall pol g eps ds, finds_roots root (D22real pol g eps ds).
Proof.
  exists (fun f a b => epsilon (inhabits 0) (fun c => a < c < b /\ f c = 0)). intros pol g eps ds a b Hab Hs.
  apply (epsilon_spec (inhabits 0) (fun c => a < c < b /\ D22real pol g eps ds c = 0)). apply root_between; [apply D22_cont|exact Hab|exact Hs].
Qed.
