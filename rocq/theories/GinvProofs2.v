(** Moving the crystal multiplies the inverse permittivities by phases. *)
From Coq Require Import Permutation List.
From Verif Require Import Py CBase LatticeModel LatticeSpec LatticeProofs PhcModel PhcSpec RecipModel RecipSpec RecipProofs RecipProofs2 RecipProofs3 RecipProofs4 RecipProofs5 MatElModel RunModel RunSpec PweSpec PweProofs3 InvSpec InvProofs InvProofs2 InvProofs3 GinvSpec.
Open Scope R_scope.
Open Scope list_scope.

Lemma inv_twist inv n A A' sg u : inverts inv -> perm_on n sg -> (forall i, (i < n)%nat -> (u i * Cconj (u i))%C = RtoC 1) ->
  (exists B, is_inverse n A B) -> (forall i j, (i < n)%nat -> (j < n)%nat -> A' i j = (u i * A (sg i) (sg j) * Cconj (u j))%C) ->
  forall i j, (i < n)%nat -> (j < n)%nat -> inv n A' i j = (u i * inv n A (sg i) (sg j) * Cconj (u j))%C.
Proof.
  intros Hi P U HB E i j Ii Ij. pose proof (Hi n A HB) as I.
  pose proof (twist_inverse n sg u (fun z => z) P U id_auto _ _ I) as T.
  assert (T' : is_inverse n A' (twist sg u (fun z => z) (inv n A))) by (apply (inverse_ext n (twist sg u (fun z => z) A)); [intros; rewrite E by auto; reflexivity|exact T]).
  apply (inverse_unique n A' (inv n A') (twist sg u (fun z => z) (inv n A))); auto. apply Hi. eexists. exact T'.
Qed.
Lemma map_select {A B} (f : A -> B) m l : map f (select m l) = select m (map f l).
Proof. revert l. induction m as [|b m IH]; intros [|x l]; try reflexivity. cbn [select map]. destruct b; cbn [map]; rewrite IH; reflexivity. Qed.
Lemma map_tl {A B} (f : A -> B) l : map f (tl l) = tl (map f l).
Proof. destruct l; reflexivity. Qed.
Lemma expi_cmod a : Cmod (expi a) = 1.
Proof. unfold Cmod, expi. cbn [fst snd]. rewrite <- sqrt_1. f_equal. pose proof (sin2_cos2 a). unfold Rsqr in *. simpl. lra. Qed.
Lemma invert_flip n A : (exists B, is_inverse n A B) -> exists B, is_inverse n (fun i j => A j i) B.
Proof.
  intros (B & H1 & H2). exists (fun i j => B j i). split; intros i j Hi Hj.
  - transitivity (mmul n B A j i); [|rewrite H2 by auto; unfold mid; rewrite Nat.eqb_sym; reflexivity]. unfold mmul. apply csum_ext. intros. ring.
  - transitivity (mmul n A B j i); [|rewrite H1 by auto; unfold mid; rewrite Nat.eqb_sym; reflexivity]. unfold mmul. apply csum_ext. intros. ring.
Qed.
Lemma diag_phase n u c i j : (forall i, (i < n)%nat -> (u i * Cconj (u i))%C = RtoC 1) -> (i < n)%nat -> (j < n)%nat ->
  Cdiv (if Nat.eqb i j then RtoC 1 else RtoC 0) c = (u i * Cdiv (if Nat.eqb i j then RtoC 1 else RtoC 0) c * Cconj (u j))%C.
Proof.
  intros U Hi Hj. destruct (Nat.eqb_spec i j) as [->|_]; [|unfold Cdiv; ring]. transitivity ((u j * Cconj (u j)) * Cdiv (RtoC 1) c)%C; [rewrite U by auto; ring|ring].
Qed.

(** ** abs *)
Lemma abs_einv_moved inv only args L gmax fuel rc ft ft' t : inverts inv -> lattice_init args = Ok L -> independent (lt_a1 L) (lt_a2 L) -> 0 <= gmax ->
  recip_abs fuel L gmax = Some (Ok rc) -> conj_symmetric ft -> conj_symmetric ft' -> let gs := rc_g rc in let n := List.length gs in
  moved_on (difference_of gs) t ft ft' -> (exists B, is_inverse n (fun i j => ft (diff (nth i gs (0, 0)) (nth j gs (0, 0)))) B) ->
  let u i := expi (inner (nth i gs (0, 0)) t) in
  forall i j, (i < n)%nat -> (j < n)%nat -> eps_inv_abs inv only L ft' rc i j = (u i * eps_inv_abs inv only L ft rc i j * Cconj (u j))%C.
Proof.
  intros HI HL Ha Hg HR Hc Hc' gs n MO HB u i j Hi Hj. pose proof (indep_recip _ _ HL Ha) as Hb.
  destruct (recip_abs_form L gmax Hg Hb) as (n1 & n2 & k & _ & _ & _ & _ & _ & F & _).
  destruct (F _ _ HR) as (rc' & E & G & I & _). injection E as E. subst rc'.
  pose proof (abs_g_len _ _ _ G) as GL. fold gs n in GL.
  pose proof (abs_T1_len L ft rc _ I) as TL. pose proof (abs_T1_len L ft' rc _ I) as TL'.
  assert (U : forall i, (i < n)%nat -> (u i * Cconj (u i))%C = RtoC 1) by (intros; apply expi_mod).
  assert (EN : forall f, conj_symmetric f -> forall i j, (i < n)%nat -> (j < n)%nat -> nth (i * n + j) (T1_abs L f rc) (RtoC 0) = f (diff (nth j gs (0, 0)) (nth i gs (0, 0)))).
  { intros f Hf a b Ia Ib. pose proof (abs_entry L f rc _ G I Hf a b) as AE. rewrite <- GL in AE. apply AE; auto. }
  assert (MV : forall a b, (a < n)%nat -> (b < n)%nat -> ft' (diff (nth b gs (0, 0)) (nth a gs (0, 0))) = (u a * ft (diff (nth b gs (0, 0)) (nth a gs (0, 0))) * Cconj (u b))%C).
  { intros a b Ia Ib. rewrite MO by (exists (nth b gs (0, 0)), (nth a gs (0, 0)); split; [apply nth_In; auto|]; split; [apply nth_In; auto|reflexivity]).
    unfold u. rewrite expi_conj. replace (- inner (diff (nth b gs (0, 0)) (nth a gs (0, 0))) t) with (inner (nth a gs (0, 0)) t + - inner (nth b gs (0, 0)) t) by (unfold inner, diff; cbn [fst snd]; ring).
    rewrite expi_plus. ring. }
  assert (SP : forall k, (k < n * n)%nat -> exists a b, (k = a * n + b)%nat /\ (a < n)%nat /\ (b < n)%nat).
  { intros q Hq. exists (q / n)%nat, (q mod n)%nat. assert (n <> 0)%nat by lia. split; [|split].
    - rewrite Nat.mul_comm. apply Nat.div_mod. auto.
    - apply Nat.div_lt_upper_bound; auto.
    - apply Nat.mod_upper_bound. auto. }
  assert (TM : map Cmod (T1_abs L ft' rc) = map Cmod (T1_abs L ft rc)).
  { apply (nth_ext _ _ 0 0); [rewrite !map_length; congruence|]. intros q Hq. rewrite map_length, TL', <- GL in Hq.
    rewrite !(nth_map_lt Cmod _ _ (RtoC 0)) by (rewrite ?TL, ?TL', <- GL; auto). destruct (SP q Hq) as (a & b & -> & Ia & Ib).
    rewrite !EN by auto. rewrite MV by auto. unfold u. rewrite expi_conj, !Cmod_mult, !expi_cmod. ring. }
  assert (HM : hom_abs (G1_abs rc) (T1_abs L ft' rc) = hom_abs (G1_abs rc) (T1_abs L ft rc)).
  { unfold hom_abs, keep. rewrite !map_select, TM. reflexivity. }
  unfold eps_inv_abs. rewrite HM. destruct (hom_abs _ _ || only)%bool eqn:Eh.
  - assert (T0 : nth (argmin (map norm2 (G1_abs rc))) (T1_abs L ft' rc) (RtoC 0) = nth (argmin (map norm2 (G1_abs rc))) (T1_abs L ft rc) (RtoC 0)).
    { assert (P : (0 < n)%nat) by lia.
        assert (A0 : argmin (map norm2 (G1_abs rc)) = 0%nat).
        { assert (HD : exists t, G1_abs rc = (0, 0) :: t).
          { unfold G1_abs, grid_diff. fold gs. assert (GN : gs <> []) by (intros ZZ; unfold n in P; rewrite ZZ in P; simpl in P; lia). destruct gs as [|g l]; [congruence|]. cbn [flat_map map app]. eexists. f_equal. unfold RecipModel.vsub. f_equal; ring. }
          destruct HD as (t0 & ->). cbn [map argmin]. rewrite norm2_len, (len_val 0 0 0) by lra.
          assert (AF : forall l b, (forall x, In x l -> 0 <= x) -> argmin_from 0 0 b l = 0%nat).
          { induction l as [|x l IH]; intros b Hx; auto. cbn [argmin_from]. rewrite (proj2 (Rltb_false x 0)); [apply IH; intros; apply Hx; right; auto|].
            specialize (Hx x (or_introl eq_refl)). lra. }
          apply AF. intros x Hx. apply in_map_iff in Hx. destruct Hx as (g & <- & _). rewrite norm2_len. apply len_pos. }
        rewrite A0. change 0%nat with (0 * n + 0)%nat. rewrite !EN by auto. rewrite MV by auto. transitivity ((u 0%nat * Cconj (u 0%nat)) * ft (diff (nth 0 gs (0, 0)) (nth 0 gs (0, 0))))%C; [ring|rewrite U by auto; ring]. }
    rewrite T0. apply (diag_phase n); auto.
  - fold gs n. apply (inv_twist inv n (eps_mat_abs L ft rc) (eps_mat_abs L ft' rc) (fun i => i) u HI (perm_id n) U); auto.
    + destruct (invert_flip n _ HB) as (B & HB'). exists B. apply (inverse_ext n (fun i j => ft (diff (nth j gs (0, 0)) (nth i gs (0, 0))))); [|exact HB'].
      intros a b Ia Ib. unfold eps_mat_abs. fold gs n. rewrite EN by auto. reflexivity.
    + intros a b Ia Ib. unfold eps_mat_abs. fold gs n. rewrite !EN by auto. apply MV; auto.
Qed.

(** ** tbt *)
Lemma snap_idle gs F l : nothing_dropped gs F -> (forall g, In g l -> difference_of gs g) -> snap (map F l) = map F l.
Proof.
  intros ND H. unfold snap. destruct (Rltb _ _) eqn:E; [|reflexivity]. rewrite map_map. apply map_ext_in. intros g Hg.
  destruct (tiny_bound (map F l) (F g) E (in_map F l g Hg)) as (w & Hw & B). apply in_map_iff in Hw. destruct Hw as (h & <- & Hh).
  destruct (ND g h (H g Hg) (H h Hh)) as [Z|Z]; [|lra]. unfold RtoC. rewrite (surjective_pairing (F g)), Z. reflexivity.
Qed.
Lemma tbt_entry args L gmax F : lattice_init args = Ok L -> independent (lt_a1 L) (lt_a2 L) -> 0 <= gmax -> conj_symmetric F ->
  let gs := rc_g (recip_tbt L gmax) in nothing_dropped gs F -> forall i j, (i < List.length gs)%nat -> (j < List.length gs)%nat ->
  eps_mat_tbt F (recip_tbt L gmax) i j = F (diff (nth i gs (0, 0)) (nth j gs (0, 0))).
Proof.
  intros HL Ha Hg Hc gs ND i j Hi Hj. destruct (tbt_matrix args L gmax F HL Ha Hg Hc) as (_ & M).
  destruct (M i j (nth i gs (0, 0)) (nth j gs (0, 0))) as [E|(E & g & g' & Ig & Ig' & B)]; [apply nth_error_nth'; auto|apply nth_error_nth'; auto|exact E|].
  rewrite E. destruct (ND (diff (nth i gs (0, 0)) (nth j gs (0, 0))) (diff g g')) as [Z|Z].
  - exists (nth i gs (0, 0)), (nth j gs (0, 0)). split; [apply nth_In; auto|]. split; [apply nth_In; auto|reflexivity].
  - exists g, g'. auto.
  - unfold RtoC. set (z := F _) in *. rewrite (surjective_pairing z), Z. reflexivity.
  - lra.
Qed.
Lemma tbt_einv_moved inv only args L gmax ft ft' t : inverts inv -> lattice_init args = Ok L -> independent (lt_a1 L) (lt_a2 L) -> 0 <= gmax ->
  conj_symmetric ft -> conj_symmetric ft' -> let rc := recip_tbt L gmax in let gs := rc_g rc in let n := List.length gs in
  nothing_dropped gs ft -> nothing_dropped gs ft' ->
  moved_on (difference_of gs) t ft ft' -> (exists B, is_inverse n (fun i j => ft (diff (nth i gs (0, 0)) (nth j gs (0, 0)))) B) ->
  let u i := expi (- inner (nth i gs (0, 0)) t) in
  forall i j, (i < n)%nat -> (j < n)%nat -> eps_inv_tbt inv only ft' rc i j = (u i * eps_inv_tbt inv only ft rc i j * Cconj (u j))%C.
Proof.
  intros HI HL Ha Hg Hc Hc' rc gs n ND ND' MO HB u i j Hi Hj.
  assert (U : forall i, (i < n)%nat -> (u i * Cconj (u i))%C = RtoC 1) by (intros; apply expi_mod).
  assert (G1D : forall g, In g (G1_of gs) -> difference_of gs g).
  { intros g Ig. unfold G1_of in Ig. apply in_map_iff in Ig. destruct Ig as (h & <- & Ih). exists (nthg gs 0), h. split; [apply nth_In; unfold n in Hi; fold gs; lia|]. split; auto. }
  assert (T1 : T1_tbt ft rc = map ft (G1_of gs)) by (apply (snap_idle gs); auto).
  assert (T1' : T1_tbt ft' rc = map ft' (G1_of gs)) by (apply (snap_idle gs); auto).
  assert (MC : map Cmod (T1_tbt ft' rc) = map Cmod (T1_tbt ft rc)).
  { rewrite T1, T1', !map_map. apply map_ext_in. intros g Ig. rewrite MO by auto. rewrite Cmod_mult, expi_cmod. ring. }
  assert (TL : List.length (T1_tbt ft rc) = n) by (rewrite T1, map_length; unfold G1_of; rewrite map_length; reflexivity).
  assert (TL' : List.length (T1_tbt ft' rc) = n) by (rewrite T1', map_length; unfold G1_of; rewrite map_length; reflexivity).
  assert (HM : hom_tbt (T1_tbt ft' rc) = hom_tbt (T1_tbt ft rc)) by (unfold hom_tbt; rewrite !map_tl, MC; reflexivity).
  unfold eps_inv_tbt. rewrite HM. destruct (hom_tbt _ || only)%bool eqn:Eh.
  - assert (T0 : nth 0 (T1_tbt ft' rc) (RtoC 0) = nth 0 (T1_tbt ft rc) (RtoC 0)).
    { rewrite T1, T1'. rewrite !(nth_map_lt _ _ _ (0, 0)) by (unfold G1_of; rewrite map_length; fold n; lia).
      assert (Z : nth 0 (G1_of gs) (0, 0) = (0, 0)). { unfold G1_of. rewrite (nth_map_lt _ _ _ (0, 0)) by (fold n; lia). unfold nthg, RecipModel.vsub. f_equal; ring. }
      rewrite MO by (apply G1D; apply nth_In; unfold G1_of; rewrite map_length; fold n; lia). rewrite Z. unfold inner. cbn [fst snd]. replace (- (0 * fst t + 0 * snd t)) with 0 by ring. rewrite expi_0. ring. }
    rewrite T0. apply (diag_phase n); auto.
  - rewrite TL, TL'. apply (inv_twist inv n (eps_mat_tbt ft rc) (eps_mat_tbt ft' rc) (fun i => i) u HI (perm_id n) U); auto.
    + destruct HB as (B & HB'). exists B. apply (inverse_ext n (fun i j => ft (diff (nth i gs (0, 0)) (nth j gs (0, 0))))); [|exact HB'].
      intros a b Ia Ib. symmetry. apply (tbt_entry args L gmax ft HL Ha Hg Hc ND); auto.
    + intros a b Ia Ib. unfold rc. rewrite (tbt_entry args L gmax ft HL Ha Hg Hc ND), (tbt_entry args L gmax ft' HL Ha Hg Hc' ND') by auto. fold rc gs.
      rewrite MO by (exists (nth a gs (0, 0)), (nth b gs (0, 0)); split; [apply nth_In; auto|]; split; [apply nth_In; auto|reflexivity]).
      unfold u. rewrite expi_conj. replace (- inner (diff (nth a gs (0, 0)) (nth b gs (0, 0))) t) with (- inner (nth a gs (0, 0)) t + - - inner (nth b gs (0, 0)) t) by (unfold inner, diff; cbn [fst snd]; ring).
      rewrite expi_plus. ring.
Qed.
