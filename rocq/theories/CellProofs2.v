(** ftinv with distinct reciprocal vectors is the plain sum of waves; the vectors
    of an expansion are distinct reciprocal vectors. *)
From Coq Require Import List.
From Verif Require Import Py CBase LatticeModel LatticeSpec LatticeProofs RecipModel RecipSpec RecipProofs RecipProofs2 FieldsModel FieldsProofs2 CellSpec CellProofs.
Open Scope R_scope.
Open Scope list_scope.

Lemma first_occ_all l : forall seen i, NoDup l -> (forall g, In g l -> ~ In g seen) -> first_occ seen l i = seq i (List.length l).
Proof.
  induction l as [|g l IH]; intros seen i ND H; [reflexivity|]. inversion ND; subst. cbn [first_occ List.length seq].
  destruct (existsb (pair_eqb g) seen) eqn:E.
  - exfalso. apply existsb_exists in E. destruct E as (h & Hh & Eq). apply (H g (or_introl eq_refl)).
    replace g with h; auto. symmetry. apply pair_eqb_eq. exact Eq.
  - f_equal. apply IH; auto. intros h Hh [->|K]; [contradiction|]. exact (H h (or_intror Hh) K).
Qed.

Lemma ftinv_wave ft gs x y : NoDup gs -> ftinv ft gs x y = wave gs ft x y.
Proof.
  intros ND. unfold ftinv, wave. rewrite first_occ_all by auto.
  assert (G : forall (f : nat -> C) n m acc, fold_left (fun acc i => Cplus acc (f i)) (seq m n) acc = Cplus acc (csum n (fun i => f (m + i)%nat))).
  { intros f. induction n; intros m acc; [cbn; ring|]. cbn [seq fold_left]. rewrite IHn, csum_first, Nat.add_0_r.
    replace (csum n (fun i => f (S m + i)%nat)) with (csum n (fun i => f (m + S i)%nat)) by (apply csum_ext; intros; f_equal; lia). ring. }
  rewrite (G (fun i => (ft i * cexp (Ci * RtoC (fst (nth i gs (0, 0)%R)) * RtoC x + Ci * RtoC (snd (nth i gs (0, 0)%R)) * RtoC y))%C)).
  rewrite Cplus_0_l. apply csum_ext. intros i Hi. cbn [Nat.add]. f_equal. rewrite <- cexp_i. f_equal. rewrite RtoC_plus, !RtoC_mult. ring.
Qed.

(** the vectors of both truncations *)
Lemma tbt_reciprocal args L gmax g : lattice_init args = Ok L -> independent (lt_a1 L) (lt_a2 L) -> 0 <= gmax ->
  In g (rc_g (recip_tbt L gmax)) -> reciprocal_to (lt_a1 L) (lt_a2 L) g.
Proof.
  intros HL Hi Hg H. apply (reciprocal_exact args L HL Hi). destruct (tbt_set args L gmax HL Hi Hg) as (n1 & n2 & _ & _ & _ & _ & _ & _ & _ & S & _).
  apply S in H. destruct H as (i & j & _ & _ & ->). exists i, j. reflexivity.
Qed.
Lemma abs_reciprocal args L gmax fuel rc g : lattice_init args = Ok L -> independent (lt_a1 L) (lt_a2 L) -> 0 <= gmax ->
  recip_abs fuel L gmax = Some (Ok rc) -> In g (rc_g rc) -> reciprocal_to (lt_a1 L) (lt_a2 L) g.
Proof.
  intros HL Hi Hg HR H. apply (reciprocal_exact args L HL Hi). destruct (abs_set args L gmax fuel _ HL Hi Hg HR) as (rc' & k & E & _ & _ & _ & S & _).
  injection E as <-. apply S in H. tauto.
Qed.
