(** Matrix elements of the guided-mode expansion for unpatterned layers. *)
From Verif Require Import Py CBase ShapesSpec CInt SlabModel SlabSpec SlabProofs SlabProofs3 MatElModel MatElSpec MatElProofs MatElProofs2 OrthSpec OrthProofs3 UnifSpec UnifProofs.
From Coquelicot Require Import Hierarchy RInt RInt_analysis Derive Continuity Complex Lim_seq Rbar Rcomplements.
Open Scope R_scope.

Lemma ctail_unique f u v : is_ctail f u -> is_ctail f v -> u = v.
Proof. intros [A B] [A' B']. apply Ceq; eapply tail_unique; eauto. Qed.
Lemma CInt_unique f a b u v : is_CInt f a b u -> is_CInt f a b v -> u = v.
Proof.
  intros [A B] [A' B'].
  apply Ceq; [rewrite <- (is_RInt_unique _ _ _ _ A); exact (is_RInt_unique _ _ _ _ A')|rewrite <- (is_RInt_unique _ _ _ _ B); exact (is_RInt_unique _ _ _ _ B')].
Qed.
Lemma over_unique il Nl ds h u v : over_layer il Nl ds h u -> over_layer il Nl ds h v -> u = v.
Proof. unfold over_layer. destruct (Nat.eqb il 0); [|destruct (Nat.eqb il (Nl - 1))]; [apply ctail_unique|apply ctail_unique|apply CInt_unique]. Qed.
Lemma tail_opp f v : is_tail_int f v -> is_tail_int (fun z => - f z) (- v).
Proof.
  intros [A B]. assert (D : forall L, is_RInt (fun z => - f z) 0 L (- RInt f 0 L)).
  { intros L. apply (is_RInt_opp (V := R_NormedModule) f). apply (RInt_correct (V := R_CompleteNormedModule)). apply A. }
  split; [intros L; eexists; apply D|].
  apply is_lim_ext with (fun L => - RInt f 0 L); [intros L; symmetry; apply is_RInt_unique, D|].
  apply (is_lim_opp (fun L => RInt f 0 L) p_infty v B).
Qed.
Lemma ctail_conj f v : is_ctail f v -> is_ctail (fun z => Cconj (f z)) (Cconj v).
Proof. intros [A B]. split; [exact A|]. exact (tail_opp _ _ B). Qed.
Lemma CInt_conj f a b v : is_CInt f a b v -> is_CInt (fun z => Cconj (f z)) a b (Cconj v).
Proof. intros [A B]. split; [exact A|]. exact (is_RInt_opp (V := R_NormedModule) (fun z => snd (f z)) a b (snd v) B). Qed.
Lemma over_conj il Nl ds h v : over_layer il Nl ds h v -> over_layer il Nl ds (fun z => Cconj (h z)) (Cconj v).
Proof. unfold over_layer. destruct (Nat.eqb il 0); [|destruct (Nat.eqb il (Nl - 1))]; intros H; [apply (ctail_conj _ _ H)|apply (ctail_conj _ _ H)|apply CInt_conj, H]. Qed.
Lemma to_int il Nl ds h v : over_layer il Nl ds h v -> is_layer_int 0 il Nl ds h v.
Proof. exact (proj1 (over_layer_int il Nl ds h v)). Qed.
Lemma of_int il Nl ds h v : is_layer_int 0 il Nl ds h v -> over_layer il Nl ds h v.
Proof. exact (proj2 (over_layer_int il Nl ds h v)). Qed.
Lemma over_ext il Nl ds h h' v : (forall z, h z = h' z) -> over_layer il Nl ds h v -> over_layer il Nl ds h' v.
Proof. intros E H. apply of_int. apply to_int in H. eapply layer_ext; eauto. Qed.
Lemma hdot_conj F G : Cconj (hdot F G) = hdot G F.
Proof. destruct F as [[a b] c], G as [[x y] z]. unfold hdot. rewrite !Cconj_plus, !Cconj_mult, !Cconj_conj. ring. Qed.
Lemma density_conj te g c1 A1 B1 c2 A2 B2 z : Cconj (overlap_density te g c1 A1 B1 c2 A2 B2 z) = overlap_density te g c2 A2 B2 c1 A1 B1 z.
Proof. unfold overlap_density. destruct te; rewrite ?Cconj_plus, !Cconj_mult, ?Cconj_R, !Cconj_conj; ring. Qed.


Section Two.
Variables (te : bool) (g w1 w2 : R) (eps ds : list R) (c1 A1 B1 c2 A2 B2 : nat -> C) (kx ky : R).
Hypothesis S1 : slab_solution te g w1 eps ds c1 A1 B1.
Hypothesis S2 : slab_solution te g w2 eps ds c2 A2 B2.
Hypothesis Hg : g = sqrt (kx * kx + ky * ky).
Hypothesis Gpos : 0 < g.
Hypothesis W1 : 0 < w1.
Hypothesis W2 : 0 < w2.
Let Nl := List.length eps.
Let elec il z := hdot (curl_field te kx ky w1 (nth il eps 0) (c1 il) (A1 il) (B1 il) z) (curl_field te kx ky w2 (nth il eps 0) (c2 il) (A2 il) (B2 il) z).

Lemma elec_orthogonal V : w1 <> w2 -> (forall il, (il < Nl)%nat -> over_layer il Nl ds (elec il) (V il)) ->
  csum Nl (fun il => RtoC (/ nth il eps 0) * V il)%C = RtoC 0.
Proof.
  intros Hw HV.
  destruct (elec_mag te g w1 w2 eps ds c1 A1 B1 c2 A2 B2 S1 S2 kx ky Hg Gpos W1 W2 V) as [H [H1 H2]].
  { intros il L. apply to_int, HV, L. }
  destruct (elec_mag te g w2 w1 eps ds c2 A2 B2 c1 A1 B1 S2 S1 kx ky Hg Gpos W2 W1 (fun il => Cconj (V il))) as [K [K1 K2]].
  { intros il L. apply to_int. eapply over_ext; [|apply over_conj, HV, L]. intros z. apply hdot_conj. }
  fold Nl in H1, H2, K1, K2.
  assert (E : csum Nl K = Cconj (csum Nl H)).
  { rewrite csum_conj. apply csum_ext. intros il L. eapply over_unique; [apply of_int, K1, L|].
    eapply over_ext; [|apply over_conj, of_int, H1, L]. intros z. apply density_conj. }
  rewrite E in K2. apply (f_equal Cconj) in K2. rewrite csum_conj, Cconj_mult, Cconj_conj, Cconj_R in K2.
  assert (E2 : csum Nl (fun il => RtoC (/ nth il eps 0) * V il)%C = csum Nl (fun i => Cconj (RtoC (/ nth i eps 0) * Cconj (V i)))%C).
  { apply csum_ext. intros il _. rewrite Cconj_mult, Cconj_R, Cconj_conj. reflexivity. }
  rewrite E2, K2 in H2. rewrite E2, K2.
  assert (D : ((RtoC (w1 * w1 - w2 * w2)) * csum Nl H)%C = RtoC 0).
  { rewrite RtoC_minus. destruct te.
    - replace ((RtoC (w1 * w1) - RtoC (w2 * w2)) * csum Nl H)%C with (RtoC (w1 * w1) * csum Nl H - RtoC (w2 * w2) * csum Nl H)%C by ring.
      rewrite <- H2. ring.
    - replace ((RtoC (w1 * w1) - RtoC (w2 * w2)) * csum Nl H)%C with (RtoC (w1 * w1) * csum Nl H - RtoC (w2 * w2) * csum Nl H)%C by ring.
      rewrite <- H2. ring. }
  assert (Z : csum Nl H = RtoC 0).
  { assert (F : RtoC (w1 * w1 - w2 * w2) <> RtoC 0) by (intros F; apply (f_equal fst) in F; cbn in F; apply Hw; nra).
    replace (csum Nl H) with (/ RtoC (w1 * w1 - w2 * w2) * (RtoC (w1 * w1 - w2 * w2) * csum Nl H))%C by (field; exact F).
    rewrite D. ring. }
  rewrite Z. ring.
Qed.
End Two.
