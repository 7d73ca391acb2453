(** Two runs of the plane-wave expansion whose permittivity matrices are related by
    such a change of basis. *)
From Coq Require Import Permutation List FunctionalExtensionality.
From Verif Require Import Py CBase LatticeModel LatticeSpec LatticeProofs PhcModel PhcSpec PhcProofs3 RecipModel RecipSpec RecipProofs MatElModel RunModel RunSpec RunProofs PweSpec PweModel PweProofs PweProofs2 PweProofs3 PweProofs4.
From Verif Require Import InvSpec InvProofs.
Open Scope R_scope.
Open Scope list_scope.

Lemma psd_ext n A A' : (forall i j, (i < n)%nat -> (j < n)%nat -> A i j = A' i j) -> psd n A -> psd n A'.
Proof.
  intros H P v. replace (cdot n v (mvec n A' v)) with (cdot n v (mvec n A v)); [apply P|].
  unfold cdot. apply csum_ext. intros i Hi. f_equal. unfold mvec. apply csum_ext. intros j Hj. rewrite H; auto.
Qed.
Lemma inverse_ext n A A' B : (forall i j, (i < n)%nat -> (j < n)%nat -> A i j = A' i j) -> is_inverse n A B -> is_inverse n A' B.
Proof.
  intros H [H1 H2]. split; intros i j Hi Hj.
  - rewrite <- H1 by auto. unfold mmul. apply csum_ext. intros. rewrite H; auto.
  - rewrite <- H2 by auto. unfold mmul. apply csum_ext. intros. rewrite H; auto.
Qed.
Lemma form_twist pol gs gs' k k' c n sg d f B : field_auto f -> 0 <= c -> (forall i, (i < n)%nat -> (sg i < n)%nat) ->
  (forall i j, (i < n)%nat -> (j < n)%nat ->
     inner (shifted k' (gat gs' i)) (shifted k' (gat gs' j)) = c * c * inner (shifted k (gat gs (sg i))) (shifted k (gat gs (sg j)))) ->
  forall i j, (i < n)%nat -> (j < n)%nat -> form_of pol gs' k' (twist sg d f B) i j = (RtoC (c * c) * twist sg d f (form_of pol gs k B) i j)%C.
Proof.
  intros F Hc Hs H i j Hi Hj.
  assert (HL : forall i, (i < n)%nat -> len (shifted k' (gat gs' i)) = c * len (shifted k (gat gs (sg i)))).
  { intros a Ha. unfold len. rewrite H by auto. rewrite sqrt_mult_alt by nra. rewrite sqrt_square by auto. reflexivity. }
  unfold form_of, te_form, tm_form, twist. destruct (String.eqb pol "te").
  - rewrite H, (auto_mult f), (auto_R f) by auto. rewrite !RtoC_mult. ring.
  - rewrite !HL, (auto_mult f), (auto_R f) by auto. rewrite !RtoC_mult. ring.
Qed.

Section Two.
Variables (argsort : list R -> list nat) (eigh : nat -> cmat -> list R * cmat) (inv : nat -> cmat -> cmat).
Hypotheses (Hs : sorts argsort) (He : diagonalises eigh) (Hi : inverts inv).
Variables (args args' : lat_args) (L L' : lattice) (ly ly' : layer) (gmax gmax' : R) (e e' : option R).
Hypotheses (HL : lattice_init args = Ok L) (Hind : independent (lt_a1 L) (lt_a2 L)) (Hg : 0 <= gmax) (Hc : conj_symmetric (lft L ly)).
Hypotheses (HL' : lattice_init args' = Ok L') (Hind' : independent (lt_a1 L') (lt_a2 L')) (Hg' : 0 <= gmax') (Hc' : conj_symmetric (lft L' ly')).
Let gs := rc_g (recip_tbt L gmax).
Let gs' := rc_g (recip_tbt L' gmax').
Let n := List.length gs.
Variables (sg : nat -> nat) (d : nat -> C) (f : C -> C) (c : R) (km : R * R -> R * R).
Hypotheses (Len : List.length gs' = n) (P : perm_on n sg) (D : forall i, (i < n)%nat -> (d i * Cconj (d i))%C = RtoC 1) (F : field_auto f).
Hypothesis ME : forall i j, (i < n)%nat -> (j < n)%nat -> ft_matrix (lft L' ly') gs' i j = twist sg d f (ft_matrix (lft L ly) gs) i j.
Hypothesis Cp : 0 <= c.

Lemma two_runs ks pol m : lower pol = "te"%string \/ lower pol = "tm"%string ->
  (forall k, In k ks -> forall i j, (i < n)%nat -> (j < n)%nat ->
     inner (shifted (km k) (gat gs' i)) (shifted (km k) (gat gs' j)) = c * c * inner (shifted k (gat gs (sg i))) (shifted k (gat gs (sg j)))) ->
  (exists B, is_inverse n (ft_matrix (lft L ly) gs) B) -> psd n (ft_matrix (lft L ly) gs) ->
  exists fs, pw_freqs (fst (pwe_run argsort eigh inv (pwe_init L ly gmax e) ks pol m)) = Some fs /\
    pw_freqs (fst (pwe_run argsort eigh inv (pwe_init L' ly' gmax' e') (map km ks) pol m)) = Some (map (map (Rmult c)) fs).
Proof.
  intros Hpol IN HB HP.
  assert (Hk0 : ks = [] \/ ks <> []) by (destruct ks; [left; auto|right; discriminate]).
  destruct Hk0 as [->|Hk]; [exists []; split; reflexivity|].
  assert (Hk' : map km ks <> []) by (destruct ks; [congruence|discriminate]).
  assert (IV : forall B, is_inverse n (ft_matrix (lft L ly) gs) B -> is_inverse (List.length gs') (ft_matrix (lft L' ly') gs') (twist sg d f B)).
  { intros B HB0. rewrite Len. apply (inverse_ext n (twist sg d f (ft_matrix (lft L ly) gs))); [intros; rewrite ME; auto|]. apply twist_inverse; auto. }
  assert (HB' : exists B, is_inverse (List.length gs') (ft_matrix (lft L' ly') gs') B) by (destruct HB as [B HB]; eexists; apply IV; exact HB).
  assert (HP' : psd (List.length gs') (ft_matrix (lft L' ly') gs')).
  { rewrite Len. apply (psd_ext n (twist sg d f (ft_matrix (lft L ly) gs))); [intros; rewrite ME; auto|]. apply twist_psd; auto. }
  destruct (bands argsort eigh inv Hs He Hi args L ly gmax e ks pol m HL Hind Hg Hc Hk Hpol HB HP) as (s1 & f1 & v1 & B1 & -> & I1 & F1 & _ & L1 & _ & N1 & _).
  destruct (bands argsort eigh inv Hs He Hi args' L' ly' gmax' e' (map km ks) pol m HL' Hind' Hg' Hc' Hk' Hpol HB' HP') as (s2 & f2 & v2 & B2 & -> & I2 & F2 & _ & L2 & _ & N2 & _).
  cbn [fst]. exists f1. split; [exact F1|]. rewrite F2. f_equal. rewrite map_length in L2.
  apply (nth_ext _ _ [] (map (Rmult c) [])); [rewrite map_length; congruence|].
  intros i Hi0. rewrite L2 in Hi0. rewrite (map_nth (map (Rmult c))).
  destruct (nth_error ks i) as [k|] eqn:E; [|apply nth_error_None in E; lia].
  assert (E' : nth_error (map km ks) i = Some (km k)) by (rewrite nth_error_map, E; auto).
  specialize (N2 i (km k) E'). specialize (N1 i k E). fold gs' in N2. rewrite Len in N2. fold gs n in N1.
  destruct (twist_lowest n sg d f P D F m _ _ _ N1) as (vs' & N3).
  pose proof (lowest_scale n m _ (c * c) _ _ ltac:(nra) N3) as N4. rewrite sqrt_square in N4 by auto.
  eapply lowest_unique; [exact N2|]. eapply lowest_ext; [|exact N4]. intros a b Ha Hb. cbv beta.
  rewrite <- (form_twist (lower pol) gs gs' k (km k) c n sg d f B1 F Cp (proj1 P) (IN k (nth_error_In _ _ E)) a b Ha Hb). apply form_ext.
  assert (I2' : is_inverse n (ft_matrix (lft L' ly') gs') B2) by (rewrite <- Len; exact I2).
  assert (I1' := IV _ I1). rewrite Len in I1'. apply (inverse_unique n _ _ _ I1' I2'); auto.
Qed.
End Two.
