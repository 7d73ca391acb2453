(** Translation, time reversal and symmetry operations of a crystal (C131, C132). *)
From Coq Require Import Permutation List FunctionalExtensionality.
From Verif Require Import Py CBase LatticeModel LatticeSpec LatticeProofs PhcModel PhcSpec PhcProofs3 RecipModel RecipSpec RecipProofs MatElModel RunModel RunSpec RunProofs PweSpec PweModel PweProofs PweProofs2 PweProofs3 PweProofs4.
From Verif Require Import InvSpec InvProofs InvProofs2.
Open Scope R_scope.
Open Scope list_scope.

Lemma expi_mod a : (expi a * Cconj (expi a))%C = RtoC 1.
Proof. apply expi_norm. Qed.
Lemma id_auto : field_auto (fun z => z).
Proof. left; auto. Qed.
Lemma conj_auto : field_auto Cconj.
Proof. right; auto. Qed.
Lemma perm_id n : perm_on n (fun i => i).
Proof. split; auto. Qed.

(** ** the transform of a moved layer *)
Definition moved_shape (P : R * R -> Prop) (t : R * R) (s s' : shape) : Prop := sh_eps s' = sh_eps s /\ moved_on P t (sh_ft s) (sh_ft s').
Lemma moved_fold (P : R * R -> Prop) t eb g : P g -> forall ss ss', Forall2 (moved_shape P t) ss ss' -> forall a a', a' = (expi (- inner g t) * a)%C ->
  fold_left (fun acc s => Cplus acc (Cmult (RtoC (sh_eps s - eb)) (sh_ft s g))) ss' a' =
  (expi (- inner g t) * fold_left (fun acc s => Cplus acc (Cmult (RtoC (sh_eps s - eb)) (sh_ft s g))) ss a)%C.
Proof.
  intros Pg ss ss' H. induction H as [|s s' ss ss' [E M] H IH]; intros a a' Ea; [exact Ea|]. cbn [fold_left]. apply IH. rewrite Ea, E, (M g Pg). ring.
Qed.
Lemma moved_layer area (P : R * R -> Prop) t ly ly' g : P g -> (is_g0 g -> g = (0, 0)) -> ly_epsb ly' = ly_epsb ly -> ly_epsavg ly' = ly_epsavg ly ->
  Forall2 (moved_shape P t) (ly_shapes ly) (ly_shapes ly') ->
  layer_ft_at area ly' g = (expi (- inner g t) * layer_ft_at area ly g)%C.
Proof.
  intros Pg Z Eb Ea Fs. unfold layer_ft_at. rewrite Eb, Ea. rewrite (moved_fold P t (ly_epsb ly) g Pg _ _ Fs (RtoC 0) (RtoC 0)) by ring.
  destruct (near_zero g) eqn:N.
  - apply near_zero_iff in N. rewrite (Z N). unfold inner. cbn [fst snd]. replace (- (0 * fst t + 0 * snd t)) with 0 by ring. rewrite expi_0. unfold Cdiv. ring.
  - replace (ly_epsavg ly * 0) with 0 by ring. unfold Cdiv. ring.
Qed.

(** C131 *)
Lemma translation argsort eigh inv : sorts argsort -> diagonalises eigh -> inverts inv ->
  forall args L ly ly' t gmax e ks pol m, lattice_init args = Ok L -> independent (lt_a1 L) (lt_a2 L) -> 0 <= gmax ->
  conj_symmetric (lft L ly) -> conj_symmetric (lft L ly') -> lower pol = "te"%string \/ lower pol = "tm"%string ->
  let gs := rc_g (recip_tbt L gmax) in let n := List.length gs in let eps := ft_matrix (lft L ly) gs in
  (forall g g', In g gs -> In g' gs -> is_g0 (diff g g') -> g = g') ->
  ly_epsb ly' = ly_epsb ly -> ly_epsavg ly' = ly_epsavg ly ->
  Forall2 (fun s s' => sh_eps s' = sh_eps s /\ moved_on (difference_of gs) t (sh_ft s) (sh_ft s')) (ly_shapes ly) (ly_shapes ly') ->
  (exists B, is_inverse n eps B) -> psd n eps ->
  exists fs, pw_freqs (fst (pwe_run argsort eigh inv (pwe_init L ly gmax e) ks pol m)) = Some fs /\
    pw_freqs (fst (pwe_run argsort eigh inv (pwe_init L ly' gmax e) ks pol m)) = Some fs.
Proof.
  intros Hs He Hi args L ly ly' t gmax e ks pol m HL Hind Hg Hc Hc' Hpol gs n eps Sep Eb Ea Fs HB HP.
  destruct (two_runs argsort eigh inv Hs He Hi args args L L ly ly' gmax gmax e e HL Hind Hg Hc HL Hind Hg Hc'
    (fun i => i) (fun i => expi (- inner (gat gs i) t)) (fun z => z) 1 (fun k => k) eq_refl (perm_id _) (fun i _ => expi_mod _) id_auto) with (ks := ks) (pol := pol) (m := m)
    as (fs & F1 & F2); auto; try lra.
  - intros i j Hi' Hj. fold gs. unfold twist, ft_matrix, lft. rewrite (moved_layer _ (difference_of gs) t ly ly').
    + rewrite expi_conj. assert (E : expi (- inner (diff (gat gs i) (gat gs j)) t) = (expi (- inner (gat gs i) t) * expi (- - inner (gat gs j) t))%C).
      { rewrite <- expi_plus. f_equal. unfold inner, diff. cbn [fst snd]. ring. }
      rewrite E. ring.
    + exists (gat gs i), (gat gs j). split; [apply nth_In; exact Hi'|]. split; [apply nth_In; exact Hj|reflexivity].
    + intros Z. rewrite (Sep (gat gs i) (gat gs j)) by (auto; apply nth_In; auto). unfold diff. rewrite !Rminus_diag_eq by auto. reflexivity.
    + exact Eb.
    + exact Ea.
    + exact Fs.
  - intros k _ i j _ _. fold gs. ring.
  - exists fs. split; [exact F1|]. rewrite map_id in F2. rewrite F2. f_equal. transitivity (map (fun l : list R => l) fs); [|apply map_id]. apply map_ext. intros l.
    transitivity (map (fun x : R => x) l); [apply map_ext; intros; ring|apply map_id].
Qed.

(** C132: k and -k *)
Lemma map_id1 fs : map (map (Rmult 1)) fs = fs.
Proof.
  transitivity (map (fun l : list R => l) fs); [|apply map_id]. apply map_ext. intros l.
  transitivity (map (fun x : R => x) l); [apply map_ext; intros; ring|apply map_id].
Qed.
Lemma reversal argsort eigh inv : sorts argsort -> diagonalises eigh -> inverts inv ->
  forall args L ly gmax e ks pol m, lattice_init args = Ok L -> independent (lt_a1 L) (lt_a2 L) -> 0 <= gmax ->
  conj_symmetric (lft L ly) -> lower pol = "te"%string \/ lower pol = "tm"%string ->
  let gs := rc_g (recip_tbt L gmax) in let n := List.length gs in let eps := ft_matrix (lft L ly) gs in
  (exists B, is_inverse n eps B) -> psd n eps ->
  exists fs, pw_freqs (fst (pwe_run argsort eigh inv (pwe_init L ly gmax e) ks pol m)) = Some fs /\
    pw_freqs (fst (pwe_run argsort eigh inv (pwe_init L ly gmax e) (map opp ks) pol m)) = Some fs.
Proof.
  intros Hs He Hi args L ly gmax e ks pol m HL Hind Hg Hc Hpol gs n eps HB HP.
  destruct (tbt_set args L gmax HL Hind Hg) as (n1 & n2 & _ & _ & _ & _ & _ & _ & _ & _ & _ & OP). fold gs n in OP.
  assert (G : forall i, (i < n)%nat -> gat gs (n - 1 - i) = opp (gat gs i)).
  { intros i Hi'. specialize (OP i Hi'). unfold gat. rewrite (nth_error_nth' gs (0, 0) Hi') in OP. cbn [option_map] in OP.
    apply nth_error_nth with (d := (0, 0)) in OP. exact OP. }
  destruct (two_runs argsort eigh inv Hs He Hi args args L L ly ly gmax gmax e e HL Hind Hg Hc HL Hind Hg Hc
    (fun i => (n - 1 - i)%nat) (fun _ => RtoC 1) Cconj 1 opp eq_refl) with (ks := ks) (pol := pol) (m := m)
    as (fs & F1 & F2); auto; try lra.
  - fold gs n. split; intros; lia.
  - intros i _. rewrite Cconj_R. ring.
  - right; auto.
  - intros i j Hi' Hj. fold gs n in Hi', Hj |- *. unfold twist, ft_matrix. rewrite !G by auto. rewrite <- Hc, Cconj_R.
    transitivity (lft L ly (opp (diff (opp (gat gs i)) (opp (gat gs j))))); [f_equal; unfold opp, diff; cbn [fst snd]; f_equal; ring|ring].
  - intros k _ i j Hi' Hj. fold gs n in Hi', Hj |- *. rewrite !G by auto. unfold inner, shifted, opp. cbn [fst snd]. ring.
  - exists fs. split; [exact F1|]. rewrite F2, map_id1. reflexivity.
Qed.

(** C133: symmetry operations *)
Lemma iso_inj M : linear_isometry M -> forall u v, M u = M v -> u = v.
Proof.
  intros [A I] u v E.
  assert (K : inner (diff u v) (diff u v) = 0).
  { assert (X : forall a b, inner (diff a b) (diff a b) = inner a a - 2 * inner a b + inner b b) by (intros; unfold inner, diff; cbn [fst snd]; ring).
    rewrite X, <- (I u u), <- (I u v), <- (I v v), E. ring. }
  unfold inner, diff in K. cbn [fst snd] in K. destruct u as [a b], v as [c d]. cbn [fst snd] in K.
  assert (a - c = 0 /\ b - d = 0) as [? ?]; [|f_equal; lra]. pose proof (Rle_0_sqr (a - c)). pose proof (Rle_0_sqr (b - d)). unfold Rsqr in *.
  split; apply Rsqr_0_uniq; unfold Rsqr; lra.
Qed.
Lemma iso_diff M : linear_isometry M -> forall u v, M (diff u v) = diff (M u) (M v).
Proof.
  intros [A I] u v. pose proof (A (diff u v) v) as H. unfold diff at 1 2 in H. cbn [fst snd] in H.
  replace (fst u - fst v + fst v, snd u - snd v + snd v) with u in H by (destruct u; cbn [fst snd]; f_equal; ring).
  rewrite H. unfold diff at 2. cbn [fst snd]. rewrite (surjective_pairing (M (diff u v))) at 1. f_equal; ring.
Qed.
Lemma index_of (gs : list (R * R)) (h : nat -> R * R) n : (forall i, (i < n)%nat -> In (h i) gs) ->
  exists ix : nat -> nat, forall i, (i < n)%nat -> (ix i < List.length gs)%nat /\ gat gs (ix i) = h i.
Proof.
  induction n as [|n IH]; intros H; [exists (fun _ => 0%nat); intros; lia|].
  destruct IH as (ix & E); [intros; apply H; lia|]. destruct (In_nth _ _ (0, 0) (H n ltac:(lia))) as (j & Hj & Ej).
  exists (fun i => if Nat.eqb i n then j else ix i). intros i Hi. destruct (Nat.eqb_spec i n) as [->|Ne]; [split; auto|]. apply E. lia.
Qed.
Lemma closed_perm M gs : linear_isometry M -> NoDup gs -> closed_under M gs ->
  exists sg, perm_on (List.length gs) sg /\ forall i, (i < List.length gs)%nat -> gat gs i = M (gat gs (sg i)).
Proof.
  intros HM ND HC. set (n := List.length gs).
  destruct (index_of gs (fun i => M (gat gs i)) n) as (ix & E); [intros i Hi; apply HC, nth_In; exact Hi|].
  assert (P : perm_on n ix).
  { split; [intros i Hi; apply E; auto|]. intros i j Hi Hj Q. apply (proj1 (NoDup_nth gs (0, 0)) ND); auto.
    apply (iso_inj M HM). fold (gat gs i) (gat gs j). rewrite <- (proj2 (E i Hi)), <- (proj2 (E j Hj)), Q. reflexivity. }
  destruct (perm_inv n ix P) as (sg & T). exists sg. split.
  - split; [intros i Hi; apply T; auto|]. intros i j Hi Hj Q. rewrite <- (proj2 (T i Hi)), <- (proj2 (T j Hj)), Q. reflexivity.
  - intros i Hi. destruct (T i Hi) as [T1 T2]. rewrite <- (proj2 (E _ T1)), T2. reflexivity.
Qed.
Lemma symmetry_op argsort eigh inv : sorts argsort -> diagonalises eigh -> inverts inv ->
  forall args L ly M gmax e ks pol m, lattice_init args = Ok L -> independent (lt_a1 L) (lt_a2 L) -> 0 <= gmax ->
  conj_symmetric (lft L ly) -> lower pol = "te"%string \/ lower pol = "tm"%string ->
  let gs := rc_g (recip_tbt L gmax) in let n := List.length gs in let eps := ft_matrix (lft L ly) gs in
  linear_isometry M -> closed_under M gs -> invariant_on (difference_of gs) M (lft L ly) ->
  (exists B, is_inverse n eps B) -> psd n eps ->
  exists fs, pw_freqs (fst (pwe_run argsort eigh inv (pwe_init L ly gmax e) ks pol m)) = Some fs /\
    pw_freqs (fst (pwe_run argsort eigh inv (pwe_init L ly gmax e) (map M ks) pol m)) = Some fs.
Proof.
  intros Hs He Hi args L ly M gmax e ks pol m HL Hind Hg Hc Hpol gs n eps HM HC HI HB HP.
  destruct (tbt_set args L gmax HL Hind Hg) as (n1 & n2 & _ & _ & _ & _ & _ & ND & _). fold gs in ND.
  destruct (closed_perm M gs HM ND HC) as (sg & P & E). fold n in P, E.
  destruct (two_runs argsort eigh inv Hs He Hi args args L L ly ly gmax gmax e e HL Hind Hg Hc HL Hind Hg Hc
    sg (fun _ => RtoC 1) (fun z => z) 1 M eq_refl P) with (ks := ks) (pol := pol) (m := m)
    as (fs & F1 & F2); auto; try lra.
  - intros i _. rewrite Cconj_R. ring.
  - left; auto.
  - intros i j Hi' Hj. fold gs n in Hi', Hj |- *. unfold twist, ft_matrix. rewrite (E i), (E j), <- (iso_diff M HM), Cconj_R by auto.
    rewrite HI; [ring|]. exists (gat gs (sg i)), (gat gs (sg j)). split; [apply nth_In, (proj1 P); exact Hi'|]. split; [apply nth_In, (proj1 P); exact Hj|reflexivity].
  - intros k _ i j Hi' Hj. fold gs n in Hi', Hj |- *. rewrite (E i), (E j) by auto. destruct HM as [A I].
    unfold shifted. rewrite <- !A, I. ring.
  - exists fs. split; [exact F1|]. rewrite F2, map_id1. reflexivity.
Qed.
