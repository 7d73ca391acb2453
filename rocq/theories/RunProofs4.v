(** kz_symmetry on a matrix that commutes with the reflection; missing modes;
    the eigsh selection. *)
From Coq Require Import Permutation List.
From Verif Require Import Py CBase LatticeModel PhcModel SymModel SymSpec SymProofs2 SymProofs3 SymProofs4 SymProofs7 SymProofs8 RecipModel SlabModel MatElModel MatElSpec MatElProofs3
  RadModel RunModel RunSpec RunProofs RunProofs2 RunProofs3.
Open Scope R_scope.
Open Scope list_scope.

Lemma Sm_herm n V H i j : (forall i c, Cconj (V i c) = V i c) -> (forall i j, (i < n)%nat -> (j < n)%nat -> H i j = Cconj (H j i)) ->
  Sm n V H i j = Cconj (Sm n V H j i).
Proof.
  intros VR HH. unfold Sm, mmul, mtr. rewrite csum_conj.
  transitivity (csum n (fun k => csum n (fun l => Cmult (Cmult (V k i) (H k l)) (V l j)))).
  { apply csum_ext. intros k Hk. rewrite <- csum_scal_l. apply csum_ext. intros. ring. }
  rewrite csum_swap. apply csum_ext. intros k Hk. rewrite Cconj_mult, csum_conj, VR, <- csum_scal_l.
  apply csum_ext. intros l Hl. rewrite Cconj_mult, VR, <- (HH l k Hl Hk). ring.
Qed.
Lemma herm_blocks n e S : (forall i j, S i j = Cconj (S j i)) -> herm (fst (blocks_of n e S)) /\ herm (snd (blocks_of n e S)).
Proof. intros HS. split; split; cbn; auto. Qed.

Section Ready.
Variables (d : dev) (o : opts) (th : R) (inds : list (list nat)) (mate : nat -> nat -> nat) (mt : nat -> nat) (s : nat -> R) (H : cmat).
Hypothesis HP : reflect_pairs th (dv_gvec d) (o_inds o) inds mate mt s.
Let sz := map (@List.length nat) inds.
Let n := list_sum sz.
Let T := refl_op mt s.
Hypothesis HH : forall i j, (i < n)%nat -> (j < n)%nat -> H i j = Cconj (H j i).
Hypothesis HC : forall v i, (i < n)%nat -> mvec n H (T v) i = T (mvec n H v) i.
Hypothesis Ht : 0 <= o_thr o.

Lemma T_ext u w i : (forall i, (i < n)%nat -> u i = w i) -> (i < n)%nat -> T u i = T w i.
Proof.
  intros E Hi. pose proof (pairs_all _ _ _ _ _ _ _ HP) as Ha. destruct HP as [HL [_ Hmt]].
  destruct (mt_facts (sym_mat th) (dv_gvec d) (o_inds o) inds mate mt s HL Ha Hmt) as [I _].
  unfold T, refl_op. f_equal. apply E. apply (I i Hi).
Qed.
Lemma split_ready : exists b, symm_basis d o (sym_mat th) sz inds = Ok b /\
  sb_rows b = n /\ sb_cols b = n /\ (sb_even b + sb_odd b)%nat = n /\ parity_basis n (sb_even b) T (sb_v b) /\
  ((0 < sb_even b)%nat -> (0 < sb_odd b)%nat -> exists E O, symm_split o (Arr n n H) b = Ok (E, O) /\
     nr E = sb_even b /\ nr O = sb_odd b /\ splits n T H (sb_v b) (sb_even b) (sb_odd b) (ent E) (ent O) /\ herm E /\ herm O).
Proof.
  pose proof (pairs_all _ _ _ _ _ _ _ HP) as Ha. destruct HP as [HL [_ Hmt]].
  destruct (mt_facts (sym_mat th) (dv_gvec d) (o_inds o) inds mate mt s HL Ha Hmt) as [I Ss].
  unfold symm_basis, symm_split. destruct (o_sparse o).
  - destruct (sparse_parity (sym_mat th) (dv_gvec d) (o_inds o) inds mate mt s HL Ha Hmt) as (b & E & R1 & R2 & R3 & R4 & R5).
    exists b. repeat (split; [assumption|]). intros He Hq.
    destruct (separate_sparse_ok n mt s H b (o_thr o) R1 R2 R3 I Ss R4 R5 HC Ht He Hq) as (S' & E2 & E3).
    exists (fst (blocks_of n (sb_even b) S')), (snd (blocks_of n (sb_even b) S')).
    split; [rewrite E2; reflexivity|]. fold sz in R3. fold n in R3. split; [reflexivity|]. split; [cbn; lia|].
    split; [replace (sb_odd b) with (n - sb_even b)%nat by lia; apply splits_gen; auto|].
    apply herm_blocks. intros i j. rewrite !E3. apply Sm_herm; auto.
  - destruct (dense_parity (sym_mat th) (dv_gvec d) (o_inds o) inds mate mt s HL Ha Hmt) as (b & E & R1 & R2 & R3 & R4 & R5).
    exists b. repeat (split; [assumption|]). intros He Hq.
    pose proof (separate_ok n mt s H b (o_thr o) R1 R2 R3 I Ss R4 R5 HC Ht He Hq) as E2.
    exists (fst (blocks_of n (sb_even b) (Sm n (sb_v b) H))), (snd (blocks_of n (sb_even b) (Sm n (sb_v b) H))).
    split; [rewrite E2; reflexivity|]. fold sz in R3. fold n in R3. split; [reflexivity|]. split; [cbn; lia|].
    split; [replace (sb_odd b) with (n - sb_even b)%nat by lia; apply splits_gen; auto|].
    apply herm_blocks. intros i j. apply Sm_herm; auto.
Qed.

Variable argsort : list R -> list nat.
Variable eigh : nat -> cmat -> list R * cmat.
Hypothesis Hs : sorts argsort.
Hypothesis He : diagonalises eigh.

Lemma both_lem : exists b, symm_basis d o (sym_mat th) sz inds = Ok b /\ (sb_even b + sb_odd b)%nat = n /\
  ((0 < sb_even b)%nat -> (0 < sb_odd b)%nat -> exists E O, symm_split o (Arr n n H) b = Ok (E, O) /\
    ((sb_odd b <= sb_even b)%nat -> (o_numeig o <= n)%nat ->
      exists ls W idx fs vs sy, solve_both argsort eigh o b E O = Ok (fs, vs, sy) /\
        reports n H ls W idx fs vs /\ nearest n (o_numeig o) (fun j => Rabs (freq_of (nth j ls 0) - o_sigma o)) idx /\
        List.length sy = o_numeig o /\
        forall c, (c < o_numeig o)%nat -> has_parity n T (snd (nth c vs (0%nat, fun _ => RtoC 0))) (nth c sy 0%Z)) /\
    ((sb_even b < sb_odd b)%nat -> o_numeig o = n -> solve_both argsort eigh o b E O = Raise IndexError)).
Proof.
  destruct split_ready as (b & B1 & R1 & R2 & R3 & R4 & R5). exists b. split; auto. split; auto. intros Pe Po.
  destruct (R5 Pe Po) as (E & O & S1 & S2 & S3 & S4 & S5 & S6). exists E, O. split; auto. split.
  - intros Hq Hn.
    destruct (both_ok argsort eigh Hs He n (sb_even b) (sb_odd b) T H b E O o R1 R2 eq_refl eq_refl S2 S3 R4 S4 S5 S6 T_ext Hq Hn)
      as (ls & W & idx & fs & vs & sy & A1 & A2 & A3 & A4 & A5).
    exists ls, W, idx, fs, vs, sy. split; [exact A1|]. split; [exact A2|]. split; [exact A3|]. split; [exact A4|].
    intros c Hc. destruct (A5 c Hc) as [[X Y]|[X Y]]; [left|right]; split; auto.
  - intros Hq Hn. apply (both_fails argsort eigh Hs He n (sb_even b) (sb_odd b) T H b E O o); auto.
Qed.

Lemma one_lem : exists b, symm_basis d o (sym_mat th) sz inds = Ok b /\ (sb_even b + sb_odd b)%nat = n /\
  ((0 < sb_even b)%nat -> (0 < sb_odd b)%nat -> exists E O, symm_split o (Arr n n H) b = Ok (E, O) /\
    ((o_numeig o <= sb_even b)%nat -> exists ls W idx fs vs, solve_one argsort eigh o b E (pad_below (sb_odd b)) = Ok (fs, vs) /\
        reports n H ls W idx fs vs /\ nearest_of_parity n (o_numeig o) T 1 W (fun j => Rabs (freq_of (nth j ls 0) - o_sigma o)) idx) /\
    ((o_numeig o <= sb_odd b)%nat -> exists ls W idx fs vs, solve_one argsort eigh o b O (pad_above (sb_even b)) = Ok (fs, vs) /\
        reports n H ls W idx fs vs /\ nearest_of_parity n (o_numeig o) T (-1) W (fun j => Rabs (freq_of (nth j ls 0) - o_sigma o)) idx) /\
    ((sb_even b < o_numeig o)%nat -> solve_one argsort eigh o b E (pad_below (sb_odd b)) = Raise ValueError) /\
    ((sb_odd b < o_numeig o)%nat -> solve_one argsort eigh o b O (pad_above (sb_even b)) = Raise ValueError)).
Proof.
  destruct split_ready as (b & B1 & R1 & R2 & R3 & R4 & R5). exists b. split; auto. split; auto. intros Pe Po.
  destruct (R5 Pe Po) as (E & O & S1 & S2 & S3 & S4 & S5 & S6). exists E, O. split; auto.
  assert (PN : forall even ls W idx, parity_nearest n (sb_even b) T o even ls W idx ->
    nearest_of_parity n (o_numeig o) T (if even then 1 else -1)%Z W (fun j => Rabs (freq_of (nth j ls 0) - o_sigma o)) idx).
  { intros even ls W idx (P1 & P2 & P3 & P4 & P5). exists (fun j => if Nat.ltb j (sb_even b) then 1 else -1)%Z.
    split. { intros j Hj. destruct (P1 j Hj) as [[X Y]|[X Y]]; [left|right]; split; auto. }
    split; auto. split; auto. split.
    - intros j Hj. destruct (P4 j Hj) as [X Y]. rewrite Y. auto.
    - intros i j Hi Hj Hp Hn. apply P5; auto. destruct (Nat.ltb j (sb_even b)), even; auto; discriminate. }
  split; [|split; [|split]].
  - intros Hn.
    destruct (even_ok argsort eigh Hs He n (sb_even b) (sb_odd b) T H b E O o R1 R2 eq_refl eq_refl S2 S3 R4 S4 S5 S6 Hn)
      as (ls & W & idx & fs & vs & A1 & A2 & A3). exists ls, W, idx, fs, vs. split; [exact A1|]. split; [exact A2|]. apply (PN true). auto.
  - intros Hn.
    destruct (odd_ok argsort eigh Hs He n (sb_even b) (sb_odd b) T H b E O o R1 R2 eq_refl eq_refl S2 S3 R4 S4 S5 S6 Hn)
      as (ls & W & idx & fs & vs & A1 & A2 & A3). exists ls, W, idx, fs, vs. split; [exact A1|]. split; [exact A2|]. apply (PN false). auto.
  - intros Hn. apply one_too_many. lia.
  - intros Hn. apply one_too_many. lia.
Qed.
End Ready.
