(** Counterexamples for C38 (eigsh), C43 and C44. *)
From Coq Require Import Permutation List.
From Verif Require Import Py CBase LatticeModel PhcModel SymModel SymSpec SymProofs2 SymProofs3 SymProofs4 SymProofs6 SymProofs7 SymProofs8 RecipSpec RecipModel SlabModel MatElModel MatElSpec MatElProofs3
  RadModel RunModel RunSpec RunProofs RunProofs2 RunProofs3 RunProofs4 RunProofs5.
Open Scope R_scope.
Open Scope list_scope.

(** ** eigsh picks by omega^2 *)
Definition b19 : R := (2 * PI * (19 / 10)) * (2 * PI * (19 / 10)).
Definition two : arr2 := Arr 2 2 (fun i j => if Nat.eqb i 1 then if Nat.eqb j 1 then RtoC b19 else RtoC 0 else RtoC 0).
Definition sel_opts (solver : string) (symm : option string) (inds : list nat) (n : nat) (sigma : R) : opts :=
  Opts "exact" inds 100 (1 / 100) (1 / 10 ^ 10) n false solver sigma "average" symm (1 / 10 ^ 8) 0 0 false false.

Lemma two_herm : herm two.
Proof. split; [reflexivity|]. intros [|[|i]] [|[|j]] Hi Hj; simpl in *; try lia; symmetry; apply Cconj_R. Qed.
Lemma b19_val : b19 = PI * PI * (361 / 25).
Proof. unfold b19. field. Qed.
Lemma PI2_pos : 0 < PI * PI.
Proof. pose proof PI_RGT_0. nra. Qed.

Lemma two_vals (v : cvec) l : (forall i, (i < 2)%nat -> mvec 2 (ent two) v i = Cmult (RtoC l) (v i)) ->
  (l = 0 /\ v 1%nat = RtoC 0) \/ (l = b19 /\ v 0%nat = RtoC 0) \/ (v 0%nat = RtoC 0 /\ v 1%nat = RtoC 0).
Proof.
  intros H. pose proof (H 0%nat ltac:(lia)) as H0. pose proof (H 1%nat ltac:(lia)) as H1.
  unfold mvec in H0, H1. cbn [csum two ent Nat.eqb] in H0, H1.
  assert (E0 : Cmult (RtoC l) (v 0%nat) = RtoC 0) by (rewrite <- H0; cring).
  assert (E1 : Cmult (RtoC (l - b19)) (v 1%nat) = RtoC 0).
  { rewrite RtoC_minus. transitivity (Cminus (Cmult (RtoC l) (v 1%nat)) (Cmult (RtoC b19) (v 1%nat))); [cring|]. rewrite <- H1. cring. }
  assert (Z : forall a (z : C), Cmult (RtoC a) z = RtoC 0 -> a = 0 \/ z = RtoC 0).
  { intros a z E. destruct (Req_dec a 0); [auto|right]. replace z with (Cmult (RtoC (/ a)) (Cmult (RtoC a) z)).
    - rewrite E. cring.
    - rewrite Cmult_assoc, <- RtoC_mult, Rinv_l by auto. cring. }
  pose proof PI2_pos as PP. pose proof b19_val as Bv.
  destruct (Z _ _ E0) as [A|A], (Z _ _ E1) as [B|B]; auto.
  - exfalso. lra.
  - right. left. split; [lra|auto].
Qed.
Lemma two_sys ls V : eigensystem 2 (ent two) ls V ->
  (nth 0 ls 0 = 0 /\ nth 1 ls 0 = b19) \/ (nth 0 ls 0 = b19 /\ nth 1 ls 0 = 0).
Proof.
  intros (_ & HO & HE). pose proof PI2_pos as PP. pose proof b19_val as Bv.
  pose proof (two_vals _ _ (fun i Hi => HE i 0%nat Hi ltac:(lia))) as A. pose proof (two_vals _ _ (fun i Hi => HE i 1%nat Hi ltac:(lia))) as B.
  pose proof (HO 0%nat 0%nat ltac:(lia) ltac:(lia)) as O00. pose proof (HO 1%nat 1%nat ltac:(lia) ltac:(lia)) as O11.
  pose proof (HO 0%nat 1%nat ltac:(lia) ltac:(lia)) as O01. cbn [csum Nat.eqb] in O00, O11, O01.
  assert (N : RtoC 1 <> RtoC 0) by (apply RtoC_neq0; lra).
  assert (M : forall a z : C, Cmult a z = RtoC 0 -> a = RtoC 0 \/ z = RtoC 0).
  { intros a z E. destruct (Ceq_dec a (RtoC 0)) as [|Na]; [auto|right]. destruct (Ceq_dec z (RtoC 0)) as [|Nz]; auto. destruct (Cmult_neq_0 a z Na Nz E). }
  assert (CC : forall z : C, Cconj z = RtoC 0 -> z = RtoC 0).
  { intros z E. rewrite <- (Cconj_conj z), E. apply Cconj_R. }
  destruct A as [[A1 A2]|[[A1 A2]|[A1 A2]]].
  - destruct B as [[B1 B2]|[[B1 B2]|[B1 B2]]].
    + exfalso. rewrite A2, B2 in O01. rewrite A2 in O00. rewrite B2 in O11.
      assert (E : Cmult (Cconj (V 0%nat 0%nat)) (V 0%nat 1%nat) = RtoC 0) by (rewrite <- O01, Cconj_R; cring).
      destruct (M _ _ E) as [X|X]; apply N; [rewrite <- O00|rewrite <- O11].
      * apply CC in X. rewrite X, Cconj_R. cring.
      * rewrite X, Cconj_R. cring.
    + left. auto.
    + exfalso. apply N. rewrite <- O11, B1, B2, Cconj_R. cring.
  - destruct B as [[B1 B2]|[[B1 B2]|[B1 B2]]].
    + right. auto.
    + exfalso. rewrite A2, B2 in O01. rewrite A2 in O00. rewrite B2 in O11.
      assert (E : Cmult (Cconj (V 1%nat 0%nat)) (V 1%nat 1%nat) = RtoC 0) by (rewrite <- O01, Cconj_R; cring).
      destruct (M _ _ E) as [X|X]; apply N; [rewrite <- O00|rewrite <- O11].
      * apply CC in X. rewrite X, Cconj_R. cring.
      * rewrite X, Cconj_R. cring.
    + exfalso. apply N. rewrite <- O11, B1, B2, Cconj_R. cring.
  - exfalso. apply N. rewrite <- O00, A1, A2, Cconj_R. cring.
Qed.
Lemma two_sigma : ~ eigval 2 (ent two) (RtoC ((2 * PI * (13 / 10)) * (2 * PI * (13 / 10)))).
Proof.
  intros (v & (i & Hi & Nz) & Hv). pose proof PI2_pos as PP. pose proof b19_val as Bv.
  destruct (two_vals v _ Hv) as [[A1 A2]|[[A1 A2]|[A1 A2]]].
  - lra.
  - lra.
  - destruct i as [|[|i]]; try lia; auto.
Qed.
Lemma freq0 : freq_of 0 = 0.
Proof. unfold freq_of. rewrite Rabs_R0, sqrt_0. unfold Rdiv. ring. Qed.
Lemma freq19 : freq_of b19 = 19 / 10.
Proof.
  pose proof PI_RGT_0. unfold freq_of, b19. rewrite Rabs_pos_eq by nra. rewrite sqrt_square by nra. field. lra.
Qed.
Lemma eigsh_wrong : exists o mat, herm mat /\ o_numeig o = 1%nat /\ o_sigma o = 13 / 10 /\ nr mat = 2%nat /\
  (exists v, eigvec 2 (ent mat) (RtoC b19) v) /\ freq_of b19 = 19 / 10 /\
  forall argsort eigsh, sorts argsort -> diagonalises_near eigsh -> exists vs, solve_eigsh argsort eigsh o mat = Ok ([0], vs).
Proof.
  exists (sel_opts "eigsh" None [0%nat] 1 (13 / 10)), two. split; [apply two_herm|]. split; [reflexivity|]. split; [reflexivity|]. split; [reflexivity|].
  split.
  { exists (fun i => if Nat.eqb i 1 then RtoC 1 else RtoC 0). split.
    - exists 1%nat. split; [lia|]. cbn. apply RtoC_neq0. lra.
    - intros [|[|i]] Hi; try lia; unfold mvec; cbn [csum two ent Nat.eqb]; cring. }
  split; [apply freq19|]. intros argsort eigsh Hs Hn.
  destruct (eigsh_ok argsort eigsh Hs Hn (sel_opts "eigsh" None [0%nat] 1 (13 / 10)) two two_herm ltac:(cbn; lia) two_sigma)
    as (ls & V & idx & fs & vs & P1 & P2 & P3).
  exists vs. rewrite P1. f_equal. f_equal. destruct P2 as (S1 & -> & _). destruct P3 as (N1 & N2 & N3 & N4). cbn [sel_opts o_numeig o_sigma nr two] in *.
  destruct idx as [|j [|]]; try discriminate. cbn [map]. f_equal.
  pose proof (N3 j (or_introl eq_refl)) as Hj. pose proof PI2_pos as PP. pose proof b19_val as Bv. pose proof freq0.
  destruct (two_sys ls V S1) as [[A B]|[A B]]; destruct j as [|[|j]]; try lia.
  - rewrite A. auto.
  - exfalso. pose proof (N4 1%nat 0%nat (or_introl eq_refl) ltac:(lia) ltac:(cbn; intros [|[]]; lia)) as L. cbn beta in L. rewrite A, B in L.
    rewrite (Rabs_left (0 - _)), (Rabs_pos_eq (b19 - _)) in L by nra. nra.
  - exfalso. pose proof (N4 0%nat 1%nat (or_introl eq_refl) ltac:(lia) ltac:(cbn; intros [|[]]; lia)) as L. cbn beta in L. rewrite A, B in L.
    rewrite (Rabs_left (0 - _)), (Rabs_pos_eq (b19 - _)) in L by nra. nra.
  - rewrite B. auto.
Qed.

(** ** more odd than even modes *)
Definition ex_lat : lattice := mkLattice LRectangular (1, 0) (0, 2 * PI) (2 * PI, 0) (0, 1) (2 * PI) (2 * PI).
(** a device with the plane waves (0,0), (0,1), (0,-1) *)
Definition ex_dev : dev := Dev (phc_init ex_lat 1 1) true (mkRecip ex_g 1 3 [0; 0; 0]%Z [0; 1; -1]%Z) None.
Definition herm_H : cmat := fun i j => if Nat.eqb i j then RtoC 2 else RtoC 1.
Lemma herm_H_ok i j : herm_H i j = Cconj (herm_H j i).
Proof. unfold herm_H. rewrite (Nat.eqb_sym j i). destruct (Nat.eqb i j); symmetry; apply Cconj_R. Qed.
Lemma herm_H_comm : forall v i, (i < 3)%nat -> mvec 3 herm_H (refl_op ex_mate (fun _ => - 1) v) i = refl_op ex_mate (fun _ => - 1) (mvec 3 herm_H v) i.
Proof.
  apply commutes.
  - intros [|[|[|i]]] Hi; simpl; try lia; split; try lia; reflexivity.
  - intros i Hi. split; auto.
  - intros [|[|[|i]]] [|[|[|j]]] Hi Hj; try lia; cbn; cring.
Qed.
Lemma ex_counts n b V : (b <= n)%nat -> n = 3%nat -> parity_basis n b (refl_op ex_mate (fun _ => - 1)) V -> b = 1%nat.
Proof.
  intros Hb -> PB.
  assert (I : invol 3 ex_mate) by (intros [|[|[|i]]] Hi; simpl; try lia; split; try lia; reflexivity).
  pose proof (count_trace 3 b ex_mate (fun _ => - 1) V Hb I PB) as E.
  unfold csum, ex_mate in E. cbn [Nat.eqb] in E. apply (f_equal fst) in E. cbn in E.
  destruct b as [|[|[|[|b]]]]; try lia; simpl in E; lra.
Qed.
Lemma both_wrong : exists d o th inds mate mt s H, reflect_pairs th (dv_gvec d) (o_inds o) inds mate mt s /\
  (let n := list_sum (map (@List.length nat) inds) in o_numeig o = n /\ o_symm o = Some "both"%string /\ 
   (forall i j, (i < n)%nat -> (j < n)%nat -> H i j = Cconj (H j i)) /\
   (forall v i, (i < n)%nat -> mvec n H (refl_op mt s v) i = refl_op mt s (mvec n H v) i) /\
   forall argsort eigh, sorts argsort -> diagonalises eigh ->
   exists b E O, symm_basis d o (sym_mat th) (map (@List.length nat) inds) inds = Ok b /\ symm_split o (Arr n n H) b = Ok (E, O) /\
     (sb_even b + sb_odd b)%nat = n /\
     solve_both argsort eigh o b E O = Raise IndexError).
Proof.
  exists ex_dev, (sel_opts "eigh" (Some "both"%string) [0%nat] 3 0), 0, [[0%nat; 1%nat; 2%nat]], (fun _ => lmate ex_mate [0%nat; 1%nat; 2%nat]), ex_mate, (fun _ => - 1), herm_H.
  split; [exact ex_pairs|]. cbn zeta. split; [reflexivity|]. split; [reflexivity|]. split; [intros; apply herm_H_ok|]. split; [exact herm_H_comm|].
  intros argsort eigh Hs He.
  assert (T0 : 0 <= o_thr (sel_opts "eigh" (Some "both"%string) [0%nat] 3 0)) by (cbn; lra).
  destruct (both_lem ex_dev (sel_opts "eigh" (Some "both"%string) [0%nat] 3 0) 0 [[0%nat; 1%nat; 2%nat]] _ ex_mate (fun _ => - 1) herm_H ex_pairs
    (fun i j _ _ => herm_H_ok i j) herm_H_comm T0 argsort eigh Hs He) as (b & B1 & B2 & B3).
  destruct (split_ready ex_dev (sel_opts "eigh" (Some "both"%string) [0%nat] 3 0) 0 [[0%nat; 1%nat; 2%nat]] _ ex_mate (fun _ => - 1) herm_H ex_pairs
    (fun i j _ _ => herm_H_ok i j) herm_H_comm T0) as (b' & B1' & _ & _ & _ & PB & _).
  rewrite B1 in B1'. injection B1' as <-. cbn [map List.length list_sum fold_right Nat.add] in *.
  pose proof (ex_counts 3 (sb_even b) (sb_v b) ltac:(lia) eq_refl PB) as Ev.
  destruct (B3 ltac:(lia) ltac:(lia)) as (E & O & S1 & _ & S2). exists b, E, O. split; [exact B1|]. split; [exact S1|]. split; [exact B2|].
  apply S2; [lia|reflexivity].
Qed.

(** ** a mode above cut-off *)
Lemma mapM_app {A B} (f : A -> result B) l1 l2 r : mapM f l1 = Ok r -> mapM f (l1 ++ l2) = let* t := mapM f l2 in Ok (r ++ t).
Proof.
  revert r. induction l1 as [|a l IH]; intros r H; cbn [mapM app] in *.
  - injection H as <-. destruct (mapM f l2); reflexivity.
  - destruct (f a) as [y|]; [|discriminate]. cbn [bind] in *. destruct (mapM f l) as [t|] eqn:E; [|discriminate]. injection H as <-.
    rewrite (IH t eq_refl). destruct (mapM f l2); reflexivity.
Qed.
Lemma sparse_app m gvec numg inds l1 l2 : forall off r, sparse_blocks m gvec numg inds off l1 = Ok r -> forall e, 
  (forall off, sparse_blocks m gvec numg inds off l2 = Raise e) -> sparse_blocks m gvec numg inds off (l1 ++ l2) = Raise e.
Proof.
  induction l1 as [|[a al] t IH]; intros off r H e He; cbn [sparse_blocks app] in *; [apply He|].
  destruct (SymModel.get numg a) as [dim|]; [|discriminate]. cbn [bind] in *.
  destruct (SymModel.get inds a) as [ind|]; [|discriminate]. cbn [bind] in *.
  destruct (loop _ _ _) as [[[tr w] ck]|]; [|discriminate]. cbn [bind] in *.
  destruct (sparse_blocks m gvec numg inds (off + dim) t) as [z|] eqn:E3; [|discriminate].
  rewrite (IH _ _ E3 e He). reflexivity.
Qed.
Lemma enum_snoc {A} (l : list A) x : enum (l ++ [x]) = enum l ++ [(List.length l, x)].
Proof.
  unfold enum. rewrite app_length, Nat.add_1_r, seq_S.
  assert (G : forall (a : list nat) b x y, List.length a = List.length b -> combine (a ++ [x]) (b ++ [y : A]) = combine a b ++ [(x, y)]).
  { induction a as [|u a IH]; intros [|v b] p q Hl; try discriminate; cbn; auto. f_equal. apply IH. simpl in Hl; lia. }
  apply G. apply seq_length.
Qed.
Definition with_inds (o : opts) (l : list nat) : opts :=
  Opts (o_compute o) l (o_npts o) (o_step o) (o_tol o) (o_numeig o) (o_im o) (o_solver o) (o_sigma o) (o_epseff o) (o_symm o) (o_thr o) (o_dgx o) (o_dgabs o) (o_sparse o) (o_only o).
(** one mode more than the bookkeeping has entries *)
Lemma basis_short d o m numg ind b x : List.length numg = List.length (o_inds o) -> symm_basis d o m numg ind = Ok b ->
  symm_basis d (with_inds o (o_inds o ++ [x])) m numg ind = Raise IndexError.
Proof.
  intros HL H. assert (G : SymModel.get numg (List.length (o_inds o)) = Raise IndexError).
  { unfold SymModel.get. rewrite (proj2 (nth_error_None numg (List.length (o_inds o)))) by lia. reflexivity. }
  unfold symm_basis in *. cbn [with_inds o_sparse o_inds]. destruct (o_sparse o).
  - unfold basis_sparse in *. rewrite enum_snoc. destruct (sparse_blocks m (dv_gvec d) numg ind 0 (enum (o_inds o))) as [r|] eqn:E; [|discriminate].
    rewrite (sparse_app _ _ _ _ _ _ _ _ E IndexError); [reflexivity|]. intros off. cbn [sparse_blocks]. rewrite G. reflexivity.
  - unfold basis_dense in *. rewrite enum_snoc. destruct (mapM _ (enum (o_inds o))) as [r|] eqn:E; [|discriminate].
    rewrite (mapM_app _ _ _ r E). cbn [mapM fst]. rewrite G. reflexivity.
Qed.
Lemma missing_wrong : exists d o k garr te tm eps ds einv M ms b,
  o_symm o = Some "both"%string /\ o_inds o = [0%nat; 1%nat; 2%nat] /\ entry te tm 2 = None /\
  construct_mat 0 (dv_gvec d) k (o_dgx o) (o_inds o) garr te tm eps ds einv = Ok M /\
  construct_mat 0 (dv_gvec d) k (o_dgx o) [0%nat; 1%nat] garr te tm eps ds einv = Ok M /\
  gmode_include (o_inds o) te tm = [0%nat; 1%nat] /\
  mapM (get_guided (List.length (dv_gvec d)) (gk_len (gk_data (dv_gvec d) k (o_dgx o))) garr te tm eps) [0%nat; 1%nat] = Ok ms /\
  symm_basis d (with_inds o [0%nat; 1%nat]) (sym_mat 0) (map md_size ms) (map md_ind ms) = Ok b /\
  symm_basis d o (sym_mat 0) (map md_size ms) (map md_ind ms) = Raise IndexError.
Proof.
  set (einv := fun (il i j : nat) => if Nat.eqb i j then RtoC 2 else RtoC 1).
  assert (A1 : reflect (rad 0) (1 / 2, 0) = (1 / 2, 0)) by (rewrite refl0; apply f_equal2; ring).
  assert (A2 : forall i, (i < List.length ex_g)%nat -> 0 < len (kplus (1 / 2, 0) (nth i ex_g (0, 0)))).
  { intros [|[|[|i]]] Hi; simpl in Hi; try lia; unfold len, LatticeSpec.inner, kplus, ex_g; cbn [nth fst snd]; apply sqrt_lt_R0; nra. }
  assert (A3 : herm_layers einv) by (intros il i j; unfold einv; rewrite (Nat.eqb_sym j i); destruct (Nat.eqb i j); symmetry; apply Cconj_R).
  assert (A4 : forall il i j, (i < List.length ex_g)%nat -> (j < List.length ex_g)%nat -> einv il (ex_mate i) (ex_mate j) = einv il i j)
    by (intros il [|[|[|i]]] [|[|[|j]]] Hi Hj; simpl in Hi, Hj; try lia; reflexivity).
  assert (A5 : forall m, In m [0%nat; 1%nat] -> entry ex_te ex_tm m <> None) by (intros m [<-|[<-|[]]]; discriminate).
  assert (A6 : [0%nat; 1%nat] <> []) by discriminate.
  destruct (C79_lem 0 ex_g (1 / 2, 0) ex_mate [0%nat; 1%nat] [1 / 4; 1] ex_te ex_tm [1; 12; 1] [1] einv 0 ex_perm ex_sep A1 A2 A3 A4 ex_tab A6 A5 (Rle_refl 0))
    as (ms & M & mt & s & K1 & K2 & K3 & K4). destruct K4 as (_ & _ & _ & (b & B1 & _) & _).
  set (o := sel_opts "eigh" (Some "both"%string) [0%nat; 1%nat; 2%nat] 3 0).
  set (o2 := with_inds o [0%nat; 1%nat]).
  assert (MM : mapM (get_guided (List.length ex_g) (gk_len (gk_data ex_g (1 / 2, 0) 0)) [1 / 4; 1] ex_te ex_tm [1; 12; 1]) [0%nat; 1%nat] = Ok (map snd ms)).
  { clear - K2 K3. rewrite <- K2. clear K2. induction K3 as [|x l Hx _ IH]; [reflexivity|]. cbn [map mapM]. rewrite Hx. cbn [bind]. 
    rewrite IH. reflexivity. }
  assert (GM : gmode_include [0%nat; 1%nat; 2%nat] ex_te ex_tm = [0%nat; 1%nat]) by reflexivity.
  assert (Sz : map md_size (map snd ms) = map (@List.length nat) (map (fun x => md_ind (snd x)) ms)).
  { rewrite !map_map. reflexivity. }
  assert (B2 : symm_basis ex_dev o2 (sym_mat 0) (map md_size (map snd ms)) (map md_ind (map snd ms)) = Ok b).
  { rewrite Sz, (map_map snd md_ind). exact B1. }
  exists ex_dev, o, (1 / 2, 0), [1 / 4; 1], ex_te, ex_tm, [1; 12; 1], [1], einv, M, (map snd ms), b.
  split; [reflexivity|]. split; [reflexivity|]. split; [reflexivity|]. split; [|split; [exact K1|]].
  { rewrite <- K1. unfold construct_mat. cbn [o sel_opts o_inds dv_gvec ex_dev dv_rc rc_g o_dgx]. rewrite GM. reflexivity. }
  split; [exact GM|]. split; [exact MM|]. split; [exact B2|].
  change o with (with_inds o2 (o_inds o2 ++ [2%nat])). apply (basis_short ex_dev o2 _ _ _ b); auto.
  rewrite Sz, !map_length. rewrite <- (map_length fst ms), K2. reflexivity.
Qed.
