(** C38, C43 and C44 for whole runs, with the counterexamples. *)
From Coq Require Import Permutation List.
From Verif Require Import Py CBase LatticeModel PhcModel SymModel SymSpec SymProofs2 SymProofs3 SymProofs4 SymProofs6 SymProofs7 SymProofs8 RecipModel SlabModel MatElModel MatElSpec MatElProofs3
  RadModel RunModel RunSpec RunProofs RunProofs2 RunProofs3 RunProofs4.
Open Scope R_scope.
Open Scope list_scope.

Lemma construct_herm dl gvec k dgx inds garr te tm eps ds einv M :
  construct_mat dl gvec k dgx inds garr te tm eps ds einv = Ok M -> herm M.
Proof.
  unfold construct_mat. destruct (gmode_include inds te tm); [discriminate|]. intros H.
  destruct (mapM _ _) as [ms|]; [|discriminate]. cbn [bind] in H.
  destruct (mapM hstack _) as [rows|]; [|discriminate]. cbn [bind] in H.
  destruct (vstack rows) as [m|]; [|discriminate]. cbn [bind] in H.
  unfold fill_lower in H. destruct (Nat.eqb_spec (nr m) (nc m)) as [Em|]; [|discriminate]. injection H as <-.
  split; cbn; [auto|]. intros i j _ _. rewrite (Nat.eqb_sym j i).
  destruct (Nat.ltb_spec i j), (Nat.ltb_spec j i), (Nat.eqb_spec i j); try lia; try (subst j); apply Ceq; simpl; ring.
Qed.

Section Top.
Variable argsort : list R -> list nat.
Variable eigh : nat -> cmat -> list R * cmat.
Variable eigsh : nat -> cmat -> nat -> R -> result (list R * cmat).
Variable inv : nat -> cmat -> cmat.
Variable root : (R -> R) -> R -> R -> R.
Variable dl : R.
Hypothesis Hs : sorts argsort.
Notation run' := (run argsort eigh eigsh inv root dl).
Notation one' := (one_k argsort eigh eigsh root dl).

(** the tables and the matrix of one k-point of a run *)
Definition matrix_at (d : dev) (o : opts) (ks : list (R * R)) (eps : list R) (einv : nat -> cmat) (k : R * R) (te tm : gtable) (mat : arr2) : Prop :=
  eps_list d o = Ok eps /\ exists garr,
  (exact_modes o = true /\ compute_guided root o eps (d_list d) (exact_grid d o k) = Ok (garr, te, tm) \/
   interp_modes o = true /\ compute_guided root o eps (d_list d) (interp_grid d o ks) = Ok (garr, te, tm)) /\
  construct_mat dl (dv_gvec d) k (o_dgx o) (o_inds o) garr te tm eps (d_list d) einv = Ok mat.

Lemma run_matrix d o ks an s s' : run' d o ks an s = (s', Ok tt) ->
  List.length (g_freqs s') = List.length ks /\ List.length (g_vecs s') = List.length ks /\
  forall ik k, nth_error ks ik = Some k -> exists refl eps einv te tm mat sy numg,
    matrix_at d o ks eps einv k te tm mat /\ herm mat /\ (o_numeig o <= nr mat)%nat /\ g_einv s' = Some einv /\ check d o an = Ok refl /\
    List.length numg = List.length (gmode_include (o_inds o) te tm) /\ numg = nth ik (g_numg s') [] /\
    solved argsort eigh eigsh d o refl an ik mat numg (nth ik (g_ind s') []) (nth ik (g_freqs s') []) (nth ik (g_vecs s') []) sy.
Proof.
  intros H. destruct (run_ok argsort eigh eigsh inv root dl d o ks an s s' H)
    as (refl & eps & einv & H1 & H2 & H3 & H4 & H5 & H6 & H7 & HI & HN & HD & sy & H8 & H9 & H9' & Q).
  split; auto. split; auto. intros ik k Hk. destruct (Q ik k Hk) as (garr & te & tm & T1 & T2 & T3).
  unfold k_result in T3. destruct T3 as [_ (mat & ms & K1 & K2 & K3 & K4 & K5 & K6)].
  do 8 eexists. split; [split; [exact H2|exists garr; split; [exact T1|exact K1]]|].
  split; [eapply construct_herm; eauto|]. split; [exact K5|]. split; [exact H4|]. split; [exact H1|]. split; [|split; [reflexivity|exact K6]].
  rewrite K4, map_length, <- K2. apply (mapM_ok_length _ _ _ K3).
Qed.

Lemma C38_run d o ks an s s' : diagonalises eigh -> o_solver o = "eigh"%string -> o_symm o = None ->
  run' d o ks an s = (s', Ok tt) ->
  List.length (g_freqs s') = List.length ks /\ List.length (g_vecs s') = List.length ks /\
  forall ik k, nth_error ks ik = Some k -> exists eps einv te tm mat ls V idx,
    matrix_at d o ks eps einv k te tm mat /\ g_einv s' = Some einv /\
    reports (nr mat) (ent mat) ls V idx (nth ik (g_freqs s') []) (nth ik (g_vecs s') []) /\
    nearest (nr mat) (o_numeig o) (fun j => Rabs (freq_of (nth j ls 0) - o_sigma o)) idx.
Proof.
  intros He E1 E2 H. destruct (run_matrix d o ks an s s' H) as (L1 & L2 & Q). split; auto. split; auto.
  intros ik k Hk. destruct (Q ik k Hk) as (refl & eps & einv & te & tm & mat & sy & numg & M1 & M2 & M3 & M4 & M5 & M6 & M7 & M8).
  destruct M8 as [(_ & _ & P & _)|[(Z & _)|(_ & y & a & m & b & E & O & Z & _)]]; [|congruence|congruence].
  destruct (plain_ok argsort eigh Hs He o mat M2 M3) as (ls & V & idx & fs & vs & P1 & P2 & P3).
  rewrite P in P1. injection P1 as <- <-. do 8 eexists. split; [exact M1|]. split; [exact M4|]. split; [exact P2|exact P3].
Qed.

Lemma C38_fails d o eps ds einv refl an ik k s s1 mat :
  construct root dl d o eps ds einv ik k s = (s1, Ok mat) -> (nr mat < o_numeig o)%nat ->
  one' d o eps ds einv refl an (ik, k) s = (s1, Raise ValueError).
Proof.
  intros H Hl. unfold one_k, andthen. rewrite H. rewrite (proj2 (Nat.ltb_lt _ _) Hl). reflexivity.
Qed.
Lemma construct_ok_herm d o eps ds einv ik k s s1 mat : construct root dl d o eps ds einv ik k s = (s1, Ok mat) -> herm mat.
Proof.
  intros Hc. unfold construct in Hc. apply then_ok in Hc. destruct Hc as (u & s2 & H2 & Hc).
  apply then_ok in Hc. destruct Hc as ([[garr te] tm] & s3 & H3 & Hc).
  apply then_ok in Hc. destruct Hc as (mat' & s4 & H4 & Hc). apply lift_ok in H4. destruct H4 as [-> H4].
  apply then_ok in Hc. destruct Hc as (ms & s5 & H5 & Hc).
  apply then_ok in Hc. destruct Hc as (v & s6 & H6 & Hc).
  apply ret_ok in Hc. destruct Hc as [-> ->]. eapply construct_herm; eauto.
Qed.
Lemma C38_succeeds d o eps ds einv refl an ik k s s1 mat : diagonalises eigh -> o_solver o = "eigh"%string -> o_symm o = None ->
  construct root dl d o eps ds einv ik k s = (s1, Ok mat) -> (o_numeig o <= nr mat)%nat ->
  exists s2 fs, one' d o eps ds einv refl an (ik, k) s = (s2, Ok (fs, [])).
Proof.
  intros He E1 E2 H Hl. unfold one_k. unfold andthen at 1. rewrite H.
  rewrite (proj2 (Nat.ltb_ge _ _) Hl), E1, E2. cbn [String.eqb Ascii.eqb Bool.eqb].
  destruct (plain_ok argsort eigh Hs He o mat (construct_ok_herm _ _ _ _ _ _ _ _ _ _ H) Hl) as (ls & V & idx & fs & vs & P1 & _).
  unfold andthen, lift. rewrite P1. do 2 eexists. reflexivity.
Qed.
Lemma C38_eigsh_run d o ks an s s' : diagonalises_near eigsh -> (0 < o_numeig o)%nat -> o_solver o = "eigsh"%string -> o_symm o = None ->
  run' d o ks an s = (s', Ok tt) ->
  forall ik k, nth_error ks ik = Some k -> exists eps einv te tm mat,
    matrix_at d o ks eps einv k te tm mat /\ g_einv s' = Some einv /\
    (~ eigval (nr mat) (ent mat) (RtoC ((2 * PI * o_sigma o) * (2 * PI * o_sigma o))) -> exists ls V idx,
    reports (nr mat) (ent mat) ls V idx (nth ik (g_freqs s') []) (nth ik (g_vecs s') []) /\
    nearest (nr mat) (o_numeig o) (fun j => Rabs (nth j ls 0 - (2 * PI * o_sigma o) * (2 * PI * o_sigma o))) idx).
Proof.
  intros He Hn E1 E2 H ik k Hk. destruct (run_matrix d o ks an s s' H) as (L1 & L2 & Q).
  destruct (Q ik k Hk) as (refl & eps & einv & te & tm & mat & sy & numg & M1 & M2 & M3 & M4 & M5 & M6 & M7 & M8).
  destruct M8 as [(Z & _)|[(_ & _ & P & _)|(Z & _)]]; [congruence| |congruence].
  exists eps, einv, te, tm, mat. split; [exact M1|]. split; [exact M4|]. intros Hv.
  destruct (eigsh_ok argsort eigsh Hs He o mat M2 (conj Hn M3) Hv) as (ls & V & idx & fs & vs & P1 & P2 & P3).
  rewrite P in P1. injection P1 as <- <-. exists ls, V, idx. auto.
Qed.

(** C44 *)
Lemma enum_nth {A} (l : list A) (da : A) i : (i < List.length l)%nat -> In (i, nth i l da) (enum l).
Proof.
  intros Hi. unfold enum.
  replace (i, nth i l da) with (nth i (seq 0 (List.length l)) 0%nat, nth i l da) by (rewrite seq_nth; auto).
  rewrite <- combine_nth by (rewrite seq_length; auto). apply nth_In. rewrite combine_length, seq_length. lia.
Qed.
Lemma mapM_in_ok {A B} (f : A -> result B) l r x : mapM f l = Ok r -> In x l -> exists y, f x = Ok y.
Proof.
  revert r. induction l as [|a l IH]; intros r H I; [destruct I|]. cbn [mapM] in H.
  destruct (f a) as [y|] eqn:E; [|discriminate]. cbn [bind] in H. destruct (mapM f l) as [t|] eqn:E2; [|discriminate].
  destruct I as [<-|I]; [eauto|]. eapply IH; eauto.
Qed.
Lemma sparse_get m gvec numg inds modes : forall off r, sparse_blocks m gvec numg inds off modes = Ok r ->
  forall a alpha, In (a, alpha) modes -> (a < List.length numg)%nat /\ (a < List.length inds)%nat.
Proof.
  induction modes as [|[a0 al0] t IH]; intros off r H a alpha I; [destruct I|]. cbn [sparse_blocks] in H.
  destruct (SymModel.get numg a0) as [dim|] eqn:E1; [|discriminate]. cbn [bind] in H.
  destruct (SymModel.get inds a0) as [ind|] eqn:E2; [|discriminate]. cbn [bind] in H.
  destruct (loop _ _ _) as [[[tr w] ck]|]; [|discriminate]. cbn [bind] in H.
  destruct (sparse_blocks m gvec numg inds (off + dim) t) as [z|] eqn:E3; [|discriminate].
  destruct I as [I|I].
  - injection I as <- <-. split; [apply (get_inv 0%nat) in E1; apply E1|apply (get_inv []) in E2; apply E2].
  - eapply IH; eauto.
Qed.
Lemma basis_needs d o m numg ind b : symm_basis d o m numg ind = Ok b ->
  (List.length (o_inds o) <= List.length numg)%nat /\ (List.length (o_inds o) <= List.length ind)%nat.
Proof.
  assert (G : forall L, (forall i, (i < List.length (o_inds o))%nat -> (i < L)%nat) -> (List.length (o_inds o) <= L)%nat).
  { intros L HL. destruct (List.length (o_inds o)) as [|z] eqn:E; [lia|]. specialize (HL z). lia. }
  unfold symm_basis. destruct (o_sparse o).
  - unfold basis_sparse. destruct (sparse_blocks m (dv_gvec d) numg ind 0 (enum (o_inds o))) as [r|] eqn:E; [|discriminate]. intros _.
    split; apply G; intros i Hi; destruct (sparse_get _ _ _ _ _ _ _ E i _ (enum_nth (o_inds o) 0%nat i Hi)); auto.
  - unfold basis_dense. destruct (mapM _ (enum (o_inds o))) as [r|] eqn:E; [|discriminate]. intros _.
    split; apply G; intros i Hi; destruct (mapM_in_ok _ _ _ _ E (enum_nth (o_inds o) 0%nat i Hi)) as [y Hy]; cbn [fst snd] in Hy;
      (destruct (SymModel.get numg i) as [dim|] eqn:E1; [|discriminate]); cbn [bind] in Hy;
      (destruct (SymModel.get ind i) as [ix|] eqn:E2; [|discriminate]).
    + apply (get_inv 0%nat) in E1. apply E1.
    + apply (get_inv []) in E2. apply E2.
Qed.
Lemma include_short inds te tm : (List.length inds <= List.length (gmode_include inds te tm))%nat ->
  forall m, In m inds -> entry te tm m <> None.
Proof.
  intros Hl m Hm. rewrite include_present in Hl.
  assert (F : present te tm inds = inds).
  { revert Hl. clear Hm m. unfold present. generalize (fun m : nat => match entry te tm m with Some _ => true | None => false end). intros f. 
    induction inds as [|a l IH]; [reflexivity|]. cbn [filter List.length]. destruct (f a); cbn [List.length]; intros Hl.
    - rewrite IH by lia. reflexivity.
    - exfalso. assert (X : forall l, (List.length (filter f l) <= List.length l)%nat).
      { clear. induction l as [|x l IH]; cbn; auto. destruct (f x); cbn; lia. }
      specialize (X l). lia. }
  apply (present_in inds te tm m). rewrite F. exact Hm.
Qed.
Lemma C44_needs_all d o ks an s s' : o_symm o <> None -> run' d o ks an s = (s', Ok tt) ->
  forall ik k, nth_error ks ik = Some k -> exists eps einv te tm mat, matrix_at d o ks eps einv k te tm mat /\
    forall m, In m (o_inds o) -> entry te tm m <> None.
Proof.
  intros Hy H ik k Hk. destruct (run_matrix d o ks an s s' H) as (L1 & L2 & Q).
  destruct (Q ik k Hk) as (refl & eps & einv & te & tm & mat & sy & numg & M1 & M2 & M3 & M4 & M5 & M6 & M7 & M8).
  exists eps, einv, te, tm, mat. split; [exact M1|].
  destruct M8 as [(_ & Z & _)|[(_ & Z & _)|(_ & y & a & m & b & E & O & _ & _ & _ & Bb & _)]]; [congruence|congruence|].
  apply include_short. rewrite <- M6. apply (basis_needs d o m numg _ b Bb).
Qed.
End Top.
