(** Getters and their attributes; scalar steps of grad_num. *)
From Coq Require Import String.
From Verif Require Import Py CBase MiscModel MiscSpec.
Open Scope R_scope.
Open Scope list_scope.

Lemma getter_own s name : In name (map fst (getters s)) -> find (fun p => String.eqb (fst p) name) (getters s) = Some (name, ("_" ++ name)%string).
Proof. intros H. destruct s; cbn in H; repeat (destruct H as [<-|H]; [reflexivity|]); destruct H. Qed.
Lemma getter_reads s (o : string -> option pyval) name : In name (map fst (getters s)) ->
  (forall v, o ("_" ++ name)%string = Some v -> v <> VNone -> getattr s o name = (o, Ok v)) /\
  (o ("_" ++ name)%string = None -> getattr s o name = (o, Raise AttributeError)) /\
  (o ("_" ++ name)%string = Some VNone -> getattr s o name =
    if solver_is_gme s then (o, Ok VNone) else (fun n => if String.eqb n ("_" ++ name) then Some VEmptyList else o n, Ok VEmptyList)).
Proof.
  intros H. unfold getattr. rewrite (getter_own s name H). split; [|split].
  - intros v -> Hv. destruct v; [contradiction| | |]; reflexivity.
  - intros ->. reflexivity.
  - intros ->. destruct s; reflexivity.
Qed.
Lemma getter_other s (o : string -> option pyval) name : ~ In name (map fst (getters s)) -> getattr s o name = (o, Raise AttributeError).
Proof.
  intros H. unfold getattr. destruct (find _ _) as [[a b]|] eqn:E; [|reflexivity]. apply find_some in E. destruct E as [E1 E2]. apply String.eqb_eq in E2. cbn in E2. subst a.
  elim H. apply in_map_iff. exists (name, b). auto.
Qed.

(** a numpy scalar as step *)
Lemma grad_scalar_step fn arg x h : (2 <= List.length (nd_data (hread h arg)))%nat -> (arg < List.length h)%nat -> snd (grad_num fn arg (StNumpy x) h) = Raise IndexError.
Proof.
  intros Hn Ha. unfold grad_num. cbn [steps]. destruct (List.length (nd_data (hread h arg))) as [|[|n]]; [lia|lia|].
  cbn [seq grad_loop nth_or nth_error]. reflexivity.
Qed.
Lemma grad_scalar_one fn arg x h : List.length (nd_data (hread h arg)) = 1%nat -> grad_num fn arg (StNumpy x) h = grad_num fn arg (StFloat x) h.
Proof. intros Hn. unfold grad_num. cbn [steps]. rewrite Hn. reflexivity. Qed.
