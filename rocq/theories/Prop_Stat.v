(** C98: statistics of a server. *)
From Coq Require Import PeanoNat Bool List Permutation Lia.
From Verif Require Import StatModel StatSpec StatProof.
Import ListNotations.

(** A unit with AST and a unit without it; an intrinsic, a library function, a prototype and two
    user functions; a parallel loop, a loop without ID, a node which is not covered. *)
Definition exFuncs : list func :=
  [Func 9 true false [] 0; Func 8 false false [] 0; Func 7 false false [] 0;
   Func 0 false true [Loop true true [TNode true [3] [[3]; [0; 1]]; TNode false [4] [[4]]]; Loop false false []] 2;
   Func 1 false true [Loop false true [TNode true [4; 5] [[4; 5]]]] 1].
Definition exDecl (n : nat) : option bool :=
  if n =? 8 then Some false else if (n =? 0) || (n =? 1) || (n =? 7) then Some true else None.
Definition exProject : project :=
  Project [5] [6] (10, 3) exFuncs [Unit false [(7, 5)] exDecl; Unit true [(0, 5); (1, 6); (2, 6); (3, 7)] exDecl].
Lemma ex_separate : separate exProject.
Proof. intros f H. cbn in H. repeat (destruct H as [<- | H]; [vm_compute; lia | ]). destruct H. Qed.
Lemma ex_uniform : uniform exProject.
Proof.
  intros n t x Hn Ht N. cbn in Hn. destruct Hn as [<- | [<- | [<- | []]]]; cbn in Ht.
  - destruct Ht as [<- | [<- | []]]; [reflexivity | contradiction N; left; reflexivity].
  - destruct Ht as [<- | []]. reflexivity.
  - destruct Ht as [<- | []]. reflexivity.
Qed.
Lemma ex_answer : answer exProject = Stat [(0, 1); (1, 2); (2, 1)] (Some (10, 3)) 4 3 [3; 1; 4; 5] 1 (Some (2, 4)).
Proof. reflexivity. Qed.

(** What is missing: files which are included in several units. *)
Theorem C98_files_partial : C98_files_claim true.
Proof. exact files_true. Qed.
Print Assumptions C98_files_partial.
Example C98_files_example : NoDup (files exProject) /\ count (isKind exProject 1) (nodup dec2 (files exProject)) = 2.
Proof. split; [ | reflexivity]. cbn. repeat (constructor; [cbn; intuition discriminate | ]). constructor. Qed.

Theorem C98_files_refuted_shared : ~ C98_files_claim false.
Proof. exact files_shared. Qed.
Print Assumptions C98_files_refuted_shared.

Theorem C98_kinds : C98_kinds_claim.
Proof. exact kinds_true. Qed.
Print Assumptions C98_kinds.
Example C98_kinds_example : sFiles (answer exProject) = [(0, 1); (1, 2); (2, 1)].
Proof. reflexivity. Qed.

Theorem C98_variables : C98_variables_claim.
Proof. exact variables_true. Qed.
Print Assumptions C98_variables.
Example C98_variables_example : active exProject <> [] /\ sVars (answer exProject) = Some (10, 3).
Proof. split; [discriminate | reflexivity]. Qed.

(** What is missing: projects with several units. *)
Theorem C98_functions_partial : C98_functions_claim true.
Proof. exact functions_true. Qed.
Print Assumptions C98_functions_partial.
Example C98_functions_example : active exProject <> [] /\ single exProject /\ sFuncs (answer exProject) = 4.
Proof. split; [discriminate | split; reflexivity]. Qed.

Theorem C98_functions_refuted_units : ~ C98_functions_claim false.
Proof. exact functions_two. Qed.
Print Assumptions C98_functions_refuted_units.

(** What is missing: functions which are declared in several units. *)
Theorem C98_user_partial : C98_user_claim true.
Proof. exact user_true. Qed.
Print Assumptions C98_user_partial.
Example C98_user_example : separate exProject /\ separate exTwo /\ sUser (answer exProject) = 3 /\ sUser (answer exTwo) = 2.
Proof. exact (conj ex_separate (conj exTwo_separate (conj eq_refl eq_refl))). Qed.

Theorem C98_user_refuted_common : ~ C98_user_claim false.
Proof. exact user_common. Qed.
Print Assumptions C98_user_refuted_common.

(** What is missing: projects with several units. *)
Theorem C98_loops_partial : C98_loops_claim true.
Proof. exact loops_true. Qed.
Print Assumptions C98_loops_partial.
Example C98_loops_example : active exProject <> [] /\ separate exProject /\ single exProject /\ sLoops (answer exProject) = Some (2, 4).
Proof. split; [discriminate | ]. exact (conj ex_separate (conj eq_refl eq_refl)). Qed.

Theorem C98_loops_refuted_units : ~ C98_loops_claim false.
Proof. exact loops_two. Qed.
Print Assumptions C98_loops_refuted_units.

(** What is missing: functions which are declared in several units. *)
Theorem C98_parallel_partial : C98_parallel_claim true.
Proof. exact parallel_true. Qed.
Print Assumptions C98_parallel_partial.
Example C98_parallel_example : separate exTwo /\ sParallel (answer exTwo) = 1.
Proof. exact (conj exTwo_separate eq_refl). Qed.

Theorem C98_parallel_refuted_common : ~ C98_parallel_claim false.
Proof. exact parallel_common. Qed.
Print Assumptions C98_parallel_refuted_common.

(** What is missing: functions which are declared in several units, nodes with different traits of locations. *)
Theorem C98_traits_partial : C98_traits_claim true true.
Proof. exact traits_true. Qed.
Print Assumptions C98_traits_partial.
Example C98_traits_example : separate exProject /\ uniform exProject /\ sTraits (answer exProject) = [3; 1; 4; 5].
Proof. exact (conj ex_separate (conj ex_uniform eq_refl)). Qed.

Theorem C98_traits_refuted_common : ~ C98_traits_claim false true.
Proof. exact traits_common. Qed.
Print Assumptions C98_traits_refuted_common.

Theorem C98_traits_refuted_mixed : ~ C98_traits_claim true false.
Proof. exact traits_mixed. Qed.
Print Assumptions C98_traits_refuted_mixed.

(** What is missing: a number of loops. *)
Theorem C98_order_partial : C98_order_claim false.
Proof. exact order_true. Qed.
Print Assumptions C98_order_partial.
Example C98_order_example :
  Permutation (pUnits exTwo) (rev (pUnits exTwo)) /\ sParallel (answer (Project [] [] (0, 0) (pFuncs exTwo) (rev (pUnits exTwo)))) = 1.
Proof. split; [apply Permutation_rev | reflexivity]. Qed.

Theorem C98_order_refuted_loops : ~ C98_order_claim true.
Proof. exact order_loops. Qed.
Print Assumptions C98_order_refuted_loops.
