(** C99: replacement of constants in Fortran programs. *)
From Coq Require Import PeanoNat Bool List Permutation Lia.
From Verif Require Import ConstReplModel ConstReplSpec ConstReplProof.
Import ListNotations.

(** Symbols: A (1), x (2), y (3), N (5, a constant), i1_0 (100); B (6) has an assumed shape.
    A(N + A(1)) = x + 1; 10 x = A(1) + B(1); if (y) goto 10 *)
Definition exWorld : world :=
  World (fun a => negb (a =? 6)) (fun x => x =? 5) (fun _ => 8) (fun _ => 42)
        (fun _ n => 100 + n) [1; 2; 3; 5; 6; 100] (fun l => rev l).
Definition exProc : proc :=
  Proc [Var 2] [(None, Store 1 (Sum (Par 5) (Ref 1 (Lit 0 1))) (Sum (Var 2) (Lit 0 1)));
                (Some 10, Assign 2 (Sum (Ref 1 (Lit 0 1)) (Ref 6 (Lit 0 1)))); (None, Jump (Var 3) 10)].
Definition exResult : result :=
  Result [(101, 0); (102, 8)] None [Var 2]
    [(None, Assign 101 (Lit 0 1)); (None, Assign 102 (Par 5));
     (None, Store 1 (Sum (Var 102) (Ref 1 (Var 101))) (Sum (Var 2) (Lit 0 1)));
     (Some 10, Assign 2 (Sum (Ref 1 (Var 101)) (Ref 6 (Lit 0 1)))); (None, Jump (Var 3) 10)].
Lemma ex_valid : valid exWorld.
Proof. split; [intros c n n' E; cbn in E; lia | intros l; apply Permutation_sym; apply Permutation_rev]. Qed.
Lemma ex_typed : typed exWorld true exProc.
Proof.
  split; [intros e [<- | []]; reflexivity | ].
  intros l s H. cbn in H. destruct H as [E | [E | [E | []]]]; injection E as <- <-; cbn; tauto.
Qed.
Lemma ex_names : forall x, In x (namesProc exProc) -> In x (wSymbols exWorld).
Proof. intros x H. cbn in H. cbn. tauto. Qed.
Lemma ex_result : forall fixed, apply exWorld fixed exProc = Some exResult.
Proof. intros [ | ]; vm_compute; reflexivity. Qed.
Lemma ex_label : forall l s b, pBody exProc = (l, s) :: b -> l = None.
Proof. intros l s b E. injection E as <- _ _. reflexivity. Qed.

Theorem C99_fresh : C99_fresh_claim.
Proof. exact fresh_true. Qed.
Print Assumptions C99_fresh.
Example C99_fresh_example : valid exWorld /\ apply exWorld false exProc = Some exResult.
Proof. exact (conj ex_valid (ex_result false)). Qed.

(** What is missing: constants in a specification part, labels in the free form, arrays which are constants. *)
Theorem C99_valid_partial : C99_valid_claim true true true.
Proof. exact valid_true. Qed.
Print Assumptions C99_valid_partial.
Example C99_valid_example :
  valid exWorld /\ typed exWorld true exProc /\ (forall e, In e (pSpec exProc) -> ~ inSub exWorld false e)
  /\ (forall l s b, pBody exProc = (l, s) :: b -> l = None) /\ apply exWorld false exProc = Some exResult.
Proof.
  split; [exact ex_valid | ]. split; [exact ex_typed | ]. split; [ | exact (conj ex_label (ex_result false))].
  intros e [<- | []] X. inversion X.
Qed.

Theorem C99_valid_refuted_spec : ~ C99_valid_claim false true true.
Proof. exact valid_spec. Qed.
Print Assumptions C99_valid_refuted_spec.

Theorem C99_valid_refuted_label : ~ C99_valid_claim true false true.
Proof. exact valid_label. Qed.
Print Assumptions C99_valid_refuted_label.

Theorem C99_valid_refuted_array : ~ C99_valid_claim true true false.
Proof. exact valid_array. Qed.
Print Assumptions C99_valid_refuted_array.

(** What is missing: names of inner scopes, labels in the free form, arrays which are constants. *)
Theorem C99_same_partial : C99_same_claim true true true.
Proof. exact same_true. Qed.
Print Assumptions C99_same_partial.
Example C99_same_example :
  valid exWorld /\ typed exWorld true exProc /\ (forall x, In x (namesProc exProc) -> In x (wSymbols exWorld))
  /\ (forall l s b, pBody exProc = (l, s) :: b -> l = None) /\ apply exWorld false exProc = Some exResult
  /\ snd (run (wValue exWorld) 4 (pBody exProc) (0, fun x i => x + i)) 1 44 = 3
  /\ snd (run (wValue exWorld) 6 (rBody exResult) (0, fun x i => x + i)) 1 44 = 3.
Proof.
  exact (conj ex_valid (conj ex_typed (conj ex_names (conj ex_label (conj (ex_result false) (conj eq_refl eq_refl)))))).
Qed.

Theorem C99_same_refuted_scope : ~ C99_same_claim false true true.
Proof. exact same_block. Qed.
Print Assumptions C99_same_refuted_scope.

Theorem C99_same_refuted_label : ~ C99_same_claim true false true.
Proof. exact same_label. Qed.
Print Assumptions C99_same_refuted_label.

Theorem C99_same_refuted_array : ~ C99_same_claim true true false.
Proof. exact same_array. Qed.
Print Assumptions C99_same_refuted_array.

Theorem C99_replaced : C99_replaced_claim.
Proof. exact replaced_true. Qed.
Print Assumptions C99_replaced.
Example C99_replaced_example :
  valid exWorld /\ pBody exProc <> [] /\ apply exWorld false exProc = Some exResult
  /\ subStmt exWorld (Assign 2 (Sum (Ref 1 (Lit 0 1)) (Ref 6 (Lit 0 1)))).
Proof.
  split; [exact ex_valid | ]. split; [discriminate | ]. split; [exact (ex_result false) | ].
  apply sub_left. apply sub_ref. apply sub_lit.
Qed.

(** What is missing: arrays which are constants. *)
Theorem C99_identity_partial : C99_identity_claim true.
Proof. exact identity_true. Qed.
Print Assumptions C99_identity_partial.
Example C99_identity_example :
  valid exWorld /\ typed exWorld true (Proc [] [(None, Assign 2 (Ref 6 (Lit 0 1)))])
  /\ (forall l s, In (l, s) [(@None nat, Assign 2 (Ref 6 (Lit 0 1)))] -> ~ subStmt exWorld s).
Proof.
  split; [exact ex_valid | ]. split.
  - split; [intros e [] | ]. intros l s [E | []]. injection E as <- <-. cbn. tauto.
  - intros l s [E | []] X. injection E as <- <-. cbn [subStmt] in X. inversion X as [ | | | | ? ? ? Y]; subst. inversion Y.
Qed.

Theorem C99_identity_refuted_array : ~ C99_identity_claim false.
Proof. exact identity_array. Qed.
Print Assumptions C99_identity_refuted_array.

Theorem C99_declared : C99_declared_claim.
Proof. exact declared_true. Qed.
Print Assumptions C99_declared.
Example C99_declared_example : valid exWorld /\ apply exWorld true exProc = Some exResult /\ kindOf exWorld (Par 5) = Some 8.
Proof. exact (conj ex_valid (conj (ex_result true) eq_refl)). Qed.
