(** C95: control-flow traits of loops and functions. *)
From Coq Require Import PeanoNat Bool List.
From Verif Require Import CFTraitModel CFTraitSpec CFTraitProof.
Import ListNotations.

(** for (0) { switch { break; } break; f(); return; goto 7; } 7: ; *)
Definition exW (x : nat) : kind :=
  match x with 1 => KBreak | 2 => KBreak | 3 => KCall (Some 5) | 4 => KReturn | 5 => KGoto 7 | _ => KOther end.
Definition exC (d : nat) : option attrs := if d =? 5 then Some (Attrs true true false false) else None.
Definition exS : stmt :=
  SSeq (SLoop 0 (SSeq (SSwitch (SLeaf 1)) (SSeq (SLeaf 2) (SSeq (SLeaf 3) (SSeq (SLeaf 4) (SLeaf 5)))))) (SLabel 7 (SLeaf 6)).

(** ** Ways out of a loop *)
Theorem C95_exit : C95_exit_claim.
Proof. exact exit_true. Qed.
Print Assumptions C95_exit.
Example C95_exit_example :
  leaves exW exS 0 2
  /\ map eStmt (filter (fun e => if region_eq_dec (eRegion e) (RLoop 0) then fExit (eFlags e) else false) (analyze exW exC exS)) = [2; 4; 5].
Proof.
  split; [ | reflexivity]. exists []. apply part_left. apply (part_loop 0 _ [] _). apply part_right. apply part_left. apply part_self.
Qed.

(** What is missing: labels in the same loop. *)
Theorem C95_exact_partial : C95_exact_claim true.
Proof. exact exact_true. Qed.
Print Assumptions C95_exact_partial.
Lemma exS_label : forall j l, ~ labelIn exS j l.
Proof.
  intros j l [c [t [P Hc]]].
  repeat match goal with H : part _ _ _ |- _ => inversion H; subst; clear H end;
    cbn in Hc; intuition discriminate.
Qed.
Example C95_exact_example :
  (forall l j y, exW y = KGoto l -> inLoop exS j y -> ~ labelIn exS j l)
  /\ known (analyze exW exC exS) (RLoop 0) 5 exit.
Proof.
  split; [intros l j y _ _; apply exS_label | ]. exists (Event (RLoop 0) 5 exit). split; [ | repeat split].
  vm_compute. tauto.
Qed.
Theorem C95_exact_refuted_inner : ~ C95_exact_claim false.
Proof. exact exact_inner. Qed.
Print Assumptions C95_exact_refuted_inner.

(** ** Ways into a loop *)
Theorem C95_entry_refuted : ~ C95_entry_claim.
Proof. exact entry_false. Qed.
Print Assumptions C95_entry_refuted.
Theorem C95_noentry : C95_noentry_claim.
Proof. exact noentry_true. Qed.
Print Assumptions C95_noentry.
Example C95_noentry_example : enters wIn sEntry 0 1 /\ known (analyze wIn exC sIn) (RLoop 0) 1 exit.
Proof.
  split; [exact entry_fact | ]. exists (Event (RLoop 0) 1 exit). split; [right; right; left; reflexivity | repeat split].
Qed.

(** ** Regions *)
Theorem C95_inside : C95_inside_claim.
Proof. exact inside_true. Qed.
Print Assumptions C95_inside.
Theorem C95_single : C95_single_claim.
Proof. exact single_true. Qed.
Print Assumptions C95_single.
Example C95_inside_example :
  known (analyze exW exC exS) (RLoop 0) 3 (Flags true false false false false false)
  /\ known (analyze exW exC exS) RFunc 3 (Flags true false false false false false).
Proof.
  split; [exists (Event (RLoop 0) 3 (Flags true false false false false false)) | exists (Event RFunc 3 (Flags true false false false false false))];
    (split; [vm_compute; tauto | repeat split]).
Qed.

(** ** Calls *)
(** What is missing: declarations which are not functions called in LLVM IR. *)
Theorem C95_call_partial : C95_call_claim true.
Proof. exact call_true. Qed.
Print Assumptions C95_call_partial.
Example C95_call_example :
  trueAttrs exW exC (fun _ => Behaviour true false false false)
  /\ (forall y e, exW y = KCall (Some e) -> exC e <> None)
  /\ part exS [ScLoop 0] (SLeaf 3) /\ ~ covered (Behaviour true false false false) none.
Proof.
  assert (W : forall y e, exW y = KCall (Some e) -> e = 5).
  { intros y e H. unfold exW in H. destruct y as [ | [ | [ | [ | [ | [ | y]]]]]]; try discriminate H. injection H as <-. reflexivity. }
  split; [ | split; [ | split]].
  - intros x d a H E. rewrite (W x d H) in E. cbn in E. injection E as <-. cbn. repeat split; discriminate.
  - intros y e H. rewrite (W y e H). discriminate.
  - apply part_left. apply (part_loop 0 _ [] _). apply part_right. apply part_right. apply part_left. apply part_self.
  - intros [H _]. discriminate (H eq_refl).
Qed.
Theorem C95_call_refuted_pointer : ~ C95_call_claim false.
Proof. exact call_pointer. Qed.
Print Assumptions C95_call_refuted_pointer.

(** ** Returns and gotos of a function *)
Theorem C95_func : C95_func_claim.
Proof. exact func_true. Qed.
Print Assumptions C95_func.
Example C95_func_example : part exS [ScLoop 0] (SLeaf 4) /\ exW 4 = KReturn.
Proof.
  split; [ | reflexivity].
  apply part_left. apply (part_loop 0 _ [] _). apply part_right. apply part_right. apply part_right. apply part_left. apply part_self.
Qed.

(** ** Reports *)
Theorem C95_report : C95_report_claim.
Proof. exact report_true. Qed.
Print Assumptions C95_report.
Theorem C95_only : C95_only_claim.
Proof. exact only_true. Qed.
Print Assumptions C95_only.
(** What is missing: gotos. *)
Theorem C95_kind_partial : C95_kind_claim true.
Proof. exact kind_true. Qed.
Print Assumptions C95_kind_partial.
Example C95_report_example :
  report exW exit (RLoop 0) (analyze exW exC exS) = [Slot (Some ReBreak) [2]; Slot (Some ReGoto) [4; 5]]
  /\ report exW none RFunc (analyze exW exC exS) = [Slot (Some ReCall) [3]]
  /\ report wPtr (Flags true false false false false false) RFunc (analyze wPtr exC (SLeaf 1)) = [Slot (Some ReCall) [1]]
  /\ (forall y l, wPtr y <> KGoto l).
Proof.
  split; [reflexivity | ]. split; [reflexivity | ]. split; [reflexivity | ].
  intros [ | [ | y]] l; discriminate.
Qed.
Theorem C95_kind_refuted_goto : ~ C95_kind_claim false.
Proof. exact kind_goto. Qed.
Print Assumptions C95_kind_refuted_goto.
