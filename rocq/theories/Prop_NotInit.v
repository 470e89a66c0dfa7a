(** C86: the checker of memory which is not initialized. *)
From Coq Require Import PeanoNat Bool List Lia.
From Verif Require Import NotInitModel NotInitSpec NotInitProof.
Import ListNotations.

(* a structure 0 has a field 1 with a part 2 without metadata, 3 is a global scalar, 4 is a
   constant, 5 is memory without metadata, 6 is a part of an argument 3 *)
Definition treeN : tree := Tree
  (fun e => match e with 1 => Some 0 | 2 => Some 1 | 7 => Some 6 | _ => None end)
  (fun e => match e with 0 | 1 | 6 => false | _ => true end)
  (fun e => match e with 4 => OConstGlobal | 6 | 7 => OArgument | _ => OOrdinary end)
  (fun e => match e with 0 => Some 10 | 1 => Some 11 | 3 => Some 13 | 4 => Some 14 | 6 => Some 16 | _ => None end)
  (fun _ => true)
  (fun d => match d with 13 => KGlobal | 16 => KArgument | _ => KLocal end).
Lemma treeN_ok : treeOk treeN.
Proof. intros e p E. destruct e as [|[|[|[|[|[|[|[|e]]]]]]]]; cbn in E; try discriminate E; injection E as <-; lia. Qed.
Lemma treeN_inj a b d : tMeta treeN a = Some d -> tMeta treeN b = Some d -> a = b.
Proof.
  intros A B. destruct a as [|[|[|[|[|[|[|a]]]]]]]; cbn in A; try discriminate A; injection A as <-;
  destruct b as [|[|[|[|[|[|[|b]]]]]]]; cbn in B; try discriminate B; reflexivity.
Qed.

(** The full statement is C86_covered_claim false false false. *)
Theorem C86_covered_partial : C86_covered_claim true true true.
Proof. exact covered_true. Qed.
Print Assumptions C86_covered_partial.
Example C86_covered_case : treeOk treeN /\ ordinary treeN 2 /\
  (forall a b d, tMeta treeN a = Some d -> tMeta treeN b = Some d -> a = b) /\
  (forall e, tObject treeN e = OArgument -> ~ anonymous treeN e) /\
  sScalars (run treeN [2; 3; 4; 7]) = [(KGlobal, 13)] /\ sAggregates (run treeN [2; 3; 4; 7]) = [(KLocal, 11); (KArgument, 16)] /\
  sNoMeta (run treeN [2; 3; 4; 7]) = false /\
  sAggregates (run treeN [2; 0; 3]) = [(KLocal, 10)] /\ sNoMeta (run treeN [5]) = true.
Proof.
  split; [exact treeN_ok|]. split; [left; reflexivity|]. split; [exact treeN_inj|].
  split; [|repeat split; reflexivity].
  intros e E A. destruct e as [|[|[|[|[|[|[|[|e]]]]]]]]; try discriminate E.
  - specialize (A 6 (CSelf _ 6)). discriminate A.
  - specialize (A 6 (CUp treeN 6 7 6 eq_refl (CSelf _ 6))). discriminate A.
Qed.
(** Memory inside a larger one and another memory have the same location. *)
Theorem C86_covered_refuted_same : ~ C86_covered_claim false true true.
Proof. exact covered_refuted_inj. Qed.
Print Assumptions C86_covered_refuted_same.
(** A location is not in the tree of locations. *)
Theorem C86_covered_refuted_unknown : ~ C86_covered_claim true false true.
Proof. exact covered_refuted_known. Qed.
Print Assumptions C86_covered_refuted_unknown.
(** Memory of an argument has no metadata. *)
Theorem C86_covered_refuted_argument : ~ C86_covered_claim true true false.
Proof. exact covered_refuted_arg. Qed.
Print Assumptions C86_covered_refuted_argument.

Theorem C86_exact : C86_exact_claim.
Proof. exact exact_true. Qed.
Print Assumptions C86_exact.
Example C86_exact_case : treeOk treeN /\ candidate treeN [2; 0; 3] 0 10 /\ candidate treeN [2; 0; 3] 1 11 /\ inside treeN 0 1 /\
  scalars (run treeN [2; 0; 3]) 13 /\ ~ aggregates (run treeN [2; 0; 3]) 11.
Proof.
  split; [exact treeN_ok|].
  split; [exists 0; split; [cbn; tauto|]; split; [left; reflexivity|]; split; [apply (named_climb treeN treeN_ok); reflexivity|reflexivity]|].
  split; [exists 2; split; [cbn; tauto|]; split; [left; reflexivity|]; split; [apply (named_climb treeN treeN_ok); reflexivity|reflexivity]|].
  split; [split; [discriminate|exact (CUp treeN 0 1 0 eq_refl (CSelf _ 0))]|].
  split; [exists KGlobal; left; reflexivity|].
  intros (k & [Q|[]]). discriminate Q.
Qed.

Theorem C86_class : C86_class_claim.
Proof. exact class_true. Qed.
Print Assumptions C86_class.
Example C86_class_case : sScalars (run treeN [3; 3; 2; 3]) = [(KGlobal, 13)] /\ tKind treeN 13 = KGlobal.
Proof. split; reflexivity. Qed.
