(** Property C89. *)
From Coq Require Import NArith PeanoNat Bool List Lia.
From Verif Require Import TraitModel TraitSpec Prop_Trait ClarifyModel CombineModel CombineSpec NodeTraitModel NodeTraitSpec NodeTraitProof.
Import ListNotations.
Local Open Scope nat_scope.

(** Traits of a node cover dependences of its locations. *)
Theorem C89_cover_partial : C89_cover_claim true.
Proof. exact covers_true. Qed.
Print Assumptions C89_cover_partial.
(** Without the guard: locations accessed through each other are lost. *)
Theorem C89_cover_refuted_cycle : ~ C89_cover_claim false.
Proof. exact cover_refuted. Qed.
Print Assumptions C89_cover_refuted_cycle.

(** Dependences of a node are dependences of its locations. *)
Theorem C89_precise_partial : C89_precise_claim true.
Proof. exact precise_true. Qed.
Print Assumptions C89_precise_partial.
(** Without the guard: a private variable which can be shared makes a dependence unknown. *)
Theorem C89_precise_refuted_shared : ~ C89_precise_claim false.
Proof. exact precise_refuted. Qed.
Print Assumptions C89_precise_refuted_shared.

Theorem C89_class : C89_class_claim.
Proof. exact class_true. Qed.
Print Assumptions C89_class.
Theorem C89_read : C89_read_claim.
Proof. exact read_true. Qed.
Print Assumptions C89_read.

Theorem C89_flags : C89_flags_claim.
Proof. exact flags_true. Qed.
Print Assumptions C89_flags.
Theorem C89_kept_partial : C89_kept_claim true.
Proof. exact kept_true. Qed.
Print Assumptions C89_kept_partial.
(** Without the guard: a flag of a location accessed through another one is lost. *)
Theorem C89_kept_refuted_covered : ~ C89_kept_claim false.
Proof. exact kept_refuted. Qed.
Print Assumptions C89_kept_refuted_covered.

Theorem C89_total : C89_total_claim.
Proof. exact total_true. Qed.
Print Assumptions C89_total.

(** A reduction variable of a node, a redundant variable with dependences and a location of a nested node accessed
    through the first one. *)
Definition exRed : mem := Mem 1 true (of [TNoRedundant; TDirectAccess; TExplicitAccess; TReduction]) [].
Definition exOld : mem := Mem 2 true (of [TRedundant; TDirectAccess; TExplicitAccess; TFlow; TAnti]) [].
Definition exInd : mem := Mem 3 false (of [TNoRedundant; TIndirectAccess; TReduction]) [1].
Example ex_locations : locations [exRed; exOld; exInd].
Proof.
  split; [discriminate|]. split; [repeat constructor; cbn; intuition discriminate|].
  intros m [<-|[<-|[<-|[]]]].
  - split; [apply (of_wf _ [TReduction]); [cbn; tauto|]; intros t It; cbn in It |- *; tauto|split; intro Q; discriminate Q].
  - split; [apply (of_wf _ [TFlow; TAnti; TOutput]); [cbn; tauto|]; intros t It; cbn in It |- *; tauto|split; intro Q; reflexivity].
  - split; [apply (of_wf _ [TReduction]); [cbn; tauto|]; intros t It; cbn in It |- *; tauto|split; intro Q; discriminate Q].
Qed.
Example ex_premises :
  (forall m k, In m [exRed; exOld; exInd] -> has m TIndirectAccess = true -> has m TDirectAccess = false -> may (mDescr m) k ->
     exists i, In i (mCovers m) /\ forall c, In c [exRed; exOld; exInd] -> mId c = i -> may (mDescr c) k) /\
  (forall m c, In m [exRed; exOld; exInd] -> In c [exRed; exOld; exInd] -> In (mId c) (mCovers m) -> has c TDirectAccess = true).
Proof.
  split.
  - intros m k [<-|[<-|[<-|[]]]] A B _; try discriminate A. exists 1. split; [left; reflexivity|].
    intros c [<-|[<-|[<-|[]]]] E; try discriminate E. apply may_poss. destruct k; reflexivity.
  - intros m c [<-|[<-|[<-|[]]]] [<-|[<-|[<-|[]]]] Q; cbn in Q; try reflexivity; decompose [or] Q; try discriminate; contradiction.
Qed.
(** The node is a reduction if redundant memory is ignored and has all dependences otherwise. *)
Example ex_result :
  (exists R, combineTraits true [exRed; exOld; exInd] = Some R /\ R TReduction = true /\ R TFlow = false /\
     R TRedundant = true /\ R TNoRedundant = true /\ R TIndirectAccess = false) /\
  (exists R, combineTraits false [exRed; exOld; exInd] = Some R /\ R TReduction = false /\ R TFlow = true /\ R TOutput = true).
Proof. split; eexists; (split; [vm_compute; reflexivity|]); vm_compute; repeat split; reflexivity. Qed.
