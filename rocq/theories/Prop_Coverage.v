(** Property C91. *)
From Coq Require Import PeanoNat Bool List Lia.
From Verif Require Import CoverageModel CoverageSpec CoverageProof.
Import ListNotations.

(** A concrete tree: 0 is the root, 1 contains 3 and 4, 2 contains 5. Nodes 1 (not
    redundant), 3 (explicitly accessed), 5 (redundant, explicitly accessed). *)
Definition ex_tree : atree := ANode 0 [ANode 1 [ANode 3 []; ANode 4 []]; ANode 2 [ANode 5 []]].
Definition ex_ds : depset := fun i =>
  match i with
  | 0 => Some (ATrait false false false)
  | 1 => Some (ATrait false false true)
  | 2 => Some (ATrait false false false)
  | 3 => Some (ATrait true false true)
  | 5 => Some (ATrait true true false)
  | _ => None
  end.
Lemma ex_distinct : distinct ex_tree.
Proof. unfold distinct. cbn. repeat constructor; cbn; intuition discriminate. Qed.
Lemma ex_no_holes : no_holes ex_ds ex_tree.
Proof.
  intros i cs c H Hc N.
  inversion H as [? | ? ? c1 ? Hin1 Hsub1]; subst; [discriminate | ].
  destruct Hin1 as [<- | [<- | []]];
    (inversion Hsub1 as [? | ? ? c2 ? Hin2 Hsub2]; subst; [discriminate | ]).
  - destruct Hin2 as [<- | [<- | []]];
      (inversion Hsub2 as [? | ? ? c3 ? Hin3 Hsub3]; subst; [destruct Hc | destruct Hin3]).
  - destruct Hin2 as [<- | []].
    inversion Hsub2 as [? | ? ? c3 ? Hin3 Hsub3]; subst; [destruct Hc | destruct Hin3].
Qed.
Example C91_example :
  accessCoverage false ex_ds ex_tree = [1; 5] /\ accessCoverage true ex_ds ex_tree = [1]
  /\ explicitCoverage false ex_ds ex_tree = [3; 5] /\ explicitCoverage true ex_ds ex_tree = [3]
  /\ distinct ex_tree /\ no_holes ex_ds ex_tree.
Proof. repeat split; try reflexivity; [apply ex_distinct | apply ex_no_holes]. Qed.

(** Each accessed node is covered. *)
Theorem C91_cover_partial : C91_cover_claim true.
Proof. exact cover_true. Qed.
Print Assumptions C91_cover_partial.
(** A node below a node without traits is lost. *)
Theorem C91_cover_refuted_hole : ~ C91_cover_claim false.
Proof.
  intros H.
  destruct (H (ANode 0 [ANode 1 []]) false (fun i => if i =? 1 then Some (ATrait true false true) else None)
              ltac:(discriminate) 1) as [i [[] _]].
  - exists (ANode 1 []). split; [ | reflexivity]. apply sub_child with (c := ANode 1 []); [left; reflexivity | apply sub_self].
  - exists (ATrait true false true). split; [reflexivity | left; reflexivity].
Qed.
Print Assumptions C91_cover_refuted_hole.

Theorem C91_explicit_cover : C91_explicit_cover_claim.
Proof. exact explicit_cover_true. Qed.
Print Assumptions C91_explicit_cover.
Theorem C91_sound : C91_sound_claim.
Proof. exact sound_true. Qed.
Print Assumptions C91_sound.
Theorem C91_once : C91_once_claim.
Proof. exact once_true. Qed.
Print Assumptions C91_once.
Theorem C91_smallest : C91_smallest_claim.
Proof. exact smallest_true. Qed.
Print Assumptions C91_smallest.

(** A general coverage covers explicit accesses. *)
Theorem C91_general_partial : C91_general_claim true true.
Proof. exact general_true. Qed.
Print Assumptions C91_general_partial.
Theorem C91_general_refuted_unmarked : ~ C91_general_claim true false.
Proof.
  intros H.
  destruct (H (ANode 0 []) false (fun i => Some (ATrait true false false))) with (j := 0) as [i [[] _]].
  - intros _ i cs c _ _ _. discriminate.
  - discriminate.
  - exists (ANode 0 []). split; [apply sub_self | reflexivity].
  - exists (ATrait true false false). split; [reflexivity | ]. split; [reflexivity | discriminate].
Qed.
Print Assumptions C91_general_refuted_unmarked.
Theorem C91_general_refuted_hole : ~ C91_general_claim false true.
Proof.
  intros H.
  destruct (H (ANode 0 [ANode 1 []]) false (fun i => if i =? 1 then Some (ATrait true false true) else None)) with (j := 1) as [i [[] _]].
  - discriminate.
  - intros _ i x E _. destruct (i =? 1); [injection E as <-; left; reflexivity | discriminate E].
  - exists (ANode 1 []). split; [ | reflexivity]. apply sub_child with (c := ANode 1 []); [left; reflexivity | apply sub_self].
  - exists (ATrait true false true). split; [reflexivity | ]. split; [reflexivity | discriminate].
Qed.
Print Assumptions C91_general_refuted_hole.
