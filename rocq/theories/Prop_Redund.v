(** Property C88. *)
From Coq Require Import NArith PeanoNat Bool List Lia.
From Verif Require Import TraitModel RedundModel RedundSpec RedundProof.
Import ListNotations.

(** Traits of accessed memory are propagated to the largest memory of each alias node. *)
Theorem C88_traits : C88_traits_claim.
Proof. exact traits_true. Qed.
Print Assumptions C88_traits.

(** Each memory which is reported as a dependence has a description of the dependence. *)
Theorem C88_deps : C88_deps_claim.
Proof. exact deps_true. Qed.
Print Assumptions C88_deps.

(** Memory 0 (an array) is placed in the node 0, its parts 1 and 2 (a part of 1) are placed in the
    nested node 1, memory 3 is placed in another nested node 2. *)
Definition exParent (e : nat) : option nat := match e with 1 => Some 0 | 2 => Some 1 | _ => None end.
Definition exNode (e : nat) : nat := match e with 0 => 0 | 1 | 2 => 1 | _ => 2 end.
Definition exNodeParent (n : nat) : option nat := match n with 1 | 2 => Some 0 | _ => None end.
Definition exTree : anode :=
  ANode 0 [(0, Readonly)] [ANode 1 [(2, Dependency); (1, Private)] []; ANode 2 [(3, Readonly)] []].
Lemma ex_nested b : nested exTree b ->
  b = exTree \/ b = ANode 1 [(2, Dependency); (1, Private)] [] \/ b = ANode 2 [(3, Readonly)] [].
Proof.
  intro H. inversion H as [|n own cs c b' Ic Hc]; subst; [left; reflexivity|right].
  destruct Ic as [<-|[<-|[]]]; inversion Hc as [|n1 own1 cs1 c1 b1 Ic1 Hc1]; subst; try (destruct Ic1); auto.
Qed.
Example ex_tree_ok : treeOk exParent exNode exNodeParent exTree.
Proof.
  split.
  - intros [|[|[|e]]] p E; cbn in E; try discriminate E; injection E as <-; lia.
  - intros [|[|[|n]]] p E; cbn in E; try discriminate E; injection E as <-; lia.
  - intros b c H I1. destruct (ex_nested b H) as [->|[->| ->]]; cbn in I1; try tauto.
    destruct I1 as [<-|[<-|[]]]; reflexivity.
  - intros [|[|[|e]]] p E; cbn in E; try discriminate E; injection E as <-; cbn.
    + apply (CPart _ _ _ 0); [reflexivity|constructor].
    + constructor.
  - intros b e t H I1. destruct (ex_nested b H) as [->|[->| ->]]; cbn in I1;
      repeat (destruct I1 as [I1|I1]; [injection I1 as <- <-; reflexivity|]); destruct I1.
Qed.
Example ex_ids : NoDup (ids exTree).
Proof. repeat constructor; cbn; intuition discriminate. Qed.
(** Traits of 1 and 2 are combined in the nested node and are also propagated to the array. *)
Example ex_stored :
  map fst (snd (propagate exParent exNode exTree (fun _ => false))) =
    [(1, [(1, tAnd Private Dependency)]); (2, [(3, Readonly)]);
     (0, [(3, Readonly); (0, tAnd Readonly (tAnd Private Dependency))])] /\
  dropUnitFlag (tAnd Readonly (tAnd Private Dependency)) = Dependency /\
  map (fun r => (snd r : deps) 0) (snd (propagate exParent exNode exTree (fun _ => false))) = [false; false; true].
Proof. repeat split; vm_compute; reflexivity. Qed.
