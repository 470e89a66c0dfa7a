(** Specification: finite rooted trees with distinct nodes. *)
From Coq Require Import List Arith Relations.
Import ListNotations.

Inductive tree := Tree (label : nat) (kids : list tree).
Definition label (t : tree) : nat := match t with Tree l _ => l end.
Definition kids (t : tree) : list tree := match t with Tree _ k => k end.
Fixpoint preorder (t : tree) : list nat :=
  match t with Tree l ks => l :: flat_map preorder ks end.
Fixpoint postorder (t : tree) : list nat :=
  match t with Tree l ks => flat_map postorder ks ++ [l] end.
Definition nodes (t : tree) : list nat := preorder t.

Inductive subtree : tree -> tree -> Prop :=
| subSelf : forall t, subtree t t
| subKid : forall s k t, In k (kids t) -> subtree s k -> subtree s t.
(** [p] is the parent of [c] in [t]. *)
Definition parentOf (t : tree) (p c : nat) : Prop :=
  exists s, subtree s t /\ label s = p /\ In c (map label (kids s)).
(** [a] is a proper ancestor of [b]. *)
Definition properAncestor (t : tree) : nat -> nat -> Prop := clos_trans nat (parentOf t).
(** [x] is the lowest proper common ancestor of nodes. *)
Definition commonAncestor (t : tree) (x : nat) (ns : list nat) : Prop :=
  forall n, In n ns -> properAncestor t x n.
Definition lowestCommonAncestor (t : tree) (x : nat) (ns : list nat) : Prop :=
  commonAncestor t x ns /\
  forall y, commonAncestor t y ns -> y = x \/ properAncestor t y x.

(** A graph given by successors and predecessors of nodes is the tree. *)
Definition isTree (t : tree) (children parents : nat -> list nat) : Prop :=
  NoDup (nodes t) /\
  (forall s, subtree s t -> children (label s) = map label (kids s)) /\
  (forall n, In n (nodes t) -> forall p, In p (parents n) <-> parentOf t p n).
