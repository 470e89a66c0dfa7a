(** Specification of propagation of traits. *)
From Coq Require Import NArith PeanoNat Bool List.
From Verif Require Import TraitModel RedundModel.
Import ListNotations.

(** [covers parent a e]: memory [e] is memory [a] or a part of it. *)
Inductive covers (parent : nat -> option nat) (a : nat) : nat -> Prop :=
  | CSelf : covers parent a a
  | CPart e p : parent e = Some p -> covers parent a p -> covers parent a e.
(** A node and all nodes nested in it. *)
Inductive nested : anode -> anode -> Prop :=
  | NSelf a : nested a a
  | NChild n own cs c a : In c cs -> nested c a -> nested (ANode n own cs) a.
Definition idOf (a : anode) : nat := match a with ANode n _ _ => n end.
Definition ownOf (a : anode) : list item := match a with ANode _ o _ => o end.
Definition childrenOf (a : anode) : list anode := match a with ANode _ _ cs => cs end.
(** Memory from a node and nodes nested in it. *)
Definition inside (nodeOf : nat -> nat) (a : anode) (e : nat) : Prop := exists b, nested a b /\ nodeOf e = idOf b.
(** Accesses to memory from a node and nodes nested in it. *)
Definition access (a : anode) (e : nat) (t : N) : Prop := exists b, nested a b /\ In (e, t) (ownOf b).

(** A tree of alias nodes (a parent has a smaller number), memory is placed in the same node as its
    part or in one of enclosing nodes. *)
Record treeOk (parent : nat -> option nat) (nodeOf : nat -> nat) (nodeParent : nat -> option nat) (a : anode) : Prop := {
  okMemory : forall e p, parent e = Some p -> (p < e)%nat;
  okNodes : forall n p, nodeParent n = Some p -> (p < n)%nat;
  okChild : forall b c, nested a b -> In c (childrenOf b) -> nodeParent (idOf c) = Some (idOf b);
  okCovers : forall e p, parent e = Some p -> covers nodeParent (nodeOf p) (nodeOf e);
  okOwn : forall b e t, nested a b -> In (e, t) (ownOf b) -> nodeOf e = idOf b
}.

(** Traits which are stored for a node [b] when a tree [a] is processed. *)
Definition stored parent nodeOf (a : anode) (D : deps) (b : anode) (l : list item) (D' : deps) : Prop :=
  In (idOf b, l, D') (snd (propagate parent nodeOf a D)).

(** Results are stored for each node.  They contain the largest memory of a node and of nested
    nodes for each access, and a trait of the memory is a conjunction of traits of all accesses to its parts. *)
Definition C88_traits_claim : Prop :=
  forall parent nodeOf nodeParent a D, treeOk parent nodeOf nodeParent a ->
    (forall b, nested a b -> exists l D', stored parent nodeOf a D b l D') /\
    (forall n l D', In (n, l, D') (snd (propagate parent nodeOf a D)) -> exists b, nested a b /\ idOf b = n /\
       (forall e t, access b e t -> exists m w, In (m, w) l /\ covers parent m e) /\
       (forall m w, In (m, w) l ->
          inside nodeOf b m /\ (forall p, parent m = Some p -> ~ inside nodeOf b p) /\
          (exists e t, access b e t /\ covers parent m e) /\
          (forall k, N.testbit w k = true <-> forall e t, access b e t -> covers parent m e -> N.testbit t k = true)) /\
       NoDup (map fst l) /\
       (forall m w m' w', In (m, w) l -> In (m', w') l -> covers parent m m' -> m = m')).

(** There is a description for each memory which is reported as a dependence if each node is
    presented once in a tree. *)
Fixpoint ids (a : anode) : list nat := match a with ANode n _ cs => n :: flat_map ids cs end.
Definition C88_deps_claim : Prop :=
  forall parent nodeOf nodeParent a D b l D' m w, treeOk parent nodeOf nodeParent a -> NoDup (ids a) ->
    stored parent nodeOf a D b l D' -> In (m, w) l -> dropUnitFlag w = Dependency -> D' m = true.
