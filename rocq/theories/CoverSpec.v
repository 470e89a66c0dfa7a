(** What it means that locations cover a location. *)
From Coq Require Import ZArith List.
From Verif Require Import TreeSpec EMForestModel EMForestSpec.
Local Open Scope Z_scope.

(** Bytes which locations occupy at some moment of an execution.
    - [size]: a location of a known size occupies that number of bytes, in a row.
    - [tree]: a location is a part of locations above it in its tree.
    - [alias]: locations of different branches of an alias tree do not overlap. *)
Record memory (f : forest) (t : tree) (node : em -> nat) (size : em -> option Z)
    (bytes : em -> Z -> Prop) : Prop := {
  memSize : forall x s, size x = Some s ->
    0 <= s < 2 ^ 64 /\ exists a, forall b, bytes x b <-> a <= b < a + s;
  memTree : forall x y, above f x y -> forall b, bytes x b -> bytes y b;
  memAlias : forall x y, node x <> node y ->
    ~ properAncestor t (node x) (node y) -> ~ properAncestor t (node y) (node x) ->
    forall b, bytes x b -> ~ bytes y b
}.

(** All bytes of [E] are bytes of locations from the list. *)
Definition covered (bytes : em -> Z -> Prop) (E : em) (l : list em) : Prop :=
  forall b, bytes E b -> exists x, In x l /\ bytes x b.

(** [r] is visited before nodes of other listed locations in a preorder
    traversal. *)
Definition firstVisited (t : tree) (node : em -> nat) (r : em) (l : list em) : Prop :=
  In r l /\ exists p q, preorder t = p ++ node r :: q /\ forall z, In z l -> ~ In (node z) p.
(** Nodes of listed parts of [E] are in different branches of an alias tree
    except, perhaps, the branch which is visited first. *)
Definition branches (f : forest) (t : tree) (node : em -> nat) (E : em) (l : list em) : Prop :=
  forall x y, In x l -> In y l -> above f x E -> above f y E ->
    properAncestor t (node x) (node y) ->
    exists r parts, (forall z, In z parts <-> In z l /\ above f z E) /\
      firstVisited t node r parts /\ (node r = node x \/ properAncestor t (node r) (node x)).
