(* Independent vocabulary for the data-flow properties C01-C04: paths, cycles,
   lattices and data-flow equations. Nothing here depends on the solver. *)
From Coq Require Import List Arith Bool.
Import ListNotations.
From Verif Require Import DFlowModel.

(* [path next a b]: b is reached from a by zero or more edges. *)
Inductive path (next : node -> list node) : node -> node -> Prop :=
| path_nil : forall a, path next a a
| path_step : forall a b c, In b (next a) -> path next b c -> path next a c.

(* [onCycle next a]: a is reached from itself by one or more edges. *)
Definition onCycle (next : node -> list node) (a : node) : Prop :=
  exists b, In b (next a) /\ path next b a.

Definition acyclicFrom (next : node -> list node) (a : node) : Prop :=
  forall b, path next a b -> ~ onCycle next b.

(* The two adjacency relations describe the same edges. *)
Definition mutuallyInverse (preds succs : node -> list node) : Prop :=
  forall a b, In a (preds b) <-> In b (succs a).

(* All nodes met from [a] belong to the finite list U. *)
Definition closedUnder (next : node -> list node) (U : list node) : Prop :=
  forall a b, In a U -> In b (next a) -> In b U.

(* A meet semilattice with a greatest element, up to the equivalence
   "le in both directions". *)
Record semilattice {V : Type} (le : V -> V -> Prop) (top : V)
    (meet : V -> V -> V) : Prop := {
  slRefl : forall x, le x x;
  slTrans : forall x y z, le x y -> le y z -> le x z;
  slTop : forall x, le x top;
  slLower1 : forall x y, le (meet x y) x;
  slLower2 : forall x y, le (meet x y) y;
  slGreatest : forall x y z, le z x -> le z y -> le z (meet x y)
}.

Definition eqv {V} (le : V -> V -> Prop) (x y : V) : Prop := le x y /\ le y x.

(* m is the greatest lower bound of the values of the listed nodes. *)
Definition isMeetOf {V} (le : V -> V -> Prop) (s : node -> V)
    (from : list node) (m : V) : Prop :=
  (forall p, In p from -> le m (s p)) /\
  (forall z, (forall p, In p from -> le z (s p)) -> le z m).

(* The data-flow equation of node n: its value is the transfer function applied
   to the meet of the values of the nodes the data come from. *)
Definition equationAt {V} (le : V -> V -> Prop) (tf : node -> V -> V)
    (from : node -> list node) (s : node -> V) (n : node) : Prop :=
  exists m, isMeetOf le s (from n) m /\ eqv le (s n) (tf n m).

Definition monotone {V} (le : V -> V -> Prop) (tf : node -> V -> V) : Prop :=
  forall n x y, le x y -> le (tf n x) (tf n y).

Definition respectful {V} (le : V -> V -> Prop) (tf : node -> V -> V) : Prop :=
  forall n x y, eqv le x y -> eqv le (tf n x) (tf n y).

(* Strictly below. *)
Definition below {V} (le : V -> V -> Prop) (x y : V) : Prop :=
  le x y /\ ~ le y x.

(* The framework reports 'not changed' only for equal values, and 'changed'
   only for different values. *)
Definition changedSound {V} (le : V -> V -> Prop)
    (ch : node -> V -> V -> bool) : Prop :=
  forall n x y, ch n x y = false -> eqv le x y.
Definition changedExact {V} (le : V -> V -> Prop)
    (ch : node -> V -> V -> bool) : Prop :=
  forall n x y, ch n x y = false <-> eqv le x y.
