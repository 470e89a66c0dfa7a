(** Specification of the checker of memory which is not initialized. *)
From Coq Require Import PeanoNat Bool List.
From Verif Require Import NotInitModel.
Import ListNotations.

Definition treeOk (t : tree) : Prop := forall e p, tParent t e = Some p -> p < e.
(** [a] is [e] or contains [e]. *)
Inductive contains (t : tree) (a : nat) : nat -> Prop :=
  | CSelf : contains t a a
  | CUp e p : tParent t e = Some p -> contains t a p -> contains t a e.
Definition inside (t : tree) (a e : nat) : Prop := a <> e /\ contains t a e.
(** Uses of functions and of constants are not interesting. *)
Definition ordinary (t : tree) (e : nat) : Prop := tObject t e = OOrdinary \/ tObject t e = OArgument.
(** The smallest memory with metadata which contains [e]. *)
Definition named (t : tree) (e a d : nat) : Prop :=
  contains t a e /\ tMeta t a = Some d /\ forall b, contains t b e -> inside t a b -> tMeta t b = None.
Definition anonymous (t : tree) (e : nat) : Prop := forall a, contains t a e -> tMeta t a = None.
Definition scalars (s : state) (d : nat) : Prop := exists k, In (k, d) (sScalars s).
Definition aggregates (s : state) (d : nat) : Prop := exists k, In (k, d) (sAggregates s).
Definition reported (s : state) (d : nat) : Prop := scalars s d \/ aggregates s d.
(** The memory [a] with the location [d] is used and is not initialized. *)
Definition candidate (t : tree) (uses : list nat) (a d : nat) : Prop :=
  exists e, In e uses /\ ordinary t e /\ named t e a d /\ tKnown t d = true.

(** Each use is mentioned: memory which contains it is reported or there is a warning about memory
    without metadata.
    [gInj]: different memory has different locations; [gKnown]: each location is in the tree of
    locations; [gArg]: memory of arguments has metadata. *)
Definition C86_covered_claim (gInj gKnown gArg : bool) : Prop :=
  forall t uses e, treeOk t -> In e uses -> ordinary t e ->
    (gInj = true -> forall a b d, tMeta t a = Some d -> tMeta t b = Some d -> a = b) ->
    (gKnown = true -> forall d, tKnown t d = true) ->
    (gArg = true -> forall e, tObject t e = OArgument -> ~ anonymous t e) ->
    (exists a d, contains t a e /\ tMeta t a = Some d /\ reported (run t uses) d) \/ sNoMeta (run t uses) = true.

(** The result: largest memory only. *)
Definition C86_exact_claim : Prop :=
  forall t uses, treeOk t ->
    let maximal := fun d => forall a b d', candidate t uses a d -> candidate t uses b d' -> ~ inside t b a in
    (forall d, scalars (run t uses) d <-> maximal d /\ exists a, candidate t uses a d /\ tLeaf t a = true) /\
    (forall d, aggregates (run t uses) d <-> maximal d /\ exists a, candidate t uses a d /\ tLeaf t a = false) /\
    (sNoMeta (run t uses) = true <-> exists e, In e uses /\ tObject t e = OOrdinary /\ anonymous t e).

(** Lists of variables: a location is in the list of its class and only once. *)
Definition C86_class_claim : Prop :=
  forall t uses vs, vs = sScalars (run t uses) \/ vs = sAggregates (run t uses) ->
    NoDup vs /\ forall k d, In (k, d) vs -> k = tKind t d.
