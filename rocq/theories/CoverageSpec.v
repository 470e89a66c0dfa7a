(** Specification of C91. *)
From Coq Require Import PeanoNat Bool List.
From Verif Require Import CoverageModel.
Import ListNotations.

(** [sub a b]: the subtree [b] is the tree [a] or belongs to it. *)
Inductive sub : atree -> atree -> Prop :=
| sub_self : forall a, sub a a
| sub_child : forall i cs c b, In c cs -> sub c b -> sub (ANode i cs) b.

Definition root (a : atree) : nat := match a with ANode i _ => i end.

(** The node [i] is in the tree. *)
Definition inside (t : atree) (i : nat) : Prop := exists a, sub t a /\ root a = i.

(** The node [i] is the node [j] or contains it. *)
Definition contains (t : atree) (i j : nat) : Prop :=
  exists a, sub t a /\ root a = i /\ inside a j.

(** Different nodes have different numbers. *)
Fixpoint numbers (t : atree) : list nat := match t with ANode i cs => i :: flat_map numbers cs end.
Definition distinct (t : atree) : Prop := NoDup (numbers t).

(** Nodes a user is interested in: accessed ones and explicitly accessed ones. If
    redundant memory is ignored then accesses to other memory matter only. *)
Definition accessed (ign : bool) (ds : depset) (i : nat) : Prop :=
  exists t, ds i = Some t /\ (tNoRedundant t = true \/ (ign = false /\ tRedundant t = true)).
Definition explicitly (ign : bool) (ds : depset) (i : nat) : Prop :=
  exists t, ds i = Some t /\ tExplicit t = true /\ (ign = true -> tNoRedundant t = true).

(** A set of dependences has no holes: traits of a node exist if traits of its
    child exist. *)
Definition no_holes (ds : depset) (t : atree) : Prop :=
  forall i cs c, sub t (ANode i cs) -> In c cs -> ds (root c) <> None -> ds i <> None.

(** Each node from [P] belongs to a node from the list. *)
Definition covers (t : atree) (P : nat -> Prop) (l : list nat) : Prop :=
  forall j, inside t j -> P j -> exists i, In i l /\ contains t i j.

Definition C91_cover_claim (gh : bool) : Prop :=
  forall t ign ds, (gh = true -> no_holes ds t) -> covers t (accessed ign ds) (accessCoverage ign ds t).
Definition C91_explicit_cover_claim : Prop :=
  forall t ign ds, covers t (explicitly ign ds) (explicitCoverage ign ds t).

(** Nodes of a coverage are nodes of the tree which are accessed. *)
Definition C91_sound_claim : Prop :=
  forall t ign ds i,
    (In i (accessCoverage ign ds t) -> inside t i /\ accessed ign ds i)
    /\ (In i (explicitCoverage ign ds t) -> inside t i /\ explicitly ign ds i).

(** No memory is counted twice. *)
Definition once (t : atree) (l : list nat) : Prop :=
  NoDup l /\ forall i1 i2 j, In i1 l -> In i2 l -> contains t i1 j -> contains t i2 j -> i1 = i2.
Definition C91_once_claim : Prop :=
  forall t ign ds, distinct t -> once t (accessCoverage ign ds t) /\ once t (explicitCoverage ign ds t).

(** A coverage is the smallest one: it is a part of each set of accessed nodes
    which covers all accessed nodes. *)
Definition C91_smallest_claim : Prop :=
  forall t ign ds l, distinct t ->
    ((forall i, In i l -> inside t i /\ accessed ign ds i) -> covers t (accessed ign ds) l ->
       incl (accessCoverage ign ds t) l)
    /\ ((forall i, In i l -> inside t i /\ explicitly ign ds i) -> covers t (explicitly ign ds) l ->
       incl (explicitCoverage ign ds t) l).

(** The set of explicitly accessed nodes is covered by a general coverage. Guard: no
    holes; an accessed node is redundant or not redundant. *)
Definition C91_general_claim (gh gr : bool) : Prop :=
  forall t ign ds, (gh = true -> no_holes ds t) ->
    (gr = true -> forall i x, ds i = Some x -> tExplicit x = true -> tNoRedundant x = true \/ tRedundant x = true) ->
    covers t (explicitly ign ds) (accessCoverage ign ds t).
