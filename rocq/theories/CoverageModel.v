(** Model of coverage of memory accesses by alias nodes (C91):
    include/tsar/Analysis/Memory/MemoryTraitUtils.h 30-83. *)
From Coq Require Import PeanoNat Bool List.
Import ListNotations.

(** An alias tree: a number of a node and its children. *)
Inductive atree := ANode (i : nat) (cs : list atree).

(** Traits of a node which are inspected. *)
Record atrait := ATrait { tExplicit : bool; tRedundant : bool; tNoRedundant : bool }.

(** [DS.find_as(&N)]: a trait of a node if the node is accessed in a region. *)
Definition depset := nat -> option atrait.

(** MemoryTraitUtils.h 33-43. Simplification: an inserter appends a node to a
    list. *)
Fixpoint explicitCoverage (ign : bool) (ds : depset) (n : atree) : list nat :=
  match n with
  | ANode i cs =>
      match ds i with
      | None => flat_map (explicitCoverage ign ds) cs
      | Some t =>
          if negb (tExplicit t) || (ign && negb (tNoRedundant t))
          then flat_map (explicitCoverage ign ds) cs
          else [i]
      end
  end.

(** MemoryTraitUtils.h 45-60. *)
Fixpoint accessCoverage (ign : bool) (ds : depset) (n : atree) : list nat :=
  match n with
  | ANode i cs =>
      match ds i with
      | None => []
      | Some t =>
          if tNoRedundant t || (negb ign && tRedundant t) then [i]
          else flat_map (accessCoverage ign ds) cs
      end
  end.
