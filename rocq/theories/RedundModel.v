(** Model of propagation of traits from nested alias nodes and of removal of redundant traits,
    /repo/lib/Analysis/Memory/PrivateAnalysis.cpp 440-460 (mergeDependence), 1032-1084
    (propagateTraits), 1221-1273 (removeRedundant), /repo/lib/Analysis/Memory/EstimateMemory.cpp
    353-362 (ancestor).

    Simplifications.
    - Estimate memory is a number, its parent in a tree has a smaller number.
    - A map of dependences is a set of memory with a dependence description.
    - Unknown memory is not modelled: its traits are moved to a parent without changes.
    - storeResults is in PrivModel.v, checkFirstPrivate (it may make traits stronger when they are
      stored) is not modelled. *)
From Coq Require Import NArith PeanoNat Bool List.
From Verif Require Import TraitModel.
Import ListNotations.

Definition item := (nat * N)%type.       (* std::pair<const EstimateMemory *, BitMemoryTrait> *)
Inductive anode := ANode (aId : nat) (aOwn : list item) (aChildren : list anode).
Definition deps := nat -> bool.

Section Redundant.
  Variable parent : nat -> option nat.   (* EstimateMemory::getParent *)
  Variable nodeOf : nat -> nat.          (* EstimateMemory::getAliasNode *)
  (* for (auto EM = e; EM; EM = EM->getParent()) if (EM == a) *)
  Fixpoint reaches (fuel : nat) (e a : nat) : bool :=
    if Nat.eqb e a then true
    else match fuel, parent e with S fuel, Some p => reaches fuel p a | _, _ => false end.
  Definition ancestor (l r : nat) : option nat :=
    if reaches l l r then Some r else if reaches r r l then Some l else None.
  Definition isDep (t : N) : bool := N.eqb (dropUnitFlag t) Dependency.
  (** 440-460 *)
  Definition mergeDep (to : nat) (t : N) (from : nat) (D : deps) : deps :=
    if D from || isDep t then fun x => Nat.eqb x to || D x else D.
  (* 1236-1238 *)
  Fixpoint climb (fuel n e : nat) : nat :=
    match fuel, parent e with
    | S fuel, Some p => if Nat.eqb (nodeOf p) n then climb fuel n p else e
    | _, _ => e
    end.
  (** 1247-1271, [seen] is a list of elements before I in the reverse order.  The current element
      is the first component of the result unless it has been erased. *)
  Fixpoint scan (cur : nat) (t : N) (seen rest : list item) (D : deps) : option item * list item * deps :=
    match rest with
    | [] => (Some (cur, t), rev seen, D)
    | (i, ti) :: rest =>
        if Nat.eqb cur i then (None, rev seen ++ (i, tAnd ti t) :: rest, D)
        else
          match ancestor cur i with
          | Some a =>
              if Nat.eqb a i
              then (None, rev seen ++ (i, tAnd ti t) :: rest, mergeDep i (tAnd ti t) cur D)
              else scan cur (tAnd t ti) seen rest (mergeDep cur (tAnd t ti) i D)
          | None => scan cur t ((i, ti) :: seen) rest D
          end
    end.
  (** 1221-1273 *)
  Definition removeRedundant (n : nat) (c : item) (rest : list item) (D : deps) : option item * list item * deps :=
    let (e, t) := c in
    if Nat.eqb (nodeOf e) n
    then let cur := climb e n e in scan cur t [] rest (mergeDep cur t e D)
    else scan e t [] rest D.
  (** 1076-1077, [kept] is a list of processed elements *)
  Fixpoint reduce (fuel n : nat) (kept l : list item) (D : deps) : list item * deps :=
    match fuel, l with
    | S fuel, c :: rest =>
        match removeRedundant n c rest D with
        | (Some c', rest', D') => reduce fuel n (kept ++ [c']) rest' D'
        | (None, rest', D') => reduce fuel n kept rest' D'
        end
    | _, _ => (kept, D)
    end.
  (* *EA->get<BitMemoryTrait>() &= t, the updated trait is also returned *)
  Fixpoint update (own : list item) (p : nat) (t : N) : option (list item * N) :=
    match own with
    | [] => None
    | (e, te) :: own =>
        if Nat.eqb e p then Some ((e, tAnd te t) :: own, tAnd te t)
        else match update own p t with Some (own', t') => Some ((e, te) :: own', t') | None => None end
    end.
  (** 1053-1069 *)
  Definition pull (n : nat) (s : list item * list item * deps) (c : item) : list item * list item * deps :=
    match s with
    | (pushed, own, D) =>
        let (e, t) := c in
        match parent e with
        | Some p =>
            if Nat.eqb (nodeOf p) n
            then
              match update own p t with
              | Some (own', t') => ((p, t) :: pushed, own', mergeDep p t' e D)
              | None => ((p, t) :: pushed, own, mergeDep p t e D)
              end
            else ((e, t) :: pushed, own, D)
        | None => ((e, t) :: pushed, own, D)
        end
    end.
  (** 1044-1084: results for all nodes, a list of traits and a map of dependences when a node is stored *)
  Definition results := list (nat * list item * deps).
  Fixpoint propagate (a : anode) (D : deps) : list item * deps * results :=
    match a with
    | ANode n own children =>
        let r := (fix all (cs : list anode) (D : deps) : list (list item) * deps * results :=
          match cs with
          | [] => ([], D, [])
          | c :: cs =>
              match propagate c D with
              | (l, D1, r1) => match all cs D1 with (ls, D2, r2) => (l :: ls, D2, r1 ++ r2) end
              end
          end) children D in
        match r with
        | (ls, D1, rs) =>
            match fold_left (pull n) (concat (rev ls)) ([], own, D1) with
            | (pushed, own', D2) =>
                let l := pushed ++ own' in
                let (l', D3) := reduce (length l) n [] l D2 in
                (l', D3, rs ++ [(n, l', D3)])
            end
        end
    end.
End Redundant.
