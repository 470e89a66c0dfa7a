(** Model of the numbering of graph nodes and of relations of nodes in a
    spanning tree: /repo/include/tsar/ADT/GraphNumbering.h and
    /repo/include/tsar/ADT/SpanningTreeRelation.h. *)
From Coq Require Import ZArith Bool List Arith.
Import ListNotations.
Local Open Scope Z_scope.

(** GraphNumbering.h 71-75, NodeNumbering: Preorder, ReversePreorder,
    Postorder, ReversePostorder.  std::size_t is modelled by integers without
    wrapping. *)
Record numbers := mkNumbers {
  numPre : Z; numRevPre : Z; numPost : Z; numRevPost : Z }.
Definition noNumbers := mkNumbers 0 0 0 0.
(** GraphNumbering.h 80-91, GraphNumbering *)
Definition numbering := list (nat * numbers).
Fixpoint findNumbers (m : numbering) (n : nat) : option numbers :=
  match m with
  | [] => None
  | (k, v) :: m => if Nat.eqb n k then Some v else findNumbers m n
  end.
(** GraphNumbering.h 97-99, NumberingTraits::get, followed by an update of the
    entry (100-111). *)
Fixpoint updateNumbers (m : numbering) (n : nat) (f : numbers -> numbers) : numbering :=
  match m with
  | [] => [(n, f noNumbers)]
  | (k, v) :: m => if Nat.eqb n k then (k, f v) :: m else (k, v) :: updateNumbers m n f
  end.
(** GraphNumbering.h 118-148, DFIteratorNumberingSet: the set of visited nodes,
    the numbering and the counters. *)
Record dfset := mkSet { dfVisited : list nat; dfMap : numbering; dfLast : numbers }.
Definition newSet (GraphSize : Z) : dfset :=
  mkSet [] [] (mkNumbers 1 GraphSize 1 GraphSize).
(** GraphNumbering.h 130-135, insert *)
Definition dfInsert (s : dfset) (n : nat) : dfset * bool :=
  let c := dfLast s in
  let isNew := negb (existsb (Nat.eqb n) (dfVisited s)) in
  (mkSet (if isNew then n :: dfVisited s else dfVisited s)
     (updateNumbers (dfMap s) n (fun v =>
        mkNumbers (numPre c) (numRevPre c) (numPost v) (numRevPost v)))
     (mkNumbers (numPre c + 1) (numRevPre c - 1) (numPost c) (numRevPost c)), isNew).
(** GraphNumbering.h 136-140, completed *)
Definition dfCompleted (s : dfset) (n : nat) : dfset :=
  let c := dfLast s in
  mkSet (dfVisited s)
    (updateNumbers (dfMap s) n (fun v =>
       mkNumbers (numPre v) (numRevPre v) (numPost c) (numRevPost c)))
    (mkNumbers (numPre c) (numRevPre c) (numPost c + 1) (numRevPost c - 1)).

Section Graph.
(** llvm::GraphTraits<GraphType> and llvm::GraphTraits<llvm::Inverse<...>> *)
Variable children : nat -> list nat.
Variable parents : nat -> list nat.

(** llvm::df_iterator with an external set: the children of a node on the stack
    are inserted in order, a new one is entered; a node without further children
    is completed.  [None] if out of fuel. *)
Fixpoint dfVisit (fuel : nat) (n : nat) (s : dfset) : option dfset :=
  match fuel with
  | O => None
  | S f =>
    (fix go (cs : list nat) (s : dfset) : option dfset :=
       match cs with
       | [] => Some (dfCompleted s n)
       | c :: cs =>
         let '(s1, isNew) := dfInsert s c in
         if isNew then
           match dfVisit f c s1 with
           | None => None
           | Some s2 => go cs s2
           end
         else go cs s1
       end) (children n) s
  end.
(** GraphNumbering.h 155-165, numberGraph *)
Definition numberGraph (fuel : nat) (root : nat) (size : Z) : option numbering :=
  option_map dfMap (dfVisit fuel root (fst (dfInsert (newSet size) root))).

(** SpanningTreeRelation.h 35-46, TreeRelation *)
Inductive TreeRelation := TR_ANCESTOR | TR_DESCENDANT | TR_EQUAL | TR_UNREACHABLE.
(** SpanningTreeRelation.h 59-80, compare.  [None] if a node is not numbered
    (assertion). *)
Definition compare (m : numbering) (LHS RHS : nat) : option TreeRelation :=
  if Nat.eqb LHS RHS then Some TR_EQUAL
  else match findNumbers m LHS, findNumbers m RHS with
       | Some l, Some r =>
         if (numPre l <? numPre r) && (numRevPost l <? numRevPost r) then Some TR_ANCESTOR
         else if (numPre r <? numPre l) && (numRevPost r <? numRevPost l) then Some TR_DESCENDANT
         else Some TR_UNREACHABLE
       | _, _ => None
       end.
(** SpanningTreeRelation.h 110-126, findParent.  The outer [None] is a violated
    assertion. *)
Fixpoint findParentIn (m : numbering) (n : nat) (ps : list nat) : option (option nat) :=
  match ps with
  | [] => Some None
  | i :: ps =>
    match compare m n i with
    | None => None
    | Some TR_DESCENDANT => Some (Some i)
    | Some _ => findParentIn m n ps
    end
  end.
Definition findParent (m : numbering) (n : nat) : option (option nat) :=
  findParentIn m n (parents n).
(** SpanningTreeRelation.h 162-169, the inner loop of findLCA for the current
    node [cur]: the relation and the node it ends with, or [Some None] if it
    returns None.  The outer [None]: a violated assertion or out of fuel. *)
Fixpoint climb (fuel : nat) (m : numbering) (lca cur : nat) : option (option (TreeRelation * nat)) :=
  match fuel with
  | O => None
  | S f =>
    match compare m lca cur with
    | None => None
    | Some TR_UNREACHABLE | Some TR_EQUAL =>
      match findParent m lca with
      | None => None
      | Some None => Some None
      | Some (Some p) => climb f m p cur
      end
    | Some R => Some (Some (R, lca))
    end
  end.
(** SpanningTreeRelation.h 160-177, the outer loop of findLCA *)
Fixpoint lcaLoop (fuel : nat) (m : numbering) (lca : nat) (rest : list nat) : option (option nat) :=
  match rest with
  | [] => Some (Some lca)
  | cur :: rest =>
    match climb fuel m lca cur with
    | None => None
    | Some None => Some None
    | Some (Some (TR_DESCENDANT, _)) =>
      match findParent m cur with
      | None => None
      | Some None => Some None
      | Some (Some p) => lcaLoop fuel m p rest
      end
    | Some (Some (_, lca)) => lcaLoop fuel m lca rest
    end
  end.
(** SpanningTreeRelation.h 140-179, findLCA; the range is not empty. *)
Definition findLCA (fuel : nat) (m : numbering) (first : nat) (rest : list nat) : option (option nat) :=
  match findParent m first with
  | None => None
  | Some None => Some None
  | Some (Some p) => lcaLoop fuel m p rest
  end.
End Graph.
