(** Model of the checker of memory which is not initialized,
    /repo/lib/Analysis/Memory/NotInitializedMemory.cpp 170-248 (runOnFunction, insert).

    Simplifications.
    - Nodes of the estimate memory tree and debug-level locations are numbers, a parent has a less
      number than its children.
    - A use is given by its node (AT.find, 183). *)
From Coq Require Import PeanoNat Bool List.
Import ListNotations.

(** An object returned by getUnderlyingObject for the root of a node, 186-192 *)
Inductive object := OFunction | OConstant | OConstGlobal | OArgument | OOrdinary.
(** DIEstimateMemory of a parameter, of a local or a global variable; other locations, 233-246 *)
Inductive kind := KArgument | KLocal | KGlobal | KUnknown.
Record tree := Tree {
  tParent : nat -> option nat;   (* EstimateMemory::getParent *)
  tLeaf : nat -> bool;           (* isLeaf *)
  tObject : nat -> object;       (* for a node *)
  tMeta : nat -> option nat;     (* getRawDIMemoryIfExists *)
  tKnown : nat -> bool;          (* DIAT.find gives a location *)
  tKind : nat -> kind            (* of a location *)
}.
(** 186-192 *)
Definition skip (t : tree) (e : nat) : bool :=
  match tObject t e with OFunction | OConstant | OConstGlobal => true | _ => false end.
(** 193-197: a node and its metadata; [fuel] is not less than the number of ancestors *)
Fixpoint climb (t : tree) (fuel e : nat) : nat * option nat :=
  match tMeta t e, tParent t e, fuel with
  | Some d, _, _ => (e, Some d)
  | None, Some p, S fuel => climb t fuel p
  | None, _, _ => (e, None)
  end.
(** Lists of variables: a class and a location *)
Definition vars := list (kind * nat).
Definition keq (a b : kind) : bool :=
  match a, b with
  | KArgument, KArgument | KLocal, KLocal | KGlobal, KGlobal | KUnknown, KUnknown => true
  | _, _ => false
  end.
Definition has (k : kind) (d : nat) (vs : vars) : bool := existsb (fun p => keq (fst p) k && Nat.eqb (snd p) d) vs.
(** 233-246 *)
Definition insert (t : tree) (d : nat) (vs : vars) : vars :=
  if has (tKind t d) d vs then vs else vs ++ [(tKind t d, d)].
(** EraseFunctor: from each list *)
Definition eraseVar (d : nat) (vs : vars) : vars := filter (fun p => negb (Nat.eqb (snd p) d)) vs.
(** mNotInitScalars, mNotInitAggregates, mNoMetadataLocs, NotInitializedLocs *)
Record state := State { sScalars : vars; sAggregates : vars; sNoMeta : bool; sLocs : list (nat * nat) }.
Definition inLocs (e : nat) (l : list (nat * nat)) : bool := existsb (fun p => Nat.eqb (fst p) e) l.
(** 182-216 *)
Definition visitUse (t : tree) (s : state) (e : nat) : state :=
  if skip t e then s
  else
    let (e', raw) := climb t e e in
    match raw with
    | None =>
        match tObject t e with
        | OArgument => s
        | _ => State (sScalars s) (sAggregates s) true (sLocs s)
        end
    | Some d =>
        if tKnown t d
        then
          let l := if inLocs e' (sLocs s) then sLocs s else (e', d) :: sLocs s in
          if tLeaf t e' then State (insert t d (sScalars s)) (sAggregates s) (sNoMeta s) l
          else State (sScalars s) (insert t d (sAggregates s)) (sNoMeta s) l
        else s
    end.
(** 219-230: does a parent of a node belong to NotInitializedLocs? *)
Fixpoint parentIn (t : tree) (fuel : nat) (l : list (nat * nat)) (e : nat) : bool :=
  match tParent t e, fuel with
  | Some p, S fuel => if inLocs p l then true else parentIn t fuel l p
  | _, _ => false
  end.
Definition reduce (t : tree) (s : state) : state :=
  fold_left (fun s' p =>
    if parentIn t (fst p) (sLocs s) (fst p)
    then State (eraseVar (snd p) (sScalars s')) (eraseVar (snd p) (sAggregates s')) (sNoMeta s') (sLocs s')
    else s') (sLocs s) s.
Definition run (t : tree) (uses : list nat) : state := reduce t (fold_left (visitUse t) uses (State [] [] false [])).
