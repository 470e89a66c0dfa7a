(** Model of a storage of parallel constructs:
    /repo/include/tsar/Analysis/Parallel/Parallellelization.h 240-500.

    Simplifications.
    - A basic block, a function and a parallel item are numbers.  An item has a
      class and arguments of its constructor.  Tests isa<ItemT>() and
      isMergeableWith() are arguments of the model, as well as a decision of
      llvm::DenseMap to reallocate its buckets.
    - llvm::DenseMap is a list of pairs without repetition of keys.
    - Each buffer of llvm::SmallVector has a generation: elements of a vector are
      in the buffer with this generation.  A vector gets a new buffer if it grows;
      a vector which is moved gets a new buffer if its elements are stored inside
      of it (llvm::SmallVector steals an allocated buffer otherwise).  An iterator
      is valid while the vector has the same buffer.  The supply of generations
      and of addresses of items is [fresh].
    - llvm::PointerUnion<MDNode *, Value *>::getOpaqueValue() is the address with
      the index of the type in unused low bits. *)
From Coq Require Import Arith Bool List.
Import ListNotations.

(** Parallellelization.h 248 *)
Inductive anchor := AMeta (n : nat) | AValue (n : nat).
(* objects are aligned and distinct objects have distinct addresses *)
Definition address (a : anchor) : nat :=
  match a with AMeta n => 8 * n | AValue n => 8 * n + 4 end.
Definition opaque (a : anchor) : nat :=
  match a with AMeta n => address a | AValue n => address a + 1 end.

(** Parallellelization.h 52-140 (only what the storage depends on) *)
Record item := Item { iPtr : nat; iClass : nat; iArgs : nat }.
(** Parallellelization.h 243, SmallVector<std::unique_ptr<ParallelItem>, 4> *)
Record pblock := PBlock { pItems : list item; pCap : nat; pGen : nat }.
(** Parallellelization.h 246-255 *)
Record location := Location { lAnchor : anchor; lEntry : pblock; lExit : pblock }.
(** Parallellelization.h 261, SmallVector<ParallelLocation, 1> *)
Record llist := LList { llItems : list location; llCap : nat; llGen : nat }.
(** Parallellelization.h 260-332 *)
Record state := State {
  funcs : list nat;                (* mParallelFuncs *)
  blocks : list (nat * llist);     (* mParallelBlocks *)
  mapGen : nat;
  fresh : nat
}.
Definition empty : state := State [] [] 0 1.

Definition side (onEntry : bool) (l : location) : pblock :=
  if onEntry then lEntry l else lExit l.
Definition setSide (onEntry : bool) (l : location) (b : pblock) : location :=
  if onEntry then Location (lAnchor l) b (lExit l) else Location (lAnchor l) (lEntry l) b.

(* move of a vector *)
Definition moveBlock (n : nat) (b : pblock) : pblock * nat :=
  if pCap b =? 4 then (PBlock (pItems b) (pCap b) n, S n) else (b, n).
Definition moveLoc (n : nat) (l : location) : location * nat :=
  let '(e, n) := moveBlock n (lEntry l) in
  let '(x, n) := moveBlock n (lExit l) in
  (Location (lAnchor l) e x, n).
Fixpoint moveLocs (n : nat) (l : list location) : list location * nat :=
  match l with
  | [] => ([], n)
  | x :: l =>
    let '(x, n) := moveLoc n x in
    let '(l, n) := moveLocs n l in
    (x :: l, n)
  end.
Definition moveList (n : nat) (l : llist) : llist * nat :=
  if llCap l =? 1 then
    let '(ls, n) := moveLocs n (llItems l) in
    (LList ls (llCap l) n, S n)
  else (l, n).
Fixpoint moveMap (n : nat) (m : list (nat * llist)) : list (nat * llist) * nat :=
  match m with
  | [] => ([], n)
  | (k, l) :: m =>
    let '(l, n) := moveList n l in
    let '(m, n) := moveMap n m in
    ((k, l) :: m, n)
  end.

(* llvm::SmallVector::push_back, capacities are 2 * capacity + 1 *)
Definition pushItem (n : nat) (b : pblock) (x : item) : pblock * nat :=
  if length (pItems b) =? pCap b then (PBlock (pItems b ++ [x]) (2 * pCap b + 1) n, S n)
  else (PBlock (pItems b ++ [x]) (pCap b) (pGen b), n).
Definition newLoc (n : nat) (a : anchor) : location * nat :=
  (Location a (PBlock [] 4 n) (PBlock [] 4 (S n)), S (S n)).
Definition pushLoc (n : nat) (l : llist) (a : anchor) : llist * nat :=
  let '(x, n) := newLoc n a in
  if length (llItems l) =? llCap l then
    let '(ls, n) := moveLocs n (llItems l) in
    (LList (ls ++ [x]) (2 * llCap l + 1) n, S n)
  else (LList (llItems l ++ [x]) (llCap l) (llGen l), n).

Fixpoint lookup (m : list (nat * llist)) (bb : nat) : option llist :=
  match m with
  | [] => None
  | (k, l) :: m => if bb =? k then Some l else lookup m bb
  end.
Fixpoint replace (m : list (nat * llist)) (bb : nat) (v : llist) : list (nat * llist) :=
  match m with
  | [] => []
  | (k, l) :: m => if bb =? k then (k, v) :: m else (k, l) :: replace m bb v
  end.
(* std::find_if: an index of an element *)
Fixpoint findIdx {A} (p : A -> bool) (l : list A) : option nat :=
  match l with
  | [] => None
  | x :: l => if p x then Some 0 else option_map S (findIdx p l)
  end.

(** Parallellelization.h 335-426: an iterator of a vector is a path to the element
    and a generation of the buffer.  Empty and tombstone keys are [RInvalid]. *)
Inductive ref :=
| RInvalid (tombstone : bool)
| RItem (bb : nat) (locIdx : nat) (listGen : nat) (itemIdx : nat) (blockGen : nat) (onEntry : bool).

Section Storage.
Variable parentOf : nat -> nat.                (* BasicBlock::getParent *)
Variable isa : nat -> nat -> bool.             (* isa<ItemT>() of a class *)
Variable mergeable : nat -> nat -> nat -> bool.  (* isMergeableWith: a class and arguments
                                                   of an item, arguments of a new one *)
Variable grows : state -> bool.                (* whether a new key reallocates buckets *)

Definition insertFunc (l : list nat) (f : nat) : list nat :=
  if existsb (Nat.eqb f) l then l else l ++ [f].
(** Parallellelization.h 289-295, whether a new key is inserted *)
Definition tryEmplaceBlock (s : state) (bb : nat) : state * bool :=
  let fs := insertFunc (funcs s) (parentOf bb) in
  match lookup (blocks s) bb with
  | Some _ => (State fs (blocks s) (mapGen s) (fresh s), false)
  | None =>
    let '(m, g, n) :=
      if grows s then
        let '(m, n) := moveMap (fresh s) (blocks s) in (m, n, S n)
      else (blocks s, mapGen s, fresh s) in
    (State fs (m ++ [(bb, LList [] 1 n)]) g (S n), true)
  end.
(** Parallellelization.h 302: llvm::DenseMap::erase *)
Definition eraseBlock (s : state) (bb : nat) : state :=
  State (funcs s) (filter (fun p => negb (bb =? fst p)) (blocks s)) (mapGen s) (fresh s).

(** Parallellelization.h 432-442 and 462-471: a location for an anchor in the
    list.  The result is a list, an index and whether the location is new. *)
Definition locate (n : nat) (l : llist) (a : anchor) : llist * nat * bool * nat :=
  match findIdx (fun p => opaque (lAnchor p) =? address a) (llItems l) with
  | Some i => (l, i, false, n)
  | None =>
    let '(l, n) := pushLoc n l a in
    (l, length (llItems l) - 1, true, n)
  end.
Fixpoint setNth {A} (l : list A) (i : nat) (v : A) : list A :=
  match l, i with
  | [], _ => []
  | _ :: l, O => v :: l
  | x :: l, S i => x :: setNth l i v
  end.
Definition setList (s : state) (bb : nat) (l : llist) (n : nat) : state :=
  State (funcs s) (replace (blocks s) bb l) (mapGen s) n.

(** Parallellelization.h 428-456.  [None] is unreachable: see C42_content. *)
Definition tryEmplace (s : state) (T bb : nat) (a : anchor) (onEntry : bool) (args : nat)
    : option (state * ref * bool) :=
  let '(s, isNew) := tryEmplaceBlock s bb in
  match lookup (blocks s) bb with
  | None => None
  | Some l =>
    let '(l, i, newL, n) := locate (fresh s) l a in
    match nth_error (llItems l) i with
    | None => None
    | Some p =>
      let b := side onEntry p in
      match findIdx (fun x => isa T (iClass x) && mergeable (iClass x) (iArgs x) args) (pItems b) with
      | Some j =>
        Some (setList s bb l n, RItem bb i (llGen l) j (pGen b) onEntry, isNew || newL)
      | None =>
        let '(b, n') := pushItem (S n) b (Item n T args) in
        let l := LList (setNth (llItems l) i (setSide onEntry p b)) (llCap l) (llGen l) in
        Some (setList s bb l n',
              RItem bb i (llGen l) (length (pItems b) - 1) (pGen b) onEntry, true)
      end
    end
  end.
(** Parallellelization.h 458-476 *)
Definition emplace (s : state) (T bb : nat) (a : anchor) (onEntry : bool) (args : nat)
    : option (state * ref) :=
  let '(s, _) := tryEmplaceBlock s bb in
  match lookup (blocks s) bb with
  | None => None
  | Some l =>
    let '(l, i, _, n) := locate (fresh s) l a in
    match nth_error (llItems l) i with
    | None => None
    | Some p =>
      let '(b, n') := pushItem (S n) (side onEntry p) (Item n T args) in
      let l := LList (setNth (llItems l) i (setSide onEntry p b)) (llCap l) (llGen l) in
      Some (setList s bb l n',
            RItem bb i (llGen l) (length (pItems b) - 1) (pGen b) onEntry)
    end
  end.
(** Parallellelization.h 478-499 *)
Definition find (s : state) (T bb : nat) (a : anchor) (onEntry : bool) : ref :=
  match lookup (blocks s) bb with
  | None => RInvalid false
  | Some l =>
    match findIdx (fun p => opaque (lAnchor p) =? address a) (llItems l) with
    | None => RInvalid false
    | Some i =>
      match nth_error (llItems l) i with
      | None => RInvalid false
      | Some p =>
        match findIdx (fun x => isa T (iClass x)) (pItems (side onEntry p)) with
        | Some j => RItem bb i (llGen l) j (pGen (side onEntry p)) onEntry
        | None => RInvalid false
        end
      end
    end
  end.
End Storage.

(** Parallellelization.h 392-393, getUnchecked: [None] is a dereference of an
    iterator which is not valid. *)
Definition deref (s : state) (r : ref) : option item :=
  match r with
  | RInvalid _ => None
  | RItem bb i _ j g onEntry =>
    match lookup (blocks s) bb with
    | None => None
    | Some l =>
      match nth_error (llItems l) i with
      | None => None
      | Some p =>
        if pGen (side onEntry p) =? g then nth_error (pItems (side onEntry p)) j else None
      end
    end
  end.
(** Parallellelization.h 388-390 *)
Definition isValid (r : ref) : bool := match r with RInvalid _ => false | _ => true end.
Definition sameState (r q : ref) : bool :=
  match r, q with
  | RInvalid a, RInvalid b => Bool.eqb a b
  | RItem _ _ _ _ _ a, RItem _ _ _ _ _ b => Bool.eqb a b
  | _, _ => false
  end.
(** Parallellelization.h 405-408 *)
Definition refEq (s : state) (r q : ref) : option bool :=
  if sameState r q then
    if isValid r then
      match deref s r, deref s q with
      | Some x, Some y => Some (iPtr x =? iPtr y)
      | _, _ => None
      end
    else Some true
  else Some false.
(** Parallellelization.h 410 *)
Definition refNe (s : state) (r q : ref) : option bool := refEq s r q.
