(** Model of the pass which removes stores to memory which is never read,
    /repo/lib/Transform/IR/DeadCodeElimination.cpp 74-146.

    Simplifications.
    - Alias sets (AliasSetTracker) are given: a set for an address, sets which an instruction
      with an unknown access may touch.  Sets which are created while instructions are visited
      are not modelled.
    - A removed store is replaced with an instruction which does nothing.
    - Removal of operands is modelled on a graph of uses. *)
From Coq Require Import PeanoNat Bool List.
Import ListNotations.

Inductive instr :=
| Store (volatile : bool) (addr value : nat)
| Load (addr result : nat)
| Unknown (code : nat)
| Op (code : nat)
| Ret
| Nop.

(** Results of the analysis of memory. *)
Record analysis := Analysis {
  setOf : nat -> nat;               (* Tracker.getAliasSetFor(Loc) *)
  touches : nat -> list nat;        (* alias sets such that AS.aliasesUnknownInst(&I, AA) *)
  modSets : list nat;               (* alias sets such that AS.isMod() *)
  isPlainAlloca : nat -> bool       (* 96-97: AllocaInst without metadata *)
}.

(** 81, OnlyStores. *)
Definition onlyStores := list (nat * list nat).
Definition eraseSet (s : nat) (os : onlyStores) : onlyStores :=
  filter (fun x => negb (Nat.eqb (fst x) s)) os.
Definition pushStore (s pc : nat) (os : onlyStores) : onlyStores :=
  map (fun x => if Nat.eqb (fst x) s then (fst x, pc :: snd x) else x) os.
(** 87-108: processing of an instruction. *)
Definition visitInstr (A : analysis) (pc : nat) (i : instr) (os : onlyStores) : onlyStores :=
  match i with
  | Store _ a _ =>
      if negb (isPlainAlloca A a) then eraseSet (setOf A a) os else pushStore (setOf A a) pc os
  | Load a _ => eraseSet (setOf A a) os
  | Unknown c => fold_right eraseSet os (touches A c)
  | _ => os
  end.
Fixpoint visitAll (A : analysis) (pc : nat) (is : list instr) (os : onlyStores) : onlyStores :=
  match is with
  | [] => os
  | i :: is => visitAll A (S pc) is (visitInstr A pc i os)
  end.
(** 82-84 and 86-109. *)
Definition findStores (A : analysis) (is : list instr) : onlyStores :=
  visitAll A 0 is (map (fun s => (s, [])) (modSets A)).
(** 113-122: removal of stores. *)
Definition toRemove (A : analysis) (is : list instr) : list nat :=
  flat_map snd (findStores A is).
Fixpoint removeAt (dead : list nat) (pc : nat) (is : list instr) : list instr :=
  match is with
  | [] => []
  | i :: is => (if existsb (Nat.eqb pc) dead then Nop else i) :: removeAt dead (S pc) is
  end.
Definition eliminate (A : analysis) (is : list instr) : list instr :=
  removeAt (toRemove A is) 0 is.

(** 113-144: a graph of uses and removal of operands. *)
Record graph := Graph {
  ops : nat -> list nat;            (* operands which are instructions *)
  inMem : nat -> bool               (* mayReadOrWriteMemory() *)
}.
Definition has (x : nat) (l : list nat) : bool := existsb (Nat.eqb x) l.
Definition without (x : nat) (l : list nat) : list nat :=
  filter (fun y => negb (Nat.eqb y x)) l.
(* getNumUses() > 0; [live] are instructions which are not removed *)
Definition hasUses (G : graph) (live : list nat) (x : nat) : bool :=
  existsb (fun y => has x (ops G y)) live.
(** 116-120 and 131-135: operands are added to a worklist; a pair of Worklist (the last element
    is the first here) and Visited. *)
Fixpoint pushOps (G : graph) (os : list nat) (wv : list nat * list nat) : list nat * list nat :=
  match os with
  | [] => wv
  | x :: os =>
      let (W, V) := wv in
      if negb (inMem G x) && negb (has x V) then pushOps G os (x :: W, x :: V)
      else pushOps G os (W, V)
  end.
Record state := State { sLive : list nat; sWork : list nat; sVisited : list nat;
  sUses : list nat; sChanged : bool }.
(** 125-140: an iteration of the inner loop. *)
Definition pop (G : graph) (s : state) : state :=
  match sWork s with
  | [] => s
  | x :: W =>
      let V := without x (sVisited s) in
      if hasUses G (sLive s) x
      then State (sLive s) W V (x :: without x (sUses s)) (sChanged s)
      else
        let (W, V) := pushOps G (ops G x) (W, V) in
        State (without x (sLive s)) W V (without x (sUses s)) true
  end.
Fixpoint inner (fuel : nat) (G : graph) (s : state) : option state :=
  match sWork s, fuel with
  | [], _ => Some s
  | _, O => None
  | _, S fuel => inner fuel G (pop G s)
  end.
(** 123-145: the outer loop; [order] is an order of pointers in a set. *)
Fixpoint outer (fuel : nat) (G : graph) (order : list nat -> list nat) (s : state)
  : option state :=
  match fuel with
  | O => None
  | S fuel' =>
      match inner fuel G (State (sLive s) (sWork s) (sVisited s) (sUses s) false) with
      | None => None
      | Some s =>
          if negb (sChanged s) then Some s
          else outer fuel' G order
                 (State (sLive s) (rev (order (sUses s))) (sUses s) (sUses s) false)
      end
  end.
(** 114-144: removal of a store [x] and its operands. *)
Definition removeStore (fuel : nat) (G : graph) (order : list nat -> list nat) (live : list nat)
  (x : nat) : option (list nat) :=
  let (W, V) := pushOps G (ops G x) ([], []) in
  match outer fuel G order (State (without x live) W V [] false) with
  | None => None
  | Some s => Some (sLive s)
  end.
