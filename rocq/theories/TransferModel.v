(** Model of placement of directives actual and get_actual between regions which are executed on
    an accelerator, /repo/lib/Transform/Clang/DVMHDataTransferIPO.cpp 472-545 (collectInCallee),
    618-657 (collectInParallelBlock), 792-1014 (addGetActualIf, addTransferToWrite, processBB),
    1053-1133 (an entry and an exit of a function), 1161-1184 (an exit of a loop).

    Simplifications.
    - Variables and alias nodes are numbers.  SpanningTreeRelation is a relation between nodes.
    - Each level of a function is optimized, there are no final or required directives, so
      directives around regions are replaced with directives of this model.
    - Interprocedural optimization is disabled for the function and its callees.  In this case
      initPragmaData (792-843) inserts all variables of an alias node to a directive.
    - The model of an accelerator follows the description of DVMH directives: the system stores
      which copies of a variable are up to date, it believes directives. *)
From Coq Require Import PeanoNat Bool List ZArith.
Import ListNotations.

(** A region reads variables [rIn] and writes variables [rOut] on an accelerator: these are
    variables of directives actual and get_actual around the region, DVMHSMAutoPar.cpp 235-259. *)
Record region := Region { rIn : list nat; rOut : list nat }.
(** A memory access of an instruction: an alias node (None if there is no metadata), kinds of the
    access, anyLoopPostDominates (970-983). *)
Record access := Access { aNode : option nat; aRead : bool; aWrite : bool; aInduct : bool }.
Record func := Func {
  fNode : nat -> nat;              (* an alias node of a variable *)
  fRelated : nat -> nat -> bool;   (* !isUnreachable *)
  fDistinct : list nat;            (* mDistinctMemory *)
  fRegions : list region;
  fVisible : nat -> bool;          (* is a variable available outside the function, 1066-1068 *)
  fMain : bool                     (* mEntryPoint *)
}.

Definition mem (x : nat) (l : list nat) : bool := existsb (Nat.eqb x) l.
(** mToActual, mToGetActual *)
Definition table := list (nat * list nat).
(** 625-630: try_emplace and push_back *)
Fixpoint addVar (n v : nat) (t : table) : table :=
  match t with
  | [] => [(n, [v])]
  | (m, vs) :: t => if Nat.eqb m n then (m, if mem v vs then vs else vs ++ [v]) :: t else (m, vs) :: addVar n v t
  end.
(** 618-657 *)
Definition collect (f : func) (vs : list nat) (t : table) : table :=
  fold_left (fun t v => addVar (fNode f v) v t) vs t.
Definition toActual (f : func) : table := fold_left (fun t r => collect f (rIn r) t) (fRegions f) [].
Definition toGet (f : func) : table := fold_left (fun t r => collect f (rOut r) t) (fRegions f) [].

(** Directives of an instruction: InsertedGetActuals, variables of get_actual before it and of
    actual after it. *)
Record dirs := Dirs { dInserted : list nat; dGet : list nat; dActual : list nat }.
(** 866-873 *)
Definition addGet1 (f : func) (n : nat) (d : dirs) (p : nat * list nat) : dirs :=
  if mem (fst p) (dInserted d) || negb (fRelated f n (fst p)) then d
  else Dirs (fst p :: dInserted d) (dGet d ++ snd p) (dActual d).
Definition addGetActualIf (f : func) (n : nat) (d : dirs) : dirs := fold_left (addGet1 f n) (toGet f) d.
(** 896-902 *)
Definition addActual1 (f : func) (n : nat) (d : dirs) (p : nat * list nat) : dirs :=
  if negb (fRelated f n (fst p)) then d
  else addGetActualIf f (fst p) (Dirs (dInserted d) (dGet d) (dActual d ++ snd p)).
Definition addTransferToWrite (f : func) (n : nat) (d : dirs) : dirs := fold_left (addActual1 f n) (toActual f) d.
(** 944-951 *)
Definition visitUnknown (f : func) (a : access) (d : dirs) (n : nat) : dirs :=
  let d := if aWrite a then addTransferToWrite f n d else d in
  if aRead a then addGetActualIf f n d else d.
(** 921-1012 *)
Definition visitAccess (f : func) (d : dirs) (a : access) : dirs :=
  match aNode a with
  | None => fold_left (visitUnknown f a) (fDistinct f) d
  | Some n =>
      if aWrite a && aInduct a then d
      else
        let d := if aWrite a then addTransferToWrite f n d else d in
        if aRead a then addGetActualIf f n d else d
  end.
(** 913-1013 *)
Definition visitInstr (f : func) (i : list access) : dirs := fold_left (visitAccess f) i (Dirs [] [] []).
(** 1053-1130: directives at an entry and at an exit of a function *)
Definition boundary (f : func) (t : table) : list nat :=
  if fMain f then [] else filter (fVisible f) (flat_map snd t).

(** * A host and an accelerator *)
Definition values := nat -> nat -> Z.     (* a variable and a cell *)
Record mstate := State { host : values; dev : values; hostOk : nat -> bool; devOk : nat -> bool }.
Definition doGet (vs : list nat) (s : mstate) : mstate :=
  State (fun v c => if mem v vs && negb (hostOk s v) then dev s v c else host s v c) (dev s)
    (fun v => mem v vs || hostOk s v) (devOk s).
Definition doActual (vs : list nat) (s : mstate) : mstate :=
  State (host s) (dev s) (fun v => mem v vs || hostOk s v) (fun v => negb (mem v vs) && devOk s v).
Definition update (w : nat -> nat -> option Z) (m : values) : values :=
  fun v c => match w v c with Some x => x | None => m v c end.
Definition observe (m : values) (rs : list (nat * nat)) : list Z := map (fun p => m (fst p) (snd p)) rs.
(** Events of an execution: an instruction or a region which reads and then writes cells. *)
Inductive event :=
  | EHost (i : list access) (rs : list (nat * nat)) (w : nat -> nat -> option Z)
  | EDev (r : region) (rs : list (nat * nat)) (w : nat -> nat -> option Z).
(** A region copies obsolete input variables to an accelerator. *)
Definition enter (r : region) (s : mstate) : mstate :=
  State (host s) (fun v c => if mem v (rIn r) && negb (devOk s v) then host s v c else dev s v c)
    (hostOk s) (fun v => mem v (rIn r) || devOk s v).
(** Copies of output variables on a host become obsolete. *)
Definition leave (r : region) (s : mstate) : mstate :=
  State (host s) (dev s) (fun v => negb (mem v (rOut r)) && hostOk s v) (fun v => mem v (rOut r) || devOk s v).
Definition step (f : func) (e : event) (s : mstate) : list Z * mstate :=
  match e with
  | EHost i rs w =>
      let d := visitInstr f i in
      let s := doGet (dGet d) s in
      (observe (host s) rs, doActual (dActual d) (State (update w (host s)) (dev s) (hostOk s) (devOk s)))
  | EDev r rs w =>
      let s := enter r s in
      (observe (dev s) rs, leave r (State (host s) (update w (dev s)) (hostOk s) (devOk s)))
  end.
Fixpoint run (f : func) (es : list event) (s : mstate) : list (list Z) * mstate :=
  match es with
  | [] => ([], s)
  | e :: es => let (o, s) := step f e s in let (os, s) := run f es s in (o :: os, s)
  end.
Definition execute (f : func) (es : list event) (s : mstate) : list (list Z) * mstate :=
  let s := doActual (boundary f (toActual f)) s in
  let (os, s) := run f es s in
  (os, doGet (boundary f (toGet f)) s).

(** * An exit of a loop, 1166-1169: for each instruction of an exit block, does it read memory.
    None: the end of the block is passed. *)
Fixpoint exitPos (b : list bool) : option nat :=
  match b with
  | [] => None
  | r :: b' =>
      if r || negb (match b' with [] => true | _ => false end)
      then match exitPos b' with Some k => Some (S k) | None => None end
      else Some 0
  end.

(** * Directives of a callee, 472-545.  [acts] and [gets] are directives of the callee which may be
    moved to a call; [local] are variables to be optimized in the caller. Results are variables of
    final and of optimized directives before the call and after the call. *)
Definition sortMemory (from : list (list nat)) (local : list nat) (final : bool) : list nat * list nat :=
  let vs := concat from in
  if final then (vs, []) else (filter (fun v => negb (mem v local)) vs, filter (fun v => mem v local) vs).
Definition collectInCallee (acts gets : list (list nat)) (localA localG : list nat) (final : bool)
  : (list nat * list nat) * (list nat * list nat) :=
  (match acts with [] => ([], []) | _ => sortMemory acts localA final end,
   match gets with [] => ([], []) | _ => sortMemory acts localG final end).
