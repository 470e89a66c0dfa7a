(** Model of the inter-procedural analysis of live memory,
    /repo/lib/Analysis/Memory/GlobalLiveMemory.cpp:
    - initMayLivesWithIPO, 112-147
    - checkCallsFrom, 150-173
    - GlobalLiveMemory::runOnModule, 247-353

    Simplifications.  Functions, values, calls and basic blocks are numbers.  Results of other
    analyses are inputs: definitions in functions (DefinedMemoryPass), the call graph in the
    order of scc_iterator, locations of actual arguments (for_each_memory,
    include/tsar/Analysis/Memory/MemoryAccessUtils.h:52-154), and live memory at the end of
    each block of a function if live memory after the function is given (LiveMemory.cpp, C17).
    A null pointer to a live set and an argument outside of a list are an outcome [Crash].
    Regions for unreachable blocks and debug output are not modelled. *)
From Coq Require Import ZArith List Bool Arith.
From Verif Require Import RangeModel MemSetModel.
Import ListNotations.
Local Open Scope nat_scope.

(** Instructions of a block, 157-170: a marker or debug intrinsic, a call, another one *)
Inductive instr := IMarker | ICall (c : nat) | IOther.
(** What is known about a function *)
Record func := mkFunc {
  gArgs : list nat; gVarArg : bool; gEmpty : bool; gLib : bool; gMarker : bool; gDirect : bool;
  gDefs : mset; gMayDefs : mset }.
(** An edge of the call graph: a call instruction, a called function (it is absent for an
    external node) *)
Record edge := mkEdge { eCall : option nat; eTo : option nat }.
Record node := mkNode { nFun : option nat; nCalls : list edge }.
Section Model.
Variable dio : Z -> Z -> Z -> option (Z * Z * Z * Z).
Variable fn : nat -> func.
Variables isAlloca isGlobal : nat -> bool.
(** getUnderlyingObject(Ptr, 0) *)
Variable under : nat -> nat.
Variable instrs : nat -> list instr.
Variable blockOf : nat -> nat.
(** Pointers which are passed to a call: numbers of arguments and locations *)
Variable callLocs : nat -> list (nat * range).
(** LiveDFFwk: a function, live memory after it, a block *)
Variable live : nat -> mset -> nat -> mset.
Variable noExternalCalls : bool.

(** checkCallsFrom, 150-173 *)
Fixpoint checkBlock (is : list instr) (useful : bool) : bool :=
  match is with
  | [] => true
  | IMarker :: is => checkBlock is useful
  | ICall _ :: is => if useful then false else checkBlock is true
  | IOther :: is => checkBlock is true
  end.
Definition checkCallsFrom (n : node) : bool :=
  forallb (fun e => match eCall e with Some c => checkBlock (instrs (blockOf c)) false | None => true end) (nCalls n).

(** 254-271: functions to be analyzed and functions which are called from outside;
    [None]: nothing is analyzed *)
Definition calleesOf (n : node) : list nat := flat_map (fun e => match eTo e with Some f => [f] | None => [] end) (nCalls n).
Fixpoint collect (sccs : list (node * list node)) (wl : list node) (ext : list nat) : option (list node * list nat) :=
  match sccs with
  | [] => Some (wl, ext)
  | (n, rest) :: sccs =>
    match rest with
    | _ :: _ => None
    | [] =>
      match nFun n with
      | None => collect sccs wl (if noExternalCalls then ext else ext ++ calleesOf n)
      | Some f =>
        if gLib (fn f) || gMarker (fn f) then collect sccs wl ext
        else if gEmpty (fn f) || negb (gDirect (fn f)) then None
        else if negb (checkCallsFrom n) then None
        else collect sccs (wl ++ [n]) ext
      end
    end
  end.

Definition memb (x : nat) (l : list nat) : bool := existsb (Nat.eqb x) l.
(** MemoryLocation::getAfter *)
Definition afterLoc (p : nat) : range := mkRange (Some p) (precise 0) SAfter [] TEmpty false false false.
(** The lambda init, 126-142 *)
Definition keeps (f : nat) (FOut : mset) (Loc : range) : bool :=
  match rPtr Loc with
  | None => false
  | Some p =>
    let u := under p in
    if isAlloca u then false
    else if memb u (gArgs (fn f)) || isGlobal u
         then negb ((Nat.eqb u p && negb (overlap dio FOut Loc)) || negb (overlap dio FOut (afterLoc u)))
         else true
  end.
Definition insertIf (p : range -> bool) (s : mset) (Loc : range) : mset := if p Loc then msInsert s Loc else s.
Definition defsOf (f : nat) : list range := allLocs (gDefs (fn f)) ++ allLocs (gMayDefs (fn f)).
(** initMayLivesWithIPO, 112-147: [calls] is empty if the function is not in the map *)
Definition mergeAll (calls : list mset) : mset := fold_left (fun s t => fst (mmerge s t)) calls [].
Definition initMayLives (f : nat) (calls : list mset) : mset :=
  match calls with
  | [] => []
  | _ => fold_left (insertIf (keeps f (mergeAll calls))) (defsOf f) []
  end.
(** 302-318 *)
Definition notLocal (Loc : range) : bool := match rPtr Loc with Some p => negb (isAlloca (under p)) | None => false end.
Definition mayLives (f : nat) (ext : list nat) (calls : list mset) : mset :=
  if memb f ext then fold_left (insertIf notLocal) (defsOf f) [] else initMayLives f calls.

(** MemoryLocationRange(Arg, 0, Loc.Size) *)
Definition argLoc (p : nat) (Loc : range) : range := mkRange (Some p) (precise 0) (rHi Loc) [] TEmpty false false false.
(** 339-350: arguments of a callee; [None] is a crash *)
Fixpoint addArgs (args : list nat) (ls : list (nat * range)) (s : mset) : option mset :=
  match ls with
  | [] => Some s
  | (i, Loc) :: ls =>
    if overlap dio s Loc
    then match nth_error args i with
         | Some p => addArgs args ls (msInsert s (argLoc p Loc))
         | None => None
         end
    else addArgs args ls s
  end.
Definition callMap := nat -> list mset.
(** 325-351: calls of a function; [moved] is a list of blocks with moved live sets *)
Fixpoint recordCalls (f : nat) (out : mset) (es : list edge) (moved : list nat) (LS : callMap) : option callMap :=
  match es with
  | [] => Some LS
  | e :: es =>
    match eCall e, eTo e with
    | Some c, Some g =>
      if memb (blockOf c) moved then None
      else
        match (if gVarArg (fn g) then Some (live f out (blockOf c)) else addArgs (gArgs (fn g)) (callLocs c) (live f out (blockOf c))) with
        | None => None
        | Some s => recordCalls f out es (blockOf c :: moved) (fun h => if Nat.eqb h g then LS h ++ [s] else LS h)
        end
    | _, _ => recordCalls f out es moved LS
    end
  end.
(** 290-352 *)
Fixpoint process (ext : list nat) (ns : list node) (LS : callMap) (res : list (nat * mset)) : option (list (nat * mset)) :=
  match ns with
  | [] => Some res
  | n :: ns =>
    match nFun n with
    | None => process ext ns LS res
    | Some f =>
      let out := mayLives f ext (LS f) in
      match recordCalls f out (nCalls n) [] LS with
      | None => None
      | Some LS' => process ext ns LS' (res ++ [(f, out)])
      end
    end
  end.
Inductive outcome := Crash | Nothing | Lives (res : list (nat * mset)).
(** runOnModule: memory which is live after functions *)
Definition globalLive (sccs : list (node * list node)) : outcome :=
  match collect sccs [] [] with
  | None => Nothing
  | Some (wl, ext) => match process ext (rev wl) (fun _ => []) [] with Some r => Lives r | None => Crash end
  end.
End Model.
