(** Model of the inliner which handles calls which prevent data dependence analysis,
    /repo/lib/Transform/IR/DependenceInliner.cpp 152-180 (evaluateCostOnSCC, runOnSCC), 182-198
    (getInlineCost) and 200-366 (DependenceInlinerAttributer::runOnModule).

    Simplifications.
    - Functions, calls and debug locations are numbers.  Metadata 'Inline' of calls is a list of
      numbers of calls.
    - Traits of loops are given (results of other passes).  A trait contains causes of anti, flow
      and output dependencies; if its memory is a function ([DIUnknownMemory] with
      [DISubprogram]) it contains handles of calls.
    - Edges of the call graph are calls of a function in order.  A node of a function without a
      definition has no calls. *)
From Coq Require Import PeanoNat Bool List.
Import ListNotations.

Record call := Call { cId : nat; cLoc : option nat; cCallee : option nat }.
Record trait := Trait {
  tAnti : option (list (option nat));    (* locations of causes *)
  tFlow : option (list (option nat));
  tOutput : option (list (option nat));
  tCalls : list (option call)            (* handles, None: a null or an undefined value *)
}.
Record loop := Loop {
  lID : bool;                            (* L->getLoopID() *)
  lAttrs : bool;                         (* 288-291 *)
  lDeps : option (list (bool * list trait))   (* 293-296, is a node in Coverage, traits *)
}.
Record func := Func { fId : nat; fDecl : bool; fCalls : list call; fLoops : list loop }.

Record state := State { sMarks : list nat; sInline : list nat; sChanged : bool }.
Definition mem (x : nat) (l : list nat) : bool := existsb (Nat.eqb x) l.
(* DenseSet::insert *)
Definition insert (x : nat) (l : list nat) : list nat := if mem x l then l else x :: l.

(** 257-264 and 309-316: a call is marked and its callee is remembered. *)
Definition mark (c : call) (s : state) : state :=
  if mem (cId c) (sMarks s) then s
  else State (cId c :: sMarks s)
         (match cCallee c with Some g => insert g (sInline s) | None => sInline s end) true.
(** 236-245: the first call with a location is stored. *)
Definition hasLoc (l : nat) (c : call) : bool :=
  match cLoc c with Some l' => Nat.eqb l l' | None => false end.
Definition findCall (cs : list call) (l : nat) : option call := find (hasLoc l) cs.
(** 246-279, check *)
Definition checkCause (cs : list call) (s : state) (o : option nat) : state :=
  match o with
  | None => s
  | Some l => match findCall cs l with Some c => mark c s | None => s end
  end.
Definition check (cs : list call) (d : option (list (option nat))) (s : state) : state :=
  match d with None => s | Some os => fold_left (checkCause cs) os s end.
Definition isSome {A} (o : option A) : bool := match o with Some _ => true | None => false end.
(** 301-330 *)
Definition visitTrait (cs : list call) (s : state) (t : trait) : state :=
  if isSome (tAnti t) || isSome (tFlow t) || isSome (tOutput t)
  then
    let s := check cs (tAnti t) s in
    let s := check cs (tFlow t) s in
    let s := check cs (tOutput t) s in
    fold_left (fun s o => match o with Some c => mark c s | None => s end) (tCalls t) s
  else s.
(** 285-331 *)
Definition visitLoop (cs : list call) (s : state) (l : loop) : state :=
  if lID l && lAttrs l
  then match lDeps l with
       | None => s
       | Some ds =>
           fold_left (fun s (d : bool * list trait) =>
             if fst d then fold_left (visitTrait cs) (snd d) s else s) ds s
       end
  else s.
(** 230-332 *)
Definition visitFunc (s : state) (f : func) : state :=
  if fDecl f then s else fold_left (visitLoop (fCalls f)) (fLoops f) s.

(* CG[F] *)
Definition callsOf (m : list func) (f : nat) : list call :=
  match find (fun g => Nat.eqb f (fId g)) m with Some g => fCalls g | None => [] end.
(** 333-348: the head of a list is the back of the worklist. *)
Definition pushCallee (wi : list nat * list nat) (c : call) : list nat * list nat :=
  match cCallee c with
  | None => wi
  | Some g => if mem g (snd wi) then wi else (g :: fst wi, g :: snd wi)
  end.
Fixpoint close (fuel : nat) (m : list func) (w toInline : list nat) : option (list nat) :=
  match w with
  | [] => Some toInline
  | f :: w =>
      match fuel with
      | 0 => None
      | S fuel =>
          let wi := fold_left pushCallee (callsOf m f) (w, toInline) in
          close fuel m (fst wi) (snd wi)
      end
  end.
(** 349-365 *)
Definition markOnly (s : list nat * bool) (c : call) : list nat * bool :=
  if mem (cId c) (fst s) then s else (cId c :: fst s, true).
Definition markAll (m : list func) (s : list nat * bool) (fs : list nat) : list nat * bool :=
  fold_left (fun s f => fold_left markOnly (callsOf m f) s) fs s.

(** 200-366: marked calls and a returned value.  [order] is an order of elements of a set,
    [marks] are calls which are already marked. *)
Definition runOnModule (fuel : nat) (order : list nat -> list nat) (m : list func) (marks : list nat)
  : option (list nat * bool) :=
  let s := fold_left visitFunc m (State marks [] false) in
  match close fuel m (rev (order (sInline s))) (sInline s) with
  | None => None
  | Some toInline => Some (markAll m (sMarks s, sChanged s) (order toInline))
  end.

(** 152-198: expansion of calls.  Functions are visited bottom-up and each of them is a separate
    component (there is no recursion), a function calls functions with smaller numbers only.  A
    body is a list of memory accesses and calls ([for_each_memory] counts both).  [ok]: a call is
    marked, it is not indirect, and a callee has a definition and may be inlined.  [inlineCalls]
    of LLVM considers each call of a function, including calls from inlined bodies, and expands
    it if its cost is less than the threshold. *)
Inductive elem := EAcc | ECall (g : nat) (ok : bool).
Definition sizeOf (b : list elem) : nat := length b.
(* 182-198: [base] is mCurrentSCCCost, [costs] is mAnalysisCost *)
Definition isInlined (T base : nat) (costs : list nat) (g : nat) (ok : bool) : bool :=
  ok && (base + nth g costs 0 <? T).
Fixpoint expand (d T base : nat) (costs : list nat) (bodies : list (list elem)) (e : elem) : list elem :=
  match d, e with
  | S d, ECall g ok =>
      if isInlined T base costs g ok
      then flat_map (expand d T base costs bodies) (nth g bodies [])
      else [e]
  | _, _ => [e]
  end.
(* 172-180: the cost is evaluated once, it is stored before and after expansion *)
Definition runOnFunction (T : nat) (st : list nat * list (list elem)) (b : list elem)
  : list nat * list (list elem) :=
  let base := sizeOf b in
  (fst st ++ [base],
   snd st ++ [flat_map (expand (length (snd st)) T base (fst st) (snd st)) b]).
Definition inlineAll (T : nat) (bodies : list (list elem)) : list (list elem) :=
  snd (fold_left (runOnFunction T) bodies ([], [])).
