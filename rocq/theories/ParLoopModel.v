(** Model of checks of data dependencies before parallelization of a loop:
    - ParallelLoopPass::runOnFunction, /repo/lib/Analysis/Parallel/ParallelLoop.cpp:102-217
    - ClangDependenceAnalyzer::evaluateDependency, /repo/lib/Analysis/Clang/ASTDependenceAnalysis.cpp:36-335
    - VariableCollector::findDecl and localize, /repo/lib/Analysis/Clang/VariableCollector.cpp:91-250
    - clauses of a parallel loop, ClangOpenMPParallelization::exploitParallelism,
      /repo/lib/Transform/Clang/OpenMPAutoPar.cpp:498-587 (a new parallel item, no regular dependencies).

    Simplifications.  Variables and alias nodes are numbers.  Matching of metadata-level memory
    with variables is an argument: a result of a search for a declaration is attached to each
    memory location.  The option -fignore-redundant-memory is not set.  A set of covered nodes, a
    relation of nodes in the alias tree and attributes of a loop are arguments.  Diagnostics are
    represented with a single flag, distances of dependencies with a flag of known distance.
    Lists for localization of input and output data (evaluateDefUse) are omitted. *)
From Coq Require Import List Bool Arith.
Import ListNotations.

(** Traits of a memory location or of an alias node, MemoryDescriptor *)
Record desc := Desc {
  dAddr : bool; dShared : bool; dReadonly : bool; dInduction : bool; dPrivate : bool; dReduction : bool;
  dAnti : bool; dFlow : bool; dOutput : bool; dSecond : bool; dFirst : bool; dDynamic : bool; dDirect : bool
}.
(** DerivedKind, VariableCollector.h:66-80 *)
Inductive dkind := Strong | Bounded | Partial.
(** DeclSearch, VariableCollector.h:95-116, with a variable.  [SDerived v (Some (n, k))]: a slot of
    [n] dereferences of the variable is updated with [k], findDecl, 165-178 *)
Inductive search :=
| SLocal (v : nat) | SGlobal (v : nat) | SDerived (v : nat) (slot : option (nat * dkind))
| SInvalid | SImplicit (v : nat) | SUseless | SUnknown.
(** DIMemoryTrait: traits, a search for its declaration, get<Reduction>() (0 is RK_NoReduction),
    isKnownDistance() of get<Flow>() and get<Anti>(), an executed unknown memory *)
Record memT := MemT {
  mDesc : desc; mSearch : search; mRed : option nat; mFlow : option bool; mAnti : option bool; mExec : bool
}.
(** DIAliasTrait: traits of a node, its memory, whether it is in a coverage *)
Record node := Node { nDesc : desc; nMems : list memT; nCov : bool }.
(** A loop: attributes and calls (ParallelLoop.cpp:105-146), referenced variables with numbers of slots,
    variables declared in the loop, the variable of the head of the loop, related alias nodes *)
Record loopInfo := LoopInfo {
  lSafe : bool;
  lNodes : list node;
  lRefs : list (nat * nat);
  lLocals : list nat;
  lHead : option nat;
  lRelated : nat -> nat -> bool
}.

(** ParallelLoop.cpp:167-213 *)
Definition nodeParallel (n : node) : bool :=
  let d := nDesc n in
  if negb (nCov n) then true
  else if dAddr d || dOutput d || (dDynamic d && negb (dShared d)) then false
  else if (1 <? length (nMems n)) && negb (dShared d || dReadonly d) then false
  else match nMems n with
       | [] => true
       | t :: _ =>
         (if dReduction (mDesc t) then match mRed t with Some _ => true | None => false end else true)
         && (if dFlow (mDesc t) then match mFlow t with Some k => k | None => false end else true)
         && (if dAnti (mDesc t) then match mAnti t with Some k => k | None => false end else true)
       end.
Definition parallelLoop (l : loopInfo) : bool := lSafe l && forallb nodeParallel (lNodes l).

(** Slots of CanonicalRefs, lists of variables, GlobalRefs, presence of diagnostics *)
Record state := State {
  sSlots : list ((nat * nat) * dkind);
  sPriv : list nat; sLast : list nat; sFirst : list nat; sRed : list (nat * nat);
  sInd : list nat; sDeps : list nat; sGlob : list nat; sDiag : bool
}.
Definition state0 : state := State [] [] [] [] [] [] [] [] false.
Definition setSlot (k : nat * nat) (d : dkind) (s : state) : state :=
  State ((k, d) :: sSlots s) (sPriv s) (sLast s) (sFirst s) (sRed s) (sInd s) (sDeps s) (sGlob s) (sDiag s).
Definition addGlob (n : nat) (s : state) : state :=
  State (sSlots s) (sPriv s) (sLast s) (sFirst s) (sRed s) (sInd s) (sDeps s) (n :: sGlob s) (sDiag s).
Definition addPriv (v : nat) (s : state) : state :=
  State (sSlots s) (v :: sPriv s) (sLast s) (sFirst s) (sRed s) (sInd s) (sDeps s) (sGlob s) (sDiag s).
Definition addLast (v : nat) (s : state) : state :=
  State (sSlots s) (sPriv s) (v :: sLast s) (sFirst s) (sRed s) (sInd s) (sDeps s) (sGlob s) (sDiag s).
Definition addFirst (v : nat) (s : state) : state :=
  State (sSlots s) (sPriv s) (sLast s) (v :: sFirst s) (sRed s) (sInd s) (sDeps s) (sGlob s) (sDiag s).
Definition addRed (k v : nat) (s : state) : state :=
  State (sSlots s) (sPriv s) (sLast s) (sFirst s) ((k, v) :: sRed s) (sInd s) (sDeps s) (sGlob s) (sDiag s).
Definition addInd (v : nat) (s : state) : state :=
  State (sSlots s) (sPriv s) (sLast s) (sFirst s) (sRed s) (v :: sInd s) (sDeps s) (sGlob s) (sDiag s).
Definition addDep (v : nat) (s : state) : state :=
  State (sSlots s) (sPriv s) (sLast s) (sFirst s) (sRed s) (sInd s) (v :: sDeps s) (sGlob s) (sDiag s).
Definition diag (s : state) : state :=
  State (sSlots s) (sPriv s) (sLast s) (sFirst s) (sRed s) (sInd s) (sDeps s) (sGlob s) true.

Definition isIn (x : nat) (l : list nat) : bool := existsb (Nat.eqb x) l.
Definition varOfSearch (s : search) : option nat :=
  match s with
  | SLocal v | SGlobal v | SDerived v _ | SImplicit v => Some v
  | SInvalid | SUseless | SUnknown => None
  end.
(** findDecl, VariableCollector.cpp:91-190: an update of slots *)
Definition findDecl (q : search) (s : state) : state :=
  match q with
  | SLocal v | SGlobal v => setSlot (v, 0) Strong s
  | SDerived v (Some (n, k)) => setSlot (v, n) k s
  | _ => s
  end.

Section Loop.
Variable l : loopInfo.

(** localize, VariableCollector.cpp:224-250: a variable, success, is the variable declared in the loop *)
Definition localize (n : nat) (q : search) (s : state) : state * (option nat * bool * bool) :=
  let s := findDecl q s in
  match varOfSearch q with
  | Some v =>
    if isIn v (lLocals l) then (s, (Some v, true, true))
    else match q with
         | SLocal _ => (s, (Some v, true, false))
         | SGlobal _ => (addGlob n s, (Some v, true, false))
         | _ => (s, (Some v, false, false))
         end
  | None => match q with
            | SUnknown => (s, (None, true, false))
            | _ => (s, (None, false, false))
            end
  end.
(** localize with a list of variables, VariableCollector.cpp:204-222 *)
Definition localizeTo (add : nat -> state -> state) (n : nat) (q : search) (s : state) : state * bool :=
  let '(s, (v, ok, loc)) := localize n q s in
  if negb ok then (s, false)
  else match v with
       | Some v => if loc then (s, true) else (add v s, true)
       | None => (s, true)
       end.
(** localize for all memory in a node, VariableCollector.cpp:192-202, and a diagnostic *)
Fixpoint localizeAll (add : nat -> state -> state) (n : nat) (ts : list memT) (s : state) : state :=
  match ts with
  | [] => s
  | t :: ts => let '(s, ok) := localizeTo add n (mSearch t) s in
               localizeAll add n ts (if ok then s else diag s)
  end.
(** Induction, ASTDependenceAnalysis.cpp:104-155 *)
Fixpoint evalInduction (n : nat) (ts : list memT) (s : state) : state :=
  match ts with
  | [] => s
  | t :: ts =>
    let '(s, (v, ok, _)) := localize n (mSearch t) s in
    let s := match v, lHead l with
             | Some v, Some h => if ok && Nat.eqb h v then addInd v s else diag s
             | _, _ => diag s
             end in
    evalInduction n ts s
  end.
(** Reduction, ASTDependenceAnalysis.cpp:166-214 *)
Definition redKind (t : memT) : nat := match mRed t with Some k => k | None => 0 end.
Definition noAdd (v : nat) (s : state) : state := s.
Fixpoint evalReductionTail (n : nat) (k : nat) (ts : list memT) (s : state) : state :=
  match ts with
  | [] => s
  | t :: ts =>
    let s := if match mRed t with Some k' => Nat.eqb k' k | None => false end
             then let '(s, ok) := localizeTo (if Nat.eqb k 0 then noAdd else addRed k) n (mSearch t) s in if ok then s else diag s
             else diag (findDecl (mSearch t) s) in
    evalReductionTail n k ts s
  end.
Definition evalReduction (n : nat) (ts : list memT) (s : state) : state :=
  match ts with
  | [] => s
  | t :: ts =>
    let k := redKind t in
    let s := if Nat.eqb k 0 then diag (findDecl (mSearch t) s) else s in
    let '(s, ok) := localizeTo (if Nat.eqb k 0 then noAdd else addRed k) n (mSearch t) s in
    evalReductionTail n k ts (if ok then s else diag s)
  end.
(** Flow and anti dependencies, ASTDependenceAnalysis.cpp:215-253: the first memory is searched *)
Definition distOk (o : option bool) : bool := match o with Some k => k | None => true end.
Fixpoint evalDependence (q : search) (ts : list memT) (s : state) : state :=
  match ts with
  | [] => s
  | t :: ts =>
    let s := if distOk (mFlow t) && distOk (mAnti t)
             then let s := findDecl q s in
                  match varOfSearch q with Some v => addDep v s | None => diag s end
             else s in
    evalDependence q ts s
  end.
Definition findAllDecls (ts : list memT) (s : state) : state := fold_left (fun s t => findDecl (mSearch t) s) ts s.
(** A step for a node, ASTDependenceAnalysis.cpp:79-277 *)
Definition evalNode (n : nat) (x : node) (s : state) : state :=
  let d := nDesc x in let ts := nMems x in
  if negb (nCov x) then s
  else if dShared d || dReadonly d then findAllDecls ts s
  else if dInduction d then evalInduction n ts s
  else if dPrivate d then localizeAll addPriv n ts s
  else if dReduction d then evalReduction n ts s
  else if (dAnti d || dFlow d) && negb (dOutput d) then
    match ts with [] => s | t :: _ => evalDependence (mSearch t) ts s end
  else
    let s := if dSecond d then localizeAll addLast n ts s else s in
    if dFirst d then localizeAll addFirst n ts s else s.
Fixpoint evalNodes (n : nat) (xs : list node) (s : state) : state :=
  match xs with [] => s | x :: xs => evalNodes (S n) xs (evalNode n x s) end.

(** DirectSideEffect, ASTDependenceAnalysis.cpp:70-78 *)
Definition sideEffect (x : node) : bool := dDirect (nDesc x) && existsb (fun t => dDirect (mDesc t) && mExec t) (nMems x).
Fixpoint sideEffects (n : nat) (xs : list node) : list nat :=
  match xs with [] => [] | x :: xs => if sideEffect x then n :: sideEffects (S n) xs else sideEffects (S n) xs end.
(** 282-291 *)
Definition globalsOk (s : state) : bool :=
  forallb (fun g => forallb (fun e => negb (lRelated l g e)) (sideEffects 0 (lNodes l))) (sGlob s).
(** 294-312: the last update of each slot *)
Fixpoint slotOf (k : nat * nat) (m : list ((nat * nat) * dkind)) : option dkind :=
  match m with
  | [] => None
  | (k', d) :: m => if Nat.eqb (fst k) (fst k') && Nat.eqb (snd k) (snd k') then Some d else slotOf k m
  end.
Definition refOk (s : state) (r : nat * nat) : bool :=
  isIn (fst r) (lLocals l) ||
  forallb (fun i => match slotOf (fst r, i) (sSlots s) with Some Strong => true | _ => false end) (seq 0 (snd r)).
(** evaluateDependency *)
Definition evaluate : option state :=
  match lHead l with
  | None => None
  | Some _ =>
    let s := evalNodes 0 (lNodes l) state0 in
    if sDiag s || negb (globalsOk s) || negb (forallb (refOk s) (lRefs l)) then None else Some s
  end.
(** Clauses of a new parallel loop: private, lastprivate, firstprivate, reduction, a loop variable *)
Record clauses := Clauses { cPriv : list nat; cLast : list nat; cFirst : list nat; cRed : list (nat * nat); cInd : nat }.
(** exploitParallelism, OpenMPAutoPar.cpp:503-536: std::map of inductions is keyed by a variable.
    The second component lists variables with regular dependencies *)
Definition exploitAny : option (clauses * list nat) :=
  if negb (parallelLoop l) then None
  else match evaluate with
       | Some s => match nodup Nat.eq_dec (sInd s) with
                   | [v] => Some (Clauses (sPriv s) (sLast s) (sFirst s) (sRed s) v, sDeps s)
                   | _ => None
                   end
       | None => None
       end.
(** A loop without regular dependencies *)
Definition exploitLoop : option clauses :=
  match exploitAny with Some (cl, []) => Some cl | _ => None end.
End Loop.
