(** Model of the interchange of loops, /repo/lib/Transform/Clang/LoopInterchange.cpp:
    - TraverseForStmt, 216-289 (description of loops in a nest)
    - TraverseStmt, 339-500 (search for induction variables, checks, a new order of headers)
    - isMemoryAccessedIn, 513-603
    and of the search for perfectly nested loops,
    /repo/lib/Analysis/Clang/PerfectLoop.cpp:60-122.

    Simplifications.  For-statements, variables, names and nodes of an alias tree are numbers.
    Results of other analyses are inputs: canonical loops with their bounds, traits of memory
    in a loop, nodes of accessed memory.  A failed assertion and an access outside of a vector
    are an outcome [Crash].  Macros and pragmas are not modelled, diagnostics are ignored. *)
From Coq Require Import ZArith List Bool.
From Verif Require Import CanonModel.
Import ListNotations.

(** * Perfectly nested loops *)
(** [SOther l] is a statement which is not a for-loop and not a compound one,
    [l] is a list of its nested statements *)
Inductive stmt := SFor (f : nat) (body : stmt) | SBlock (l : list stmt) | SOther (l : list stmt).
(** LoopVisitor, PerfectLoop.cpp:63-113: [n] is mNumberOfLoops, [t] is mIsThereStmt, the last
    component is a list of perfect loops *)
Fixpoint visit (s : stmt) (n : nat) (t : bool) {struct s} : nat * bool * list nat :=
  match s with
  | SFor f body =>
    let r := visit body 0 false in
    (S n, t, snd r ++ (if (Nat.eqb (fst (fst r)) 1 && negb (snd (fst r))) || Nat.eqb (fst (fst r)) 0 then [f] else []))
  | SBlock l =>
    (fix visitL (l : list stmt) (n : nat) (t : bool) : nat * bool * list nat :=
       match l with
       | [] => (n, t, [])
       | s :: l => let r := visit s n t in let q := visitL l (fst (fst r)) (snd (fst r)) in (fst q, snd r ++ snd q)
       end) l n t
  | SOther l =>
    (fix visitL (l : list stmt) (n : nat) (t : bool) : nat * bool * list nat :=
       match l with
       | [] => (n, t, [])
       | s :: l => let r := visit s n t in let q := visitL l (fst (fst r)) (snd (fst r)) in (fst q, snd r ++ snd q)
       end) l n true
  end.
(** Perfect loops of a function *)
Definition perfectLoops (s : stmt) : list nat := snd (visit s 0 false).

(** * Description of loops *)
(** For-statements in the order of RecursiveASTVisitor *)
Fixpoint loops (s : stmt) : list nat :=
  match s with
  | SFor f body => f :: loops body
  | SBlock l => flat_map loops l
  | SOther l => flat_map loops l
  end.
(** A trait of a node in a loop: is the node in Coverage, hasNoDep, is_any; [tScalar] is set if
    there is a single location without dereferences in the node: its DIMemory and variable *)
Record trait := mkTrait {
  tNode : nat; tCovered : bool; tNoDep : bool; tPrivate : bool; tReduction : bool; tInduction : bool; tSecond : bool;
  tScalar : option nat }.
(** llvm::SCEV of a step *)
Inductive scev := SCst (z : Z) | SUnknown (v : value) | SAddRec (l : nat) (a b : scev) | SNary (k : nat) (ops : list scev).
(** CanonicalLoopInfo and results of analysis (getDIDepSet) for a for-statement *)
Record forInfo := mkFor {
  fCanonical : bool; fVar : nat; fStart : option value; fEnd : option value; fStep : option scev;
  fDeps : option (list trait) }.
(** An item of LoopNest, 191-194 *)
Record induct := mkInduct {
  iVar : option nat; iDIM : option nat; iFor : nat;
  kNotCanonical : bool; kNotPerfect : bool; kNotAnalyzed : bool; kHasDep : bool; iPriv : list nat }.
(** The loop over traits, 255-287 *)
Fixpoint depLoop (var : nat) (ts : list trait) (d : option nat) (priv : list nat) : option nat * list nat * bool :=
  match ts with
  | [] => (d, priv, false)
  | t :: ts =>
    if negb (tCovered t) || tNoDep t || (tPrivate t || tReduction t) then depLoop var ts d priv
    else
      match (if tInduction t || tSecond t then tScalar t else None) with
      | Some v =>
        if tInduction t
        then if Nat.eqb v var then depLoop var ts (Some (tNode t)) priv else (d, priv, true)
        else depLoop var ts d (priv ++ [v])
      | None => (d, priv, true)
      end
  end.
(** TraverseForStmt, 216-289 *)
Definition entry (info : nat -> forInfo) (perfect : nat -> bool) (strict : bool) (f : nat) : induct :=
  let i := info f in
  if fCanonical i then
    if strict then
      match fDeps i with
      | None => mkInduct (Some (fVar i)) None f false (negb (perfect f)) true false []
      | Some ts =>
        let r := depLoop (fVar i) ts None [] in
        mkInduct (Some (fVar i)) (fst (fst r)) f false (negb (perfect f)) false (snd r) (snd (fst r))
      end
    else mkInduct (Some (fVar i)) None f false (negb (perfect f)) false false []
  else mkInduct None None f true true true false [].

(** * Checks *)
Inductive outcome := Crash | NoFuel | Rejected | Done (headers : list nat).
(** Results of checks: [None] is no fuel *)
Section Check.
Variable C : ctx.
Variable info : nat -> forInfo.
(** isMemoryAccessedIn for a value, 556-603: [d] is the node of the induction variable;
    accesses to unknown memory are ignored (return, 588) *)
Definition accessHit (d id : nat) (r : bool) (a : access) : bool :=
  match a with
  | ALoc idx rd wr =>
    if r then r else if negb rd && negb wr then r
    else match cDim C id idx with None => true | Some n => negb (cUnreach C n d) end
  | AUnk _ _ => r
  end.
Definition isInstruction (id : nat) : bool := match iOp (cInst C id) with OConstExpr => false | _ => true end.
Fixpoint accessedIn (d : nat) (fuel : nat) (v : value) : option bool :=
  match fuel with
  | O => None
  | S fuel =>
    match v with
    | VUser id =>
      if isInstruction id then
        if fold_left (accessHit d id) (accesses C id) false then Some true
        else
          (fix ops (os : list value) : option bool :=
             match os with
             | [] => Some false
             | o :: os =>
               match o with
               | VConst _ | VGlobal _ => ops os
               | _ => match accessedIn d fuel o with None => None | Some true => Some true | Some false => ops os end
               end
             end) (iArgs (cInst C id))
      else Some false
    | _ => Some false
    end
  end.
Definition accessedInO (d fuel : nat) (v : option value) : option bool :=
  match v with None => Some true | Some v => accessedIn d fuel v end.
(** SCEVMemorySearch, 531-549 *)
Fixpoint hasRec (l : nat) (s : scev) : bool :=
  match s with
  | SCst _ | SUnknown _ => false
  | SAddRec l' a b => Nat.eqb l' l || hasRec l a || hasRec l b
  | SNary _ ops => existsb (hasRec l) ops
  end.
Fixpoint unknowns (s : scev) : list value :=
  match s with
  | SCst _ => []
  | SUnknown v => [v]
  | SAddRec _ a b => unknowns a ++ unknowns b
  | SNary _ ops => flat_map unknowns ops
  end.
Fixpoint anyAccessed (d fuel : nat) (vs : list value) : option bool :=
  match vs with
  | [] => Some false
  | v :: vs => match accessedIn d fuel v with None => None | Some true => Some true | Some false => anyAccessed d fuel vs end
  end.
(** isMemoryAccessedIn for a step, 528-554 *)
Definition accessedInStep (d l fuel : nat) (s : option scev) : option bool :=
  match s with
  | None => Some true
  | Some s => if hasRec l s then Some true else anyAccessed d fuel (unknowns s)
  end.
(** || of C++ *)
Definition orElse (a b : option bool) : option bool :=
  match a with None => None | Some true => Some true | Some false => b end.
(** isMemoryAccessedIn for headers, 508-524 *)
Fixpoint accessedInHeaders (d l fuel : nat) (is : list induct) : option bool :=
  match is with
  | [] => Some false
  | i :: is =>
    let f := info (iFor i) in
    orElse (orElse (orElse (accessedInO d fuel (fStart f)) (accessedInO d fuel (fEnd f))) (accessedInStep d l fuel (fStep f)))
           (accessedInHeaders d l fuel is)
  end.
(** checkPrivatizable, 402-410 *)
Definition isVar (v : nat) (i : induct) : bool := match iVar i with Some u => Nat.eqb u v | None => false end.
Definition checkPrivatizable (vs : list nat) (is : list induct) : bool := forallb (fun v => existsb (isVar v) is) vs.
(** checkLoop, 401-450 *)
Inductive verdict := VCrash | VNoFuel | VOk (b : bool).
Definition checkLoop (strict : bool) (fuel : nat) (inds : list induct) (I MaxIdx : nat) : verdict :=
  match nth_error inds I with
  | None => VCrash
  | Some i =>
    if kNotCanonical i then VOk false
    else if kHasDep i then VOk false
    else if negb strict then VOk true
    else if kNotAnalyzed i then VOk false
    else if negb (checkPrivatizable (iPriv i) (skipn (S I) inds)) then VOk false
    else
      match iDIM i with
      | None => VCrash (** assertion *)
      | Some d =>
        match accessedInHeaders d (iFor i) fuel (firstn (MaxIdx - I) (skipn (S I) inds)) with
        | None => VNoFuel
        | Some b => VOk (negb b)
        end
      end
  end.
(** 451-466: loops from I to MaxIdx, all of them are checked *)
Fixpoint checkAll (strict : bool) (fuel : nat) (inds : list induct) (n I MaxIdx : nat) (possible : bool) : verdict :=
  match n with
  | O => match checkLoop strict fuel inds I MaxIdx with VOk b => VOk (possible && b) | v => v end
  | S n =>
    match nth_error inds I with
    | None => VCrash
    | Some i =>
      if kNotPerfect i then checkAll strict fuel inds n (S I) MaxIdx false
      else match checkLoop strict fuel inds I MaxIdx with
           | VOk b => checkAll strict fuel inds n (S I) MaxIdx (possible && b)
           | v => v
           end
    end
  end.

(** * New order *)
(** Position of the first item, std::find *)
Fixpoint position {A} (p : A -> bool) (l : list A) : option nat :=
  match l with
  | [] => None
  | x :: l => if p x then Some O else option_map S (position p l)
  end.
(** Names from clauses, 375-399 *)
Fixpoint matchSwaps (name : nat -> nat) (inds : list induct) (swaps : list nat) (vals : list nat) (MaxIdx : nat) : option (list nat * nat) :=
  match swaps with
  | [] => Some (vals, MaxIdx)
  | s :: swaps =>
    match position (fun i => match iVar i with Some v => Nat.eqb (name v) s | None => false end) inds with
    | None => None
    | Some idx =>
      match nth_error inds idx with
      | Some i => match iVar i with
                  | Some v => matchSwaps name inds swaps (vals ++ [v]) (Nat.max idx MaxIdx)
                  | None => None
                  end
      | None => None
      end
    end
  end.
Definition isSome (v : nat) (o : option nat) : bool := match o with Some u => Nat.eqb u v | None => false end.
Fixpoint setNth {A} (l : list A) (k : nat) (x : A) : list A :=
  match l, k with
  | [], _ => []
  | _ :: l, O => x :: l
  | y :: l, S k => y :: setNth l k x
  end.
(** std::swap of two items *)
Definition swapItems {A} (l : list A) (i j : nat) : option (list A) :=
  match nth_error l i, nth_error l j with
  | Some x, Some y => Some (setNth (setNth l i y) j x)
  | _, _ => None
  end.
(** 473-480, [None]: a failed assertion or an access outside of ValueSwaps *)
Fixpoint newOrder (vals : list nat) (order : list (option nat)) : option (list (option nat)) :=
  match vals with
  | [] => Some order
  | [_] => None
  | a :: b :: vals =>
    match position (isSome a) order, position (isSome b) order with
    | Some i, Some j => match swapItems order i j with Some order' => newOrder vals order' | None => None end
    | _, _ => None
    end
  end.
Definition optEq (a b : option nat) : bool :=
  match a, b with Some x, Some y => Nat.eqb x y | None, None => true | _, _ => false end.
(** 488-513: for each loop, which loop its header is taken from *)
Fixpoint headersOf (inds : list induct) (order : list (option nat)) (I : nat) : option (list nat) :=
  match order with
  | [] => Some []
  | o :: order =>
    match headersOf inds order (S I), nth_error inds I with
    | Some hs, Some i =>
      if optEq o (iVar i) then Some (iFor i :: hs)
      else match position (fun j => optEq (iVar j) o) inds with
           | Some k => match nth_error inds k with Some j => Some (iFor j :: hs) | None => None end
           | None => None
           end
    | _, _ => None
    end
  end.
(** Literals of clauses are names of variables, a literal which is equal to the name of the
    clause is skipped, 154-158 *)
Definition literals (keyword : nat) (names : list nat) : list nat := filter (fun s => negb (Nat.eqb s keyword)) names.
(** TraverseStmt for a for-loop with a clause, 370-516 *)
Definition interchange (perfect : nat -> bool) (name : nat -> nat) (keyword : nat) (strict : bool) (fuel : nat) (names : list nat) (s : stmt) : outcome :=
  let inds := map (entry info perfect strict) (loops s) in
  match matchSwaps name inds (literals keyword names) [] 0 with
  | None => Rejected
  | Some (vals, MaxIdx) =>
    match checkAll strict fuel inds MaxIdx 0 MaxIdx true with
    | VCrash => Crash
    | VNoFuel => NoFuel
    | VOk false => Rejected
    | VOk true =>
      match newOrder vals (map iVar (firstn (S MaxIdx) inds)) with
      | None => Crash
      | Some order =>
        match headersOf inds order 0 with
        | None => Crash
        | Some hs => Done hs
        end
      end
    end
  end.
End Check.
