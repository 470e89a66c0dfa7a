(** Model of the search for loops in canonical form,
    /repo/lib/Analysis/Clang/CanonicalLoop.cpp:
    - coherent, 198-270 (the syntactic check of a head of a for-loop)
    - findLastWrite, findLastCmp, 272-325
    - isLoopInvariantMemory, 333-430
    - checkLoop, 432-585.

    Simplifications.  Instructions and constant expressions are numbered.  Results of
    other analyses are inputs: which accesses are performed by calls, to which node of the
    metadata-level alias tree an accessed location belongs, which nodes are unreachable
    from each other in the alias tree, traits of nodes in loops.  A failed assertion and
    a dereference of a null pointer are an outcome [Crash]; an infinite recursion is visible
    as [NoFuel] for each fuel. *)
From Coq Require Import ZArith List Bool.
Import ListNotations.
Local Open Scope Z_scope.

(** * Syntactic check *)
(** llvm::APSInt: number of bits, signedness, value.  Comparison of numbers with
    different signedness or widths fails (assertions in APSInt::operator>= and APInt). *)
Record apsint := mkAPS { apBits : nat; apSigned : bool; apVal : Z }.
Definition apsSame (a b : apsint) : bool := Nat.eqb (apBits a) (apBits b) && Bool.eqb (apSigned a) (apSigned b).
Definition apsGe (a b : apsint) : option bool := if apsSame a b then Some (apVal b <=? apVal a) else None.
Definition apsLe (a b : apsint) : option bool := if apsSame a b then Some (apVal a <=? apVal b) else None.
(** Operators of a condition accepted by makeLoopMatcher, 683-689 *)
Inductive condOp := CLt | CLe | CAssign | CGe | CGt.
Definition lessCondition (c : condOp) : bool := match c with CLt | CLe => true | _ => false end.
(** Last part of both overloads, 218-227 and 260-269; [None]: a failed assertion *)
Definition coherentCond (Increment : bool) (Start End : option apsint) (c : condOp) (Reversed : bool) : option bool :=
  let less := lessCondition c in
  let final := Some ((Increment && less && negb Reversed) || (Increment && negb less && Reversed)
                     || (negb Increment && negb less && negb Reversed) || (negb Increment && less && Reversed)) in
  match Start, End with
  | Some s, Some e =>
    match (if Increment then apsGe s e else apsLe s e) with
    | None => None
    | Some true => Some false
    | Some false => final
    end
  | _, _ => final
  end.
(** coherent for unary increments, 211-228 *)
Definition coherentUnary (isInc : bool) (Start End : option apsint) (c : condOp) (Reversed : bool) : option bool :=
  coherentCond isInc Start End c Reversed.
(** coherent for binary increments, 243-270: [rhs] and [lhs] are constant operands,
    [isAdd] is set for + and += *)
Definition coherentBinary (isAdd : bool) (lhs rhs : option apsint) (Start End : option apsint) (c : condOp) (Reversed : bool) : option bool :=
  match (match rhs with Some s => Some s | None => lhs end) with
  | None => Some true
  | Some Step =>
    if apVal Step =? 0 then Some false
    else coherentCond (((0 <? apVal Step) && isAdd) || ((apVal Step <? 0) && negb isAdd)) Start End c Reversed
  end.

(** * Semantic check *)
Inductive pred := PEq | PNe | PSlt | PSle | PSgt | PSge | PUlt | PUle | PUgt | PUge.
(** llvm::CmpInst::getInversePredicate *)
Definition inversePredicate (p : pred) : pred :=
  match p with
  | PEq => PNe | PNe => PEq | PSlt => PSge | PSle => PSgt | PSgt => PSle | PSge => PSlt
  | PUlt => PUge | PUle => PUgt | PUgt => PUle | PUge => PUlt
  end.
Definition isSignedPred (p : pred) : bool := match p with PSlt | PSle | PSgt | PSge => true | _ => false end.
Definition isUnsignedPred (p : pred) : bool := match p with PUlt | PUle | PUgt | PUge => true | _ => false end.

Inductive binop := BAdd | BSub | BOther (k : nat).
Inductive opcode :=
| OLoad | OStore | OBin (b : binop) | OCmp (p : pred) | OCast
(** an instruction which computes a value from its operands, getelementptr, select *)
| OPure (k : nat)
| OAlloca | OPhi | OConstExpr | OBranch
| OCall (f : nat).
Inductive value := VUser (id : nat) | VConst (c : Z) | VGlobal (g : nat) | VArg (a : nat).
Definition valueEq (a b : value) : bool :=
  match a, b with
  | VUser x, VUser y => Nat.eqb x y
  | VConst x, VConst y => x =? y
  | VGlobal x, VGlobal y => Nat.eqb x y
  | VArg x, VArg y => Nat.eqb x y
  | _, _ => false
  end.
Record inst := mkInst { iOp : opcode; iArgs : list value }.
(** Arguments of callbacks of for_each_memory,
    /repo/include/tsar/Analysis/Memory/MemoryAccessUtils.h:52-154:
    number of an operand, is it read, is it written *)
Inductive access := ALoc (idx : nat) (r w : bool) | AUnk (r w : bool).
Record ctx := mkCtx {
  cInst : nat -> inst;
  cCall : nat -> list access;
  (** AAResults::onlyReadsMemory *)
  cOnlyReads : nat -> bool;
  (** findFromClient: node of an accessed location (EstimateMemory is mapped to DIMemory) *)
  cDim : nat -> nat -> option nat;
  cDimU : nat -> option nat;
  (** SpanningTreeRelation::isUnreachable *)
  cUnreach : nat -> nat -> bool;
  (** node of the induction variable *)
  cInduct : nat }.
Record loop := mkLoop {
  lBlocks : list nat;
  lCode : nat -> list nat;
  lHeader : nat;
  lLatch : option nat;
  lPreheader : option nat;
  (** traits of nodes in the loop and in its parent, [Some true]: Readonly or NoAccess *)
  lTraits : option (nat -> option bool);
  lParent : option (option (nat -> option bool)) }.
Definition isCall (i : inst) : bool := match iOp i with OCall _ => true | _ => false end.

Section Check.
Variable C : ctx.

(** for_each_memory, MemoryAccessUtils.h:113-152 *)
Definition accesses (id : nat) : list access :=
  match iOp (cInst C id) with
  | OLoad => [ALoc 0 true false]
  | OStore => [ALoc 1 false true]
  | OCall _ => cCall C id
  | _ => []
  end.

(** findLastWrite, 274-312 *)
Definition lastWriteStep (id : nat) (R : bool) (a : access) : bool :=
  match a with
  | ALoc idx _ w =>
    if w then R || match cDim C id idx with None => true | Some n => negb (cUnreach C (cInduct C) n) end else R
  | AUnk _ w =>
    if w then
      if isCall (cInst C id) && cOnlyReads C id
      then true || match cDimU C id with None => true | Some n => negb (cUnreach C (cInduct C) n) end
      else false
    else R
  end.
Definition isLastWrite (id : nat) : bool := fold_left (lastWriteStep id) (accesses id) false.
Definition findLastWrite (BB : list nat) : option nat := find isLastWrite (rev BB).
(** findLastCmp, 315-325 *)
Definition isCmp (id : nat) : bool := match iOp (cInst C id) with OCmp _ => true | _ => false end.
Definition findLastCmp (BB : list nat) : option nat := find isCmp (rev BB).

Record tuple := mkTuple { tRes : bool; tUse : nat; tDef : nat; tExpr : option value; tInst : option nat }.
Inductive invResult := ICrash | INoFuel | ITuple (t : tuple).
(** Lambdas of isLoopInvariantMemory, 354-394: numbers of uses and definitions, InductIdx *)
Inductive accState := AFalse | ACrash | AOk (u d : nat) (idxs : list nat).
Definition unchanged (traits : nat -> option bool) (n : nat) : bool :=
  match traits n with None => true | Some b => b end.
Definition accStep (traits : nat -> option bool) (id : nat) (s : accState) (a : access) : accState :=
  match s with
  | AFalse => AFalse
  | ACrash => ACrash
  | AOk u d idxs =>
    match a with
    | ALoc idx r w =>
      match cDim C id idx with
      | None => AFalse
      | Some n =>
        if negb (cUnreach C n (cInduct C))
        then AOk (if r then S u else u) (if w then S d else d) (if r || w then idx :: idxs else idxs)
        else if unchanged traits n then AOk u d idxs else AFalse
      end
    | AUnk _ _ =>
      if isCall (cInst C id) && cOnlyReads C id
      then match cDimU C id with
           | None => ACrash
           | Some n => if unchanged traits n then AOk u d idxs else AFalse
           end
      else AFalse
    end
  end.
(** One operand, 401-426.  The last component is OpNotAccessInduct.  [id] is the user,
    [k] is the number of the operand, [sub] is a result for the operand if it is a user *)
Inductive opResult := OpCrash | OpNoFuel | OpFalse | OpNext (t : tuple) (notInduct : bool).
Definition opStep (id : nat) (idxs : list nat) (sub : nat -> invResult) (k : nat) (o : value) (t : tuple) (notInduct : bool) : opResult :=
  match o with
  | VUser x =>
    match sub x with
    | ICrash => OpCrash
    | INoFuel => OpNoFuel
    | ITuple T =>
      if tRes T then
        let self := match tExpr T with Some e => valueEq e o | None => false end in
        let t1 := mkTuple true (tUse t + tUse T) (tDef t + tDef T) (tExpr t) (tInst t) in
        let t2 := match tExpr T with
                  | Some e => if negb self then mkTuple true (tUse t1) (tDef t1) (Some e) (tInst T) else t1
                  | None => t1
                  end in
        let t3 := if self && negb (existsb (Nat.eqb k) idxs)
                  then mkTuple true (tUse t2) (tDef t2) (tExpr T) (Some id) else t2 in
        OpNext t3 (notInduct && (Nat.eqb (tUse T) 0 && Nat.eqb (tDef T) 0))
      else OpFalse
    end
  | VConst _ | VGlobal _ =>
    if negb (existsb (Nat.eqb k) idxs)
    then OpNext (mkTuple (tRes t) (tUse t) (tDef t) (Some o) (Some id)) notInduct
    else OpNext t notInduct
  | VArg _ => OpFalse
  end.
Fixpoint opsLoop (id : nat) (idxs : list nat) (sub : nat -> invResult) (k : nat) (os : list value) (t : tuple) (notInduct : bool) : opResult :=
  match os with
  | [] => OpNext t notInduct
  | o :: os' =>
    match opStep id idxs sub k o t notInduct with
    | OpNext t' n' => opsLoop id idxs sub (S k) os' t' n'
    | r => r
    end
  end.
(** isLoopInvariantMemory, 343-430 *)
Fixpoint isLoopInvariantMemory (traits : nat -> option bool) (fuel : nat) (id : nat) : invResult :=
  match fuel with
  | O => INoFuel
  | S fuel =>
    match fold_left (accStep traits id) (accesses id) (AOk 0 0 []) with
    | ACrash => ICrash
    | AFalse => ITuple (mkTuple false 0 0 None None)
    | AOk u d idxs =>
      match opsLoop id idxs (isLoopInvariantMemory traits fuel) 0 (iArgs (cInst C id))
                    (mkTuple true u d None None) true with
      | OpCrash => ICrash
      | OpNoFuel => INoFuel
      | OpFalse => ITuple (mkTuple false u d None None)
      | OpNext t notInduct =>
        ITuple (if notInduct && Nat.eqb u 0 && Nat.eqb d 0
                then mkTuple (tRes t) (tUse t) (tDef t) (Some (VUser id)) (tInst t) else t)
      end
    end
  end.

(** Search for writes to the induction variable, 476-513 *)
Definition writeStep (id : nat) (s : nat * option nat) (a : access) : nat * option nat :=
  match a with
  | ALoc idx _ w =>
    if w then
      match cDim C id idx with
      | None => (S (fst s), snd s)
      | Some n => if negb (cUnreach C (cInduct C) n) then (S (fst s), Some id) else s
      end
    else s
  | AUnk _ w =>
    if w then
      match cDimU C id with
      | None => (S (fst s), snd s)
      | Some n => if negb (cUnreach C (cInduct C) n) then (S (fst s), snd s) else s
      end
    else s
  end.
Definition instWrites (s : nat * option nat) (id : nat) : nat * option nat := fold_left (writeStep id) (accesses id) s.
(** [None]: the loop is not canonical *)
Fixpoint findIncrement (L : loop) (BBs : list nat) (Increment : option nat) : option (option nat) :=
  match BBs with
  | [] => Some Increment
  | BB :: BBs =>
    let s := fold_left instWrites (lCode L BB) (O, Increment) in
    if Nat.eqb (fst s) 0 then findIncrement L BBs (snd s)
    else if negb (match lLatch L with Some l => Nat.eqb l BB | None => false end)
            || match snd s with None => true | Some _ => false end
            || negb (Nat.eqb (fst s) 1)
         then None
         else findIncrement L BBs (snd s)
  end.

(** CanonicalLoopInfo; a step is a value and is it negated *)
Record info := mkInfo {
  rStart : option value; rEnd : option value; rStep : option (value * bool); rPred : option pred;
  rSigned : bool; rUnsigned : bool; rCanonical : bool; rRectangular : bool }.
Inductive outcome := Crash | NoFuel | Info (r : info).

(** checkLoop, 436-585, after a node of the induction variable is found *)
Definition stepOf (t : tuple) : option (option (value * bool)) :=
  match tExpr t with
  | None => Some None
  | Some e =>
    match tInst t with
    | None => None
    | Some x =>
      match iOp (cInst C x) with
      | OBin BAdd => Some (Some (e, false))
      | OBin BSub => Some (Some (e, true))
      | _ => None (** assertion: Unknown step value! *)
      end
    end
  end.
Definition predOf (Condition : nat) (e : option value) : option pred :=
  match e, iOp (cInst C Condition), iArgs (cInst C Condition) with
  | Some e, OCmp p, [x; _] => Some (if valueEq x e then inversePredicate p else p)
  | _, _, _ => None
  end.
Definition resultOf (r : invResult) : option bool := match r with ITuple t => Some (tRes t) | _ => None end.
Definition rectangular (traits : nat -> option bool) (fuel Init Increment Condition : nat) : invResult :=
  match isLoopInvariantMemory traits fuel Init with
  | ITuple t =>
    if tRes t then
      match isLoopInvariantMemory traits fuel Increment with
      | ITuple t' => if tRes t' then isLoopInvariantMemory traits fuel Condition else ITuple t'
      | x => x
      end
    else ITuple t
  | x => x
  end.
Definition checkLoop (fuel : nat) (L : loop) : outcome :=
  match lPreheader L with
  | None => Crash
  | Some PH =>
    match findLastWrite (lCode L PH), findLastCmp (lCode L (lHeader L)) with
    | Some Init, Some Condition =>
      let sgn := match iOp (cInst C Condition) with OCmp p => isSignedPred p | _ => false end in
      let uns := match iOp (cInst C Condition) with OCmp p => isUnsignedPred p | _ => false end in
      match findIncrement L (lBlocks L) None with
      | None => Info (mkInfo None None None None sgn uns false false)
      | Some Increment =>
        match lTraits L with
        | None => Info (mkInfo None None None None sgn uns false false)
        | Some traits =>
          match isLoopInvariantMemory traits fuel Init with
          | ICrash => Crash
          | INoFuel => NoFuel
          | ITuple t1 =>
            if negb (tRes t1) || negb (Nat.eqb (tDef t1) 1) || negb (Nat.eqb (tUse t1) 0)
            then Info (mkInfo None None None None sgn uns false false)
            else
            match Increment with
            | None => Crash
            | Some Incr =>
              match isLoopInvariantMemory traits fuel Incr with
              | ICrash => Crash
              | INoFuel => NoFuel
              | ITuple t2 =>
                if negb (tRes t2) || negb (Nat.eqb (tDef t2) 1) || negb (Nat.leb (tUse t2) 1)
                then Info (mkInfo (tExpr t1) None None None sgn uns false false)
                else
                match stepOf t2 with
                | None => Crash
                | Some step =>
                  match isLoopInvariantMemory traits fuel Condition with
                  | ICrash => Crash
                  | INoFuel => NoFuel
                  | ITuple t3 =>
                    if negb (tRes t3) || negb (Nat.eqb (tDef t3) 0) || negb (Nat.leb (tUse t3) 1)
                    then Info (mkInfo (tExpr t1) None step None sgn uns false false)
                    else
                    let r := mkInfo (tExpr t1) (tExpr t3) step (predOf Condition (tExpr t3)) sgn uns true in
                    match lParent L with
                    | None => Info (r false)
                    | Some None => Info (r false)
                    | Some (Some ptraits) =>
                      match rectangular ptraits fuel Init Incr Condition with
                      | ICrash => Crash
                      | INoFuel => NoFuel
                      | ITuple t => Info (r (tRes t))
                      end
                    end
                  end
                end
              end
            end
          end
        end
      end
    | _, _ => Crash
    end
  end.
End Check.
