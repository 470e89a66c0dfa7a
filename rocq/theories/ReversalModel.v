(** Model of the reversal of for-loops in C sources,
    /repo/lib/Transform/Clang/LoopReversal.cpp:
    - traverseStmt, the choice of loops, 348-381
    - parseIncrement, 462-519
    - parseCondition, 521-560
    - transformLoop, 562-651
    and of the syntactic check of loops, /repo/lib/Analysis/Clang/CanonicalLoop.cpp:
    - coherent, 203-259.

    Simplifications.  Expressions: numbers, variables, binary operations, parentheses and
    an unary minus before parentheses.  Edits of a text are modelled as edits of a syntax
    tree: a concatenation of texts is parsed according to precedences of operations.
    Implicit casts are not modelled: all values have the type of the induction variable.
    getIntegerConstantExpr is an evaluation of an expression without variables.  *)
From Coq Require Import ZArith List Bool Arith.
Import ListNotations.
Local Open Scope Z_scope.

(** ** C expressions *)
Inductive op := OMul | ODiv | OAdd | OSub | OShl | OLt | OGt | OLe | OGe | OEq | OOr.
Definition prec (o : op) : nat :=
  match o with
  | OMul | ODiv => 10 | OAdd | OSub => 9 | OShl => 8
  | OLt | OGt | OLe | OGe => 7 | OEq => 6 | OOr => 3
  end.
Inductive expr :=
| ENum (z : Z)
| EVar (v : nat)
(** the induction variable *)
| EInd
| EBin (o : op) (a b : expr)
| EPar (e : expr)
| ENeg (e : expr).

(** The meaning of the text "x o r", where r is an operand. *)
Fixpoint append (x : expr) (o : op) (r : expr) : expr :=
  match x with
  | EBin p a b => if Nat.ltb (prec p) (prec o) then EBin p a (append b o r) else EBin o x r
  | _ => EBin o x r
  end.
(** The meaning of the text "x o y". *)
Fixpoint join (x : expr) (o : op) (y : expr) {struct y} : expr :=
  match y with
  | EBin p a b => if Nat.leb (prec p) (prec o) then append (join x o a) p b else append x o y
  | _ => append x o y
  end.

(** ** A loop in a program *)
(** ++ or --; += or -=; i = i + e, i = e + i, i = i - e. *)
Inductive incr :=
| IUnary (up : bool)
| IAssignOp (sub : bool) (e : expr)
| ISetAdd (e : expr) | ISetAddRev (e : expr) | ISetSub (e : expr).
(** for (i = fInit; fCond; fInc) *)
Record forLoop := mkFor { fInit : expr; fCond : expr; fInc : incr }.
(** A syntactically canonical loop (makeLoopMatcher, CanonicalLoop.cpp 598-693).  The
    condition is [i cOp cBound] or [cBound cOp i]. *)
Record canonLoop := mkCanon {
  cInit : expr; cOp : op; cRevCond : bool; cBound : expr; cInc : incr }.
Definition toFor (c : canonLoop) : forLoop :=
  mkFor (cInit c)
    (if cRevCond c then EBin (cOp c) (cBound c) EInd else EBin (cOp c) EInd (cBound c)) (cInc c).

(** ** coherent, 203-259 *)
Section Coherent.
(** getIntegerConstantExpr *)
Variable constOf : expr -> option Z.
Definition isLess (o : op) : bool := match o with OLt | OLe => true | _ => false end.
Definition coherentDir (c : canonLoop) (Increment : bool) : bool :=
  let LessCondition := isLess (cOp c) in
  let bad := match constOf (cInit c), constOf (cBound c) with
             | Some Start, Some End => Increment && (End <=? Start) || negb Increment && (Start <=? End)
             | _, _ => false
             end in
  if bad then false
  else Increment && LessCondition && negb (cRevCond c) ||
       Increment && negb LessCondition && cRevCond c ||
       negb Increment && negb LessCondition && negb (cRevCond c) ||
       negb Increment && LessCondition && cRevCond c.
Definition coherent (c : canonLoop) : bool :=
  let binary (isSub : bool) (e : expr) :=
    match constOf e with
    | None => true
    | Some Step =>
      if Step =? 0 then false
      else coherentDir c (((0 <? Step) && negb isSub) || ((Step <? 0) && isSub))
    end in
  match cInc c with
  | IUnary up => coherentDir c up
  | IAssignOp sub e => binary sub e
  | ISetAdd e | ISetAddRev e => binary false e
  | ISetSub e => binary true e
  end.
End Coherent.

(** ** The transformation *)
(** ExprRange, Flags: Sub, Unary *)
Definition incrSub (i : incr) : bool :=
  match i with IUnary up => up | IAssignOp sub _ => negb sub | ISetAdd _ | ISetAddRev _ => true | ISetSub _ => false end.
Definition incrExpr (i : incr) : option expr :=
  match i with IUnary _ => None | IAssignOp _ e | ISetAdd e | ISetAddRev e | ISetSub e => Some e end.
(** 637-642: the new increment *)
Definition newIncr (i : incr) : incr :=
  match i with
  | IUnary up => IUnary (negb up)
  | IAssignOp sub e => IAssignOp (negb sub) e
  | ISetAdd e => ISetAdd (ENeg e)
  | ISetAddRev e => ISetAddRev (ENeg e)
  | ISetSub e => ISetSub (ENeg e)
  end.
(** 521-560: NewOp and the flag Exclude *)
Definition newCond (o : op) : option (op * bool) :=
  match o with
  | OLe => Some (OGe, false)
  | OLt => Some (OGe, true)
  | OGe => Some (OLe, false)
  | OGt => Some (OLe, true)
  | _ => None
  end.
(** "(x)/(Incr)*(Incr)", 616-634 *)
Definition scaled (Incr x : expr) : expr := join (join (EPar x) ODiv (EPar Incr)) OMul (EPar Incr).
(** transformLoop.  Start, Step, End: results of the analysis of the induction variable,
    they are available in the strict mode only. *)
Definition transformLoop (c : canonLoop) (Start Step End : option Z) : option forLoop :=
  match newCond (cOp c) with
  | None => None
  | Some (NewOp, Exclude) =>
    let InitStr := match Start with Some z => ENum z | None => cInit c end in
    let CondStr := cBound c in
    let Sub := incrSub (cInc c) in
    let NewInit :=
      match End, Step with
      | Some e, Some s => ENum (e - s)
      | _, _ =>
        match incrExpr (cInc c) with
        | None =>
          if Exclude then join CondStr (if Sub then OSub else OAdd) (ENum 1) else CondStr
        | Some Incr =>
          if Sub
          then
            join InitStr OAdd (scaled Incr
              (join (if Exclude then join CondStr OSub (ENum 1) else CondStr) OSub (EPar InitStr)))
          else
            join InitStr OSub (scaled Incr
              (join InitStr OSub (EPar (if Exclude then join CondStr OAdd (ENum 1) else CondStr))))
        end
      end in
    let Cond := if cRevCond c then join InitStr NewOp EInd else join EInd NewOp InitStr in
    Some (mkFor NewInit Cond (newIncr (cInc c)))
  end.

(** ** Which loops are transformed, 349-381.  [names], [numbers]: clauses of a
    directive as indexes of loops (an unknown name or number is dropped with a warning). *)
Definition resize (n : nat) (l : list bool) : list bool := firstn n l ++ repeat false (n - length l).
Definition mark (ToTransform : list bool) (LoopIdx : nat) : list bool := resize LoopIdx ToTransform ++ [true].
Definition toTransform (requests : list nat) : list bool := fold_left mark requests [].
