(** Model of division of symbolic expressions (SCEVs), of their simplification to
    recurrences and of search of a common divisor, /repo/lib/Support/SCEVUtils.cpp.

    Expressions are built by llvm::ScalarEvolution, which is not modelled: it is a
    record [SE] of functions and theorems state what is required from them.  LLVM makes
    expressions unique, hence equality of pointers is structural equality here. *)
From Coq Require Import ZArith List Bool Lia.
Import ListNotations.
Local Open Scope Z_scope.

(** SCEVCastExpr *)
Inductive castKind := CTrunc | CZExt | CSExt | CPtrToInt.
Definition castKindEq (a b : castKind) : bool :=
  match a, b with
  | CTrunc, CTrunc | CZExt, CZExt | CSExt, CSExt | CPtrToInt, CPtrToInt => true
  | _, _ => false
  end.
(** llvm::SCEV.  Types are numbers.  [Opq] is a udiv, a minimum, a maximum.
    No-wrap flags are not modelled. *)
Inductive sc :=
| Cst (t : nat) (z : Z)
| Unk (v : nat)
| Add (l : list sc)
| Mul (l : list sc)
| Rec (l : list sc) (L : nat)
| Cast (k : castKind) (t : nat) (x : sc)
| Opq (k : nat) (l : list sc)
| CNC.

Fixpoint sceq (a b : sc) {struct a} : bool :=
  let fix eqs (l m : list sc) {struct l} : bool :=
    match l, m with
    | [], [] => true
    | x :: l, y :: m => sceq x y && eqs l m
    | _, _ => false
    end in
  match a, b with
  | Cst t z, Cst t' z' => Nat.eqb t t' && Z.eqb z z'
  | Unk v, Unk w => Nat.eqb v w
  | Add l, Add m => eqs l m
  | Mul l, Mul m => eqs l m
  | Rec l L, Rec m L' => eqs l m && Nat.eqb L L'
  | Cast k t x, Cast k' t' y => castKindEq k k' && Nat.eqb t t' && sceq x y
  | Opq k l, Opq k' m => Nat.eqb k k' && eqs l m
  | CNC, CNC => true
  | _, _ => false
  end.
(** SCEV::isZero, SCEV::isOne *)
Definition isZero (s : sc) : bool := match s with Cst _ z => Z.eqb z 0 | _ => false end.
Definition isOne (s : sc) : bool := match s with Cst _ z => Z.eqb z 1 | _ => false end.

(** llvm::ScalarEvolution *)
Record SE := mkSE {
  ty : sc -> nat;                       (* SCEV::getType *)
  bits : nat -> Z;                      (* getTypeSizeInBits *)
  seAdd : list sc -> sc;                (* getAddExpr *)
  seMul : list sc -> sc;                (* getMulExpr *)
  seRec : list sc -> nat -> sc;         (* getAddRecExpr *)
  seMinus : sc -> sc -> sc;             (* getMinusSCEV *)
  seCast : castKind -> sc -> nat -> sc; (* getTruncateExpr, getZeroExtendExpr, getSignExtendExpr *)
  rewrite_ : sc -> nat -> sc -> sc;     (* SCEVParameterRewriter::rewrite for one parameter *)
  sizeOf : sc -> Z;                     (* sizeOfSCEV, 37-56 *)
  invariant : sc -> nat -> bool         (* isLoopInvariant *)
}.

Inductive out (A : Type) := Ok (a : A) | Undef | Fuel.
Arguments Ok {A}.
Arguments Undef {A}.
Arguments Fuel {A}.
Definition bind {A B} (o : out A) (f : A -> out B) : out B :=
  match o with Ok a => f a | Undef => Undef | Fuel => Fuel end.

(** SCEVDivisionResult, SCEVUtils.h 35-39.  [rOk] is a ghost: it is false if the result
    depends on one of the returns at lines 272, 275, 280, 283, which leave a rewritten
    numerator in Res.Remainder or take the numerator for D = 1 as the quotient. *)
Record res := mkRes { rQ : sc; rR : sc; rSafe : bool; rOk : bool }.

Section D.
Variable E : SE.
(** getStepRecurrence *)
Definition stepOf (l : list sc) (L : nat) : sc :=
  match l with
  | [] => CNC
  | [_; b] => b
  | _ :: rest => seRec E rest L
  end.
(** stripCastIfNot, 423-429; lines 448-452 *)
Fixpoint strip (s : sc) : sc := match s with Cast _ _ x => strip x | _ => s end.
Definition stripCastIfNot (s : sc) (safe : bool) : sc := if safe then s else strip s.

Definition sameTy (a b : sc) : bool := Nat.eqb (ty E a) (ty E b).
Definition zeroOf (D : sc) : sc := Cst (ty E D) 0.
Definition oneOf (D : sc) : sc := Cst (ty E D) 1.
(** cannotDivide, 303-307 *)
Definition cannotDivide (N D : sc) : res := mkRes (zeroOf D) N true true.
(** isCannotDivide, 309-312 *)
Definition isCannotDivide (N D : sc) (r : res) : bool :=
  sceq (rQ r) (zeroOf D) && sceq (rR r) N && rSafe r.
(** The width of constants of visitConstant, 127-130 *)
Definition wideTy (t t' : nat) : nat := if bits E t <? bits E t' then t' else t.

Section Visit.
(** [div N]: the recursive call divide(SE, N, Denominator, IsSafeTypeCast) *)
Variable div : sc -> out res.
Variable safe : bool.
Variable D : sc.

(** visitConstant, 120-138.  Division by zero is an assertion of APInt. *)
Definition visitConstant (t : nat) (z : Z) : out res :=
  match D with
  | Cst t' d => if Z.eqb d 0 then Undef
                else Ok (mkRes (Cst (wideTy t t') (Z.quot z d)) (Cst (wideTy t t') (Z.rem z d)) true true)
  | _ => Ok (cannotDivide (Cst t z) D)
  end.

(** visitAddRecExpr, 140-163 *)
Definition visitAddRecExpr (l : list sc) (L : nat) : out res :=
  match l with
  | [Start; Step] =>
    bind (div Start) (fun StartRes =>
    bind (div Step) (fun StepRes =>
    if negb (sameTy (rQ StartRes) (rQ StepRes)) || negb (sameTy (rR StartRes) (rR StepRes))
    then Ok (cannotDivide (Rec l L) D)
    else if safe && (negb (sameTy D (rQ StartRes)) || negb (sameTy D (rR StartRes)))
    then Ok (cannotDivide (Rec l L) D)
    else Ok (mkRes (seRec E [rQ StartRes; rQ StepRes] L) (seRec E [rR StartRes; rR StepRes] L)
               (rSafe StartRes && rSafe StepRes) (rOk StartRes && rOk StepRes))))
  | _ => Ok (cannotDivide (Rec l L) D)
  end.

(** visitAddExpr, 165-203.  [Qs], [Rs] are the pushed expressions, IsSafeTC is
    accumulated.  An expression without operands does not exist: [Undef]. *)
Fixpoint addLoop (N : sc) (Ops Qs Rs : list sc) (IsSafeTC ok : bool) : out res :=
  match Ops with
  | [] => match Qs, Rs with
          | [], _ | _, [] => Undef
          | [q], [r] => Ok (mkRes q r IsSafeTC ok)
          | _, _ => Ok (mkRes (seAdd E Qs) (seAdd E Rs) IsSafeTC ok)
          end
  | Op :: Ops =>
    bind (div Op) (fun Tmp =>
    let mismatch := negb (sameTy D (rQ Tmp)) || negb (sameTy D (rR Tmp)) in
    if mismatch && safe then Ok (cannotDivide N D)
    else
      let IsSafeTC := IsSafeTC && rSafe Tmp && negb mismatch in
      let differ := match Qs, Rs with
                    | q :: _, r :: _ => negb (sameTy q (rQ Tmp)) || negb (sameTy r (rR Tmp))
                    | _, _ => false
                    end in
      if differ then Ok (cannotDivide N D)
      else addLoop N Ops (Qs ++ [rQ Tmp]) (Rs ++ [rR Tmp]) IsSafeTC (ok && rOk Tmp))
  end.

(** visitMulExpr, 205-250: the loop over factors.  The result is [None] if the division
    is given up, otherwise FoundDenominatorTerm, IsSafeTC and Qs. *)
Fixpoint mulLoop (Ops Qs : list sc) (Found IsSafeTC ok : bool) : out (option (bool * bool * bool * list sc)) :=
  match Ops with
  | [] => Ok (Some (Found, IsSafeTC, ok, Qs))
  | Op :: Ops =>
    let push (q : sc) (Found IsSafeTC ok : bool) :=
      let differ := match Qs with q0 :: _ => negb (sameTy q0 q) | [] => false end in
      if differ then Ok None else mulLoop Ops (Qs ++ [q]) Found IsSafeTC ok in
    let mismatch := negb (sameTy D Op) in
    if mismatch && safe then Ok None
    else
      let IsSafeTC := IsSafeTC && negb mismatch in
      if Found then push Op Found IsSafeTC ok
      else
        bind (div Op) (fun Tmp =>
        if negb (isZero (rR Tmp)) then push Op Found IsSafeTC ok
        else
          let mismatchQ := negb (sameTy D (rQ Tmp)) in
          if mismatchQ && safe then Ok None
          else push (rQ Tmp) true (IsSafeTC && negb mismatchQ) (ok && rOk Tmp))
  end.

(** visitMulExpr, 251-286 *)
Definition visitMulExpr (Ops : list sc) : out res :=
  let N := Mul Ops in
  bind (mulLoop Ops [] false true true) (fun m =>
  match m with
  | None => Ok (cannotDivide N D)
  | Some (true, IsSafeTC, ok, Qs) =>
    Ok (mkRes (match Qs with [q] => q | _ => seMul E Qs end) (zeroOf D) IsSafeTC ok)
  | Some (false, _, _, _) =>
    match D with
    | Unk v =>
      let Remainder := rewrite_ E N v (zeroOf D) in
      if isZero Remainder then Ok (mkRes (rewrite_ E N v (oneOf D)) Remainder true false)
      else
        let lost := mkRes (zeroOf D) Remainder true false in
        if negb (sameTy N Remainder) then Ok lost
        else
          let Diff := seMinus E N Remainder in
          if sizeOf E N <? sizeOf E Diff then Ok lost
          else
            bind (div Diff) (fun Tmp =>
            if negb (sceq (rR Tmp) (zeroOf D)) then Ok lost
            else Ok (mkRes (rQ Tmp) Remainder (rSafe Tmp) (rOk Tmp)))
    | _ => Ok (cannotDivide N D)
    end
  end).

(** visitTruncateExpr, visitZeroExtendExpr, visitSignExtendExpr, 73-118 *)
Definition visitCast (k : castKind) (t : nat) (x : sc) : out res :=
  let N := Cast k t x in
  match k with
  | CPtrToInt => Ok (cannotDivide N D)
  | _ =>
    if safe then Ok (cannotDivide N D)
    else
      bind (div x) (fun Tmp =>
      if isCannotDivide x D Tmp then Ok (cannotDivide N D)
      else
        let conv (s : sc) :=
          match k with
          | CTrunc => if bits E t <? bits E (ty E s) then seCast E k s t else s
          | _ => if bits E (ty E s) <? bits E t then seCast E k s t else s
          end in
        Ok (mkRes (conv (rQ Tmp)) (conv (rR Tmp)) false (rOk Tmp)))
  end.

Definition visitDiv (N : sc) : out res :=
  match N with
  | Cst t z => visitConstant t z
  | Rec l L => visitAddRecExpr l L
  | Add l => addLoop N l [] [] true true
  | Mul l => visitMulExpr l
  | Cast k t x => visitCast k t x
  | Unk _ | Opq _ _ | CNC => Ok (cannotDivide N D)
  end.
End Visit.

(** 454-468: division by factors of the denominator, in order; [None] if one of the
    remainders is not zero *)
Fixpoint factorLoop (div : sc -> sc -> out res) (Ops : list sc) (Q : sc) (safeTC ok : bool)
  : out (option (sc * bool * bool)) :=
  match Ops with
  | [] => Ok (Some (Q, safeTC, ok))
  | Op :: Ops =>
    bind (div Q Op) (fun Tmp =>
    if negb (isZero (rR Tmp)) then Ok None
    else factorLoop div Ops (rQ Tmp) (safeTC && rSafe Tmp) (ok && rOk Tmp))
  end.

(** divide, 433-473.  The constructor of SCEVDivision stores the denominator before its
    casts are stripped (436), and IsSafeDominatorCast is always true (447-449). *)
Fixpoint divide (fuel : nat) (safe : bool) (N D : sc) {struct fuel} : out res :=
  match fuel with
  | O => Fuel
  | S fuel =>
    if sceq N D then Ok (mkRes (oneOf D) (zeroOf D) true true)
    else if isZero N then Ok (mkRes (zeroOf D) (zeroOf D) true true)
    else if isOne D then Ok (mkRes N (zeroOf D) true true)
    else
      match stripCastIfNot D safe with
      | Mul Ops =>
        bind (factorLoop (fun N D => divide fuel safe N D) Ops N true true) (fun m =>
        match m with
        | None => Ok (cannotDivide N D)
        | Some (Q, safeTC, ok) => Ok (mkRes Q (zeroOf D) safeTC ok)
        end)
      | _ => visitDiv (fun N => divide fuel safe N D) safe D N
      end
  end.

(** ** SCEVBionmialSearch, 324-420 *)
Record search := mkS { sCoef : option sc; sFree : option sc; sL : option nat; sSafe : bool }.
Definition search0 : search := mkS None None None true.
Definition orCNC (o : option sc) : sc := match o with Some s => s | None => CNC end.

Fixpoint visitS (s : sc) (st : search) {struct s} : search :=
  (* the loops 370-375 and 393-398: the rest of operands and the state after a
     recurrence is found *)
  let fix ops (l before : list sc) (st : search) {struct l} : list sc * search :=
    match l with
    | [] => (before, st)
    | x :: l =>
      let st := visitS x st in
      match sL st with
      | Some _ => (before ++ l, st)
      | None => ops l (before ++ [x]) st
      end
    end in
  match s with
  | Rec l L => mkS (Some (stepOf l L)) (Some (hd CNC l)) (Some L) (sSafe st)
  | Mul l =>
    let '(others, st) := ops l [] st in
    match sL st with
    | Some _ => mkS (Some (seMul E (others ++ [orCNC (sCoef st)])))
                    (Some (seMul E (others ++ [orCNC (sFree st)]))) (sL st) (sSafe st)
    | None => mkS (sCoef st) (Some s) (sL st) (sSafe st)
    end
  | Add l =>
    let '(others, st) := ops l [] st in
    match sL st with
    | Some _ => mkS (sCoef st) (Some (seAdd E (others ++ [orCNC (sFree st)]))) (sL st) (sSafe st)
    | None => mkS (sCoef st) (Some s) (sL st) (sSafe st)
    end
  | Cast CPtrToInt _ _ => mkS (sCoef st) (Some s) (sL st) (sSafe st)
  | Cast k t x =>
    let st := visitS x (mkS (sCoef st) (sFree st) (sL st) false) in
    mkS (option_map (fun c => seCast E k c t) (sCoef st))
        (option_map (fun c => seCast E k c t) (sFree st)) (sL st) (sSafe st)
  | Cst _ _ | Unk _ | Opq _ _ | CNC => mkS (sCoef st) (Some s) (sL st) (sSafe st)
  end.

(** computeSCEVAddRec, 475-487 *)
Definition computeSCEVAddRec (Expr : sc) : sc * bool :=
  let st := visitS Expr search0 in
  match sL st with
  | Some L =>
    if invariant E (orCNC (sCoef st)) L && invariant E (orCNC (sFree st)) L
    then (seRec E [orCNC (sFree st); orCNC (sCoef st)] L, sSafe st)
    else (Expr, true)
  | None => (Expr, true)
  end.

(** ** findGCD, 489-560 *)
(** 494-507.  The result of stripCastIfNot at line 496 is not used. *)
Definition termsOf (safe : bool) (S_ : sc) : list sc :=
  let '(e, s) := computeSCEVAddRec S_ in
  match e with
  | Rec l L => if s || negb safe then [hd CNC l; stepOf l L] else [S_]
  | _ => [S_]
  end.
(** 545-551: for one term [T] *)
Fixpoint keepDividers (fuel : nat) (safe : bool) (T : sc) (Ds : list sc) (ok : bool) : out (list sc * bool) :=
  match Ds with
  | [] => Ok ([], ok)
  | D :: Ds =>
    bind (divide fuel safe T D) (fun Div =>
    if negb (isZero (rR Div)) then keepDividers fuel safe T Ds ok
    else bind (keepDividers fuel safe (rQ Div) Ds (ok && rOk Div)) (fun r =>
         let '(New, ok) := r in Ok (D :: New, ok)))
  end.
(** 542-556 *)
Fixpoint gcdLoop (fuel : nat) (safe : bool) (Terms Dividers : list sc) (ok : bool) : out (option (list sc) * bool) :=
  match Terms with
  | [] => Ok (Some Dividers, ok)
  | T :: Terms =>
    bind (keepDividers fuel safe T Dividers ok) (fun r =>
    let '(New, ok) := r in
    match New with
    | [] => Ok (None, ok)
    | _ => gcdLoop fuel safe Terms New ok
    end)
  end.
(** [order]: the sorting by addresses, the removal of duplicates and the sorting by
    sizes, 509-524.  The result is a pair of the divisor and of the ghost. *)
Definition findGCD (order : list sc -> list sc) (fuel : nat) (safe : bool) (Expressions : list sc) : out (sc * bool) :=
  match order (filter (fun s => negb (isZero s)) (flat_map (termsOf safe) Expressions)) with
  | [] => Ok (CNC, true)
  | [T] => Ok (if isZero T then CNC else T, true)
  | T :: Terms =>
    let Dividers := match stripCastIfNot T safe with Mul Ops => Ops | _ => [T] end in
    bind (gcdLoop fuel safe Terms Dividers true) (fun r =>
    let '(Ds, ok) := r in
    match Ds with
    | None => Ok (CNC, ok)
    | Some [d] => Ok (d, ok)
    | Some Ds => Ok (seMul E Ds, ok)
    end)
  end.
End D.
