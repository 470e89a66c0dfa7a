(** Model of dependence tests for several loops of
    /repo/lib/Analysis/Memory/DependenceAnalysis.cpp: nesting levels, the GCD
    test, the Banerjee test, constraints.  Conventions: DepModel.v.

    A subscript is a chain of add-recurrences {{start,+,a}<L1>,+,b}<L2>; loops
    are numbers. *)
From Coq Require Import ZArith Bool List Arith Lia.
From Verif Require Import DepModel.
Import ListNotations.
Local Open Scope Z_scope.

Definition loop := nat.

(** ** Nesting levels *)

(** A nest: loops which contain an instruction, the innermost one is the first
    (LoopInfo::getLoopFor, Loop::getParentLoop). *)
(** DependenceAnalysis.cpp 797-809: the loops of establishNestingLevels, [n] is
    SrcLevel of the last loop.  getParentLoop() of null is [None]. *)
Fixpoint sameLoop (s d : list loop) (n : nat) : option nat :=
  match s, d with
  | [], [] => Some n
  | a :: s', b :: d' => if Nat.eqb a b then Some n else sameLoop s' d' (n - 1)%nat
  | _, _ => None
  end.
(** DependenceAnalysis.cpp 786-812, establishNestingLevels: CommonLevels,
    SrcLevels, MaxLevels. *)
Record levels := mkLevels { CommonLevels : nat; SrcLevels : nat; MaxLevels : nat }.
Definition establishNestingLevels (srcNest dstNest : list loop) : option levels :=
  let SrcLevel := length srcNest in
  let DstLevel := length dstNest in
  let s := skipn (SrcLevel - DstLevel) srcNest in
  let d := skipn (DstLevel - SrcLevel) dstNest in
  match sameLoop s d (Nat.min SrcLevel DstLevel) with
  | None => None
  | Some c => Some (mkLevels c SrcLevel (SrcLevel + DstLevel - c)%nat)
  end.
(** Loop::getLoopDepth for a loop of the nest *)
Fixpoint depthIn (nest : list loop) (L : loop) : option nat :=
  match nest with
  | [] => None
  | a :: nest' => if Nat.eqb a L then Some (length nest) else depthIn nest' L
  end.
(** DependenceAnalysis.cpp 816-831, mapSrcLoop and mapDstLoop; [None] is a loop
    outside of the nest. *)
Definition mapSrcLoop (srcNest : list loop) (L : loop) : option nat := depthIn srcNest L.
Definition mapDstLoop (lv : levels) (dstNest : list loop) (L : loop) : option nat :=
  match depthIn dstNest L with
  | None => None
  | Some D => Some (if Nat.ltb (CommonLevels lv) D then (D - CommonLevels lv + SrcLevels lv)%nat else D)
  end.

Section MIV.
Variable Env : Type.
Notation scev := (scev Env).
Variable Or : oracle Env.
(** Further queries to expressions: the first constant factor (2437-2445,
    getConstantPart), operands of a SCEVAddExpr, isa<SCEVMulExpr>, and
    SE->isLoopInvariant(AddRec, TargetLoop) in addToCoefficient. *)
Record miv := mkMiv {
  seConstPart : scev -> option Z;
  seSum : scev -> option (list scev);
  seIsMul : scev -> bool;
  seInvariantIn : list (loop * scev) -> scev -> loop -> bool }.
Variable Q : miv.

(** A chain of add-recurrences: loops and steps, the outermost recurrence of the
    expression first. *)
Record expr := mkExpr { eRecs : list (loop * scev); eStart : scev }.

(** ** GCD test *)

(** DependenceAnalysis.cpp 2478-2489 and 2497-2508.  [None]: a coefficient without
    a constant part (return false).  Absolute values and GCDs are exact in
    unsigned APInt. *)
Fixpoint coeffGCD (recs : list (loop * scev)) (RunningGCD : Z) : option Z :=
  match recs with
  | [] => Some RunningGCD
  | (_, Coeff) :: recs =>
    match seConstPart Q Coeff with
    | None => None
    | Some c => coeffGCD recs (Z.gcd RunningGCD (Z.abs c))
    end
  end.
(** DependenceAnalysis.cpp 2516-2537: operands of the sum.  The outer [None] is the
    violated assertion of line 2521, the inner one is return false. *)
Fixpoint sumGCD (ops : list scev) (Constant : option Z) (ExtraGCD : Z)
    : option (option (option Z * Z)) :=
  match ops with
  | [] => Some (Some (Constant, ExtraGCD))
  | op :: ops =>
    match seConst _ Or op with
    | Some c => match Constant with
                | Some _ => None
                | None => sumGCD ops (Some c) ExtraGCD
                end
    | None =>
      if seIsMul Q op then
        match seConstPart Q op with
        | None => Some None
        | Some c => sumGCD ops Constant (Z.gcd ExtraGCD (Z.abs c))
        end
      else Some None
    end
  end.
(** DependenceAnalysis.cpp 2575-2591 and 2592-2608: the running GCD and the
    coefficient of CurLoop. *)
Fixpoint innerGCD (recs : list (loop * scev)) (CurLoop : loop) (RunningGCD : Z)
    (Coeff : scev) : option (Z * scev) :=
  match recs with
  | [] => Some (RunningGCD, Coeff)
  | (L, C) :: recs =>
    if RunningGCD =? 1 then Some (RunningGCD, Coeff)
    else if Nat.eqb CurLoop L then innerGCD recs CurLoop RunningGCD C
    else match seConstPart Q C with
         | None => None
         | Some c => innerGCD recs CurLoop (Z.gcd RunningGCD (Z.abs c)) Coeff
         end
  end.
Definition dropEQ (d : dirs) : dirs := dand d dNE.
Definition setLevel {A} (dv : nat -> A) (K : nat) (v : A) : nat -> A :=
  fun J => if Nat.eqb J K then v else dv J.
(** DependenceAnalysis.cpp 2567-2638: [recs] are the recurrences of Src which are not
    visited yet.  [inCommon]: CurLoop contains both instructions (2629-2631).
    A loop of Src outside of the nest of Src has no level: such a loop is not
    in both nests, so mapSrcLoop is not called for it. *)
Fixpoint dropEqual (srcNest dstNest : list loop) (Src Dst : expr) (ConstDelta ExtraGCD : Z)
    (recs : list (loop * scev)) (dv : nat -> dirs) : nat -> dirs :=
  match recs with
  | [] => dv
  | (CurLoop, SrcCoeff) :: recs =>
    match innerGCD (eRecs Src) CurLoop ExtraGCD SrcCoeff with
    | None => dv
    | Some (g1, _) =>
      match innerGCD (eRecs Dst) CurLoop g1 (scSub _ SrcCoeff SrcCoeff) with
      | None => dv
      | Some (g2, DstCoeff) =>
        let dv' :=
          match seConstPart Q (scSub _ SrcCoeff DstCoeff) with
          | None => dv
          | Some c =>
            let g := Z.gcd g2 (Z.abs c) in
            if g =? 0 then dv
            else if Z.rem ConstDelta g =? 0 then dv
            else match depthIn srcNest CurLoop, depthIn dstNest CurLoop with
                 | Some Level, Some _ => setLevel dv Level (dropEQ (dv Level))
                 | _, _ => dv
                 end
          end in
        dropEqual srcNest dstNest Src Dst ConstDelta ExtraGCD recs dv'
      end
    end
  end.
(** DependenceAnalysis.cpp 2466-2643, gcdMIVtest.  [None]: violated assertion or
    division by zero (line 2546).  Otherwise: is the dependence disproved, and
    directions of levels. *)
Definition gcdMIVtest (srcNest dstNest : list loop) (Src Dst : expr) (dv : nat -> dirs)
    : option (bool * (nat -> dirs)) :=
  match coeffGCD (eRecs Src) 0 with
  | None => Some (false, dv)
  | Some g0 =>
    match coeffGCD (eRecs Dst) g0 with
    | None => Some (false, dv)
    | Some RunningGCD =>
      if negb (seEnclosing _ Or (eStart Src) (eStart Dst)) then Some (false, dv)
      else
        let Delta := scSub _ (eStart Dst) (eStart Src) in
        let Constant := seConst _ Or Delta in
        match (match seSum Q Delta with
               | Some ops => sumGCD ops Constant 0
               | None => Some (Some (Constant, 0))
               end) with
        | None => None
        | Some None => Some (false, dv)
        | Some (Some (None, _)) => Some (false, dv)
        | Some (Some (Some ConstDelta, ExtraGCD)) =>
          if ConstDelta =? 0 then Some (false, dv)
          else
            let g := Z.gcd RunningGCD ExtraGCD in
            if g =? 0 then None
            else if negb (Z.rem ConstDelta g =? 0) then Some (true, dv)
            else Some (false, dropEqual srcNest dstNest Src Dst ConstDelta ExtraGCD (eRecs Src) dv)
        end
    end
  end.

(** ** Banerjee test *)

(** CoefficientInfo, DependenceAnalysis.h 402-407 *)
Record coeffInfo := mkCI { ciCoeff : scev; ciPos : scev; ciNeg : scev; ciIter : option scev }.
(** DependenceAnalysis.cpp 3046-3055, getPositivePart and getNegativePart *)
Definition getPositivePart (X : scev) : scev := scMax _ X (scC _ 0).
Definition getNegativePart (X : scev) : scev := scMin _ X (scC _ 0).
Definition ciZero : coeffInfo := mkCI (scC _ 0) (scC _ 0) (scC _ 0) None.
(** Upper bounds of loops, collectUpperBound (1178-1186). *)
Variable upperBound : loop -> option scev.
(** DependenceAnalysis.cpp 3061-3100, collectCoeffInfo; [map] is mapSrcLoop or
    mapDstLoop.  [None]: a loop without a level. *)
Fixpoint collectCoeffInfo (map : loop -> option nat) (recs : list (loop * scev))
    (CI : nat -> coeffInfo) : option (nat -> coeffInfo) :=
  match recs with
  | [] => Some CI
  | (L, Coeff) :: recs =>
    match map L with
    | None => None
    | Some K =>
      collectCoeffInfo map recs
        (setLevel CI K (mkCI Coeff (getPositivePart Coeff) (getNegativePart Coeff) (upperBound L)))
    end
  end.
(** Directions a level may be explored with. *)
Inductive dkind := KALL | KLT | KEQ | KGT.
Definition kdirs (d : dkind) : dirs :=
  match d with KALL => dALL | KLT => dLTonly | KEQ => dEQonly | KGT => dGTonly end.
Definition bounds := (option scev * option scev)%type. (* Lower, Upper *)
(** DependenceAnalysis.cpp 2894-2915, findBoundsALL *)
Definition findBoundsALL (A B : coeffInfo) (Iterations : option scev) : bounds :=
  match Iterations with
  | Some U => (Some (scMul _ (scSub _ (ciNeg A) (ciPos B)) U),
               Some (scMul _ (scSub _ (ciPos A) (ciNeg B)) U))
  | None => (if isKnownPredicate _ Or ICMP_EQ (ciNeg A) (ciPos B) then Some (scC _ 0) else None,
             if isKnownPredicate _ Or ICMP_EQ (ciPos A) (ciNeg B) then Some (scC _ 0) else None)
  end.
(** DependenceAnalysis.cpp 2933-2957, findBoundsEQ *)
Definition findBoundsEQ (A B : coeffInfo) (Iterations : option scev) : bounds :=
  let Delta := scSub _ (ciCoeff A) (ciCoeff B) in
  let NegativePart := getNegativePart Delta in
  let PositivePart := getPositivePart Delta in
  match Iterations with
  | Some U => (Some (scMul _ NegativePart U), Some (scMul _ PositivePart U))
  | None => (if isZero _ Or NegativePart then Some NegativePart else None,
             if isZero _ Or PositivePart then Some PositivePart else None)
  end.
(** DependenceAnalysis.cpp 2973-3001, findBoundsLT *)
Definition findBoundsLT (A B : coeffInfo) (Iterations : option scev) : bounds :=
  let NegPart := getNegativePart (scSub _ (ciNeg A) (ciCoeff B)) in
  let PosPart := getPositivePart (scSub _ (ciPos A) (ciCoeff B)) in
  match Iterations with
  | Some U =>
    let Iter_1 := scSub _ U (scC _ 1) in
    (Some (scSub _ (scMul _ NegPart Iter_1) (ciCoeff B)),
     Some (scSub _ (scMul _ PosPart Iter_1) (ciCoeff B)))
  | None => (if isZero _ Or NegPart then Some (scNeg _ (ciCoeff B)) else None,
             if isZero _ Or PosPart then Some (scNeg _ (ciCoeff B)) else None)
  end.
(** DependenceAnalysis.cpp 3017-3043, findBoundsGT *)
Definition findBoundsGT (A B : coeffInfo) (Iterations : option scev) : bounds :=
  let NegPart := getNegativePart (scSub _ (ciCoeff A) (ciPos B)) in
  let PosPart := getPositivePart (scSub _ (ciCoeff A) (ciNeg B)) in
  match Iterations with
  | Some U =>
    let Iter_1 := scSub _ U (scC _ 1) in
    (Some (scAdd _ (scMul _ NegPart Iter_1) (ciCoeff A)),
     Some (scAdd _ (scMul _ PosPart Iter_1) (ciCoeff A)))
  | None => (if isZero _ Or NegPart then Some (ciCoeff A) else None,
             if isZero _ Or PosPart then Some (ciCoeff A) else None)
  end.
(** Bound[K].Lower and Bound[K].Upper.  They are functions of the coefficients,
    so the order in which they are computed (2698-2714, 2796-2838,
    DepthExpanded) is not modelled; Iterations: line 2699. *)
Definition boundsOf (A B : coeffInfo) (d : dkind) : bounds :=
  let It := match ciIter A with Some U => Some U | None => ciIter B end in
  match d with
  | KALL => findBoundsALL A B It
  | KLT => findBoundsLT A B It
  | KEQ => findBoundsEQ A B It
  | KGT => findBoundsGT A B It
  end.
(** DependenceAnalysis.cpp 3107-3132, getLowerBound and getUpperBound: the sum of
    bounds of levels [K], [K] + 1, ... ([n] of them).  MaxLevels > 0. *)
Definition oAdd (a b : option scev) : option scev :=
  match a, b with Some x, Some y => Some (scAdd _ x y) | _, _ => None end.
Fixpoint sumFrom (f : nat -> option scev) (Sum : option scev) (K n : nat) : option scev :=
  match n with
  | O => Sum
  | S n => sumFrom f (oAdd Sum (f K)) (S K) n
  end.
Definition sumBounds (f : nat -> option scev) (Max : nat) : option scev :=
  sumFrom f (f 1%nat) 2 (Max - 1).

Section Explore.
Variables A B : nat -> coeffInfo.
Variable lv : levels.
Variable Loops : nat -> bool.
Variable Delta : scev.
(** Bound[K].Direction and Bound[K].DirSet, DependenceAnalysis.h 416-423 *)
Record bstate := mkB { bDir : nat -> dkind; bSet : nat -> dirs }.
Definition getLowerBound (b : bstate) : option scev :=
  sumBounds (fun K => fst (boundsOf (A K) (B K) (bDir b K))) (MaxLevels lv).
Definition getUpperBound (b : bstate) : option scev :=
  sumBounds (fun K => snd (boundsOf (A K) (B K) (bDir b K))) (MaxLevels lv).
(** DependenceAnalysis.cpp 2866-2876, testBounds *)
Definition testBounds (d : dkind) (Level : nat) (b : bstate) : bstate * bool :=
  let b' := mkB (setLevel (bDir b) Level d) (bSet b) in
  (b', negb match getLowerBound b' with
            | Some l => isKnownPredicate _ Or ICMP_SGT l Delta
            | None => false
            end
       && negb match getUpperBound b' with
               | Some u => isKnownPredicate _ Or ICMP_SGT Delta u
               | None => false
               end).
(** DependenceAnalysis.cpp 2761-2862, exploreDirections; [n] is the number of
    common levels from [Level] on. *)
Definition record (b : bstate) : bstate :=
  mkB (bDir b) (fun K => if Nat.leb 1 K && Nat.leb K (CommonLevels lv) && Loops K
                         then dor (bSet b K) (kdirs (bDir b K)) else bSet b K).
(* one of the three attempts, 2842-2855 *)
Definition tryDir (deeper : bstate -> bstate * nat) (Level : nat) (d : dkind) (s : bstate * nat)
    : bstate * nat :=
  let '(b, NewDeps) := s in
  let '(b1, ok) := testBounds d Level b in
  if ok then let '(b2, k) := deeper b1 in (b2, (NewDeps + k)%nat)
  else (b1, NewDeps).
Fixpoint exploreDirections (n Level : nat) (b : bstate) : bstate * nat :=
  match n with
  | O => (record b, 1%nat)
  | S n =>
    if Loops Level then
      let try := tryDir (exploreDirections n (S Level)) Level in
      let '(b', NewDeps) := try KGT (try KEQ (try KLT (b, 0%nat))) in
      (mkB (setLevel (bDir b') Level KALL) (bSet b'), NewDeps)
    else exploreDirections n (S Level) b
  end.
End Explore.

(** DependenceAnalysis.cpp 2725-2736: update of directions of levels [K], ... *)
Fixpoint refine (Loops : nat -> bool) (DirSet : nat -> dirs) (n K : nat) (dv : nat -> dirs)
    : bool * (nat -> dirs) :=
  match n with
  | O => (false, dv)
  | S n =>
    if Loops K then
      let d := dand (dv K) (DirSet K) in
      let dv' := setLevel dv K d in
      if dempty d then (true, dv') else refine Loops DirSet n (S K) dv'
    else refine Loops DirSet n (S K) dv
  end.
(** DependenceAnalysis.cpp 2679-2753, banerjeeMIVtest.  [None]: a loop without a
    level, or no loops at all (Bound[1] is out of range then). *)
Definition banerjeeMIVtest (srcNest dstNest : list loop) (lv : levels) (Loops : nat -> bool)
    (Src Dst : expr) (dv : nat -> dirs) : option (bool * (nat -> dirs)) :=
  match collectCoeffInfo (mapSrcLoop srcNest) (eRecs Src) (fun _ => ciZero),
        collectCoeffInfo (mapDstLoop lv dstNest) (eRecs Dst) (fun _ => ciZero) with
  | Some A, Some B =>
    if Nat.eqb (MaxLevels lv) 0 then None
    else if negb (seEnclosing _ Or (eStart Src) (eStart Dst)) then Some (false, dv)
    else
      let Delta := scSub _ (eStart Dst) (eStart Src) in
      let b0 := mkB (fun _ => KALL) (fun _ => dNONE) in
      let '(b1, ok) := testBounds A B lv Delta KALL 0 b0 in
      if ok then
        let '(b2, NewDeps) := exploreDirections A B lv Loops Delta (CommonLevels lv) 1 b1 in
        if Nat.ltb 0 NewDeps
        then Some (refine Loops (bSet b2) (CommonLevels lv) 1 dv)
        else Some (true, dv)
      else Some (true, dv)
  | _, _ => None
  end.

(** DependenceAnalysis.cpp 2424-2432, testMIV *)
Definition testMIV (srcNest dstNest : list loop) (lv : levels) (Loops : nat -> bool)
    (Src Dst : expr) (dv : nat -> dirs) : option (bool * (nat -> dirs)) :=
  match gcdMIVtest srcNest dstNest Src Dst dv with
  | None => None
  | Some (true, dv') => Some (true, dv')
  | Some (false, dv') => banerjeeMIVtest srcNest dstNest lv Loops Src Dst dv'
  end.

(** ** Constraints *)

(** DependenceAnalysis.cpp 448-596, intersectConstraints: the new X and the result;
    [CUB] is collectConstantUpperBound of the loop of X.  Constants are
    exact.  [None]: a violated assertion, llvm_unreachable or division by
    zero. *)
Definition getD (c : constr Env) : scev := match c with CDistance _ c => scNeg _ c | _ => scC _ 0 end.
Definition isAnyC (c : constr Env) : bool := match c with CAny _ => true | _ => false end.
Definition isEmptyC (c : constr Env) : bool := match c with CEmpty _ => true | _ => false end.
Definition isDistC (c : constr Env) : bool := match c with CDistance _ _ => true | _ => false end.
Definition pointOf (c : constr Env) : option (scev * scev) :=
  match c with CPoint _ x y => Some (x, y) | _ => None end.
Definition isPointC (c : constr Env) : bool := match c with CPoint _ _ _ => true | _ => false end.
(** 494-574: two lines *)
Definition intersectLines (CUB : option Z) (X : constr Env) (A1 B1 C1 A2 B2 C2 : scev)
    : option (constr Env * bool) :=
  if isKnownPredicate _ Or ICMP_EQ (scMul _ A1 B2) (scMul _ B1 A2) then
    if isKnownPredicate _ Or ICMP_EQ (scMul _ C1 B2) (scMul _ B1 C2) then Some (X, false)
    else if isKnownPredicate _ Or ICMP_NE (scMul _ C1 B2) (scMul _ B1 C2) then Some (CEmpty _, true)
    else Some (X, false)
  else if isKnownPredicate _ Or ICMP_NE (scMul _ A1 B2) (scMul _ B1 A2) then
    match seConst _ Or (scSub _ (scMul _ C1 B2) (scMul _ C2 B1)),
          seConst _ Or (scSub _ (scMul _ C1 A2) (scMul _ C2 A1)),
          seConst _ Or (scSub _ (scMul _ A1 B2) (scMul _ A2 B1)),
          seConst _ Or (scSub _ (scMul _ A2 B1) (scMul _ A1 B2)) with
    | Some Xtop, Some Ytop, Some Xbot, Some Ybot =>
      if (Xbot =? 0) || (Ybot =? 0) then None
      else
        let Xq := Z.quot Xtop Xbot in
        let Yq := Z.quot Ytop Ybot in
        if negb (Z.rem Xtop Xbot =? 0) || negb (Z.rem Ytop Ybot =? 0) then Some (CEmpty _, true)
        else if (Xq <? 0) || (Yq <? 0) then Some (CEmpty _, true)
        else if match CUB with Some U => (U <? Xq) || (U <? Yq) | None => false end
             then Some (CEmpty _, true)
        else Some (CPoint _ (scC _ Xq) (scC _ Yq), true)
    | _, _, _, _ => Some (X, false)
    end
  else Some (X, false).
Definition intersectConstraints (CUB : option Z) (X Y : constr Env)
    : option (constr Env * bool) :=
  if isPointC Y then None
  else if isAnyC X then Some (if isAnyC Y then (X, false) else (Y, true))
  else if isEmptyC X then Some (X, false)
  else if isEmptyC Y then Some (CEmpty _, true)
  else if isDistC X && isDistC Y then
    Some (if isKnownPredicate _ Or ICMP_EQ (getD X) (getD Y) then (X, false)
          else if isKnownPredicate _ Or ICMP_NE (getD X) (getD Y) then (CEmpty _, true)
          else match seConst _ Or (getD Y) with
               | Some _ => (Y, true)
               | None => (X, false)
               end)
  else
    match lineOf _ X, pointOf X, lineOf _ Y with
    | Some (A1, B1, C1), _, Some (A2, B2, C2) => intersectLines CUB X A1 B1 C1 A2 B2 C2
    | None, Some (PX, PY), Some (A, B, C) =>
      let Sum := scAdd _ (scMul _ A PX) (scMul _ B PY) in
      Some (if isKnownPredicate _ Or ICMP_EQ Sum C then (X, false)
            else if isKnownPredicate _ Or ICMP_NE Sum C then (CEmpty _, true)
            else (X, false))
    | _, _, _ => None
    end.

(** DependenceAnalysis.cpp 3144-3152, findCoefficient *)
Fixpoint findCoeffIn (recs : list (loop * scev)) (TargetLoop : loop) : scev :=
  match recs with
  | [] => scC _ 0
  | (L, s) :: recs => if Nat.eqb L TargetLoop then s else findCoeffIn recs TargetLoop
  end.
Definition findCoefficient (E : expr) (TargetLoop : loop) : scev := findCoeffIn (eRecs E) TargetLoop.
(** DependenceAnalysis.cpp 3160-3171, zeroCoefficient *)
Fixpoint zeroCoeffIn (recs : list (loop * scev)) (TargetLoop : loop) : list (loop * scev) :=
  match recs with
  | [] => []
  | (L, s) :: recs => if Nat.eqb L TargetLoop then recs else (L, s) :: zeroCoeffIn recs TargetLoop
  end.
Definition zeroCoefficient (E : expr) (TargetLoop : loop) : expr :=
  mkExpr (zeroCoeffIn (eRecs E) TargetLoop) (eStart E).
(** DependenceAnalysis.cpp 3179-3203, addToCoefficient *)
Fixpoint addToCoeffIn (recs : list (loop * scev)) (start : scev) (TargetLoop : loop) (Value : scev)
    : list (loop * scev) :=
  match recs with
  | [] => [(TargetLoop, Value)]
  | (L, s) :: recs' =>
    if Nat.eqb L TargetLoop then
      let Sum := scAdd _ s Value in
      if isZero _ Or Sum then recs' else (L, Sum) :: recs'
    else if seInvariantIn Q recs start TargetLoop then (TargetLoop, Value) :: recs
    else (L, s) :: addToCoeffIn recs' start TargetLoop Value
  end.
Definition addToCoefficient (E : expr) (TargetLoop : loop) (Value : scev) : expr :=
  mkExpr (addToCoeffIn (eRecs E) (eStart E) TargetLoop Value) (eStart E).
(** SE->getAddExpr, getMinusSCEV and getMulExpr of a chain and an invariant: the
    invariant is folded into the start, respectively all the operands. *)
Definition addInv (E : expr) (V : scev) : expr := mkExpr (eRecs E) (scAdd _ (eStart E) V).
Definition subInv (E : expr) (V : scev) : expr := mkExpr (eRecs E) (scSub _ (eStart E) V).
Definition mulInv (E : expr) (V : scev) : expr :=
  mkExpr (map (fun p => (fst p, scMul _ (snd p) V)) (eRecs E)) (scMul _ (eStart E) V).

(** Result of a propagation: was there a simplification, new Src and Dst, was
    Consistent reset. *)
Record prop := mkProp { pChanged : bool; pSrc : expr; pDst : expr; pInexact : bool }.
(** DependenceAnalysis.cpp 3240-3258, propagateDistance; [C] is the stored
    coefficient C, D = - C. *)
Definition propagateDistance (Src Dst : expr) (L : loop) (C : scev) : prop :=
  let A_K := findCoefficient Src L in
  if isZero _ Or A_K then mkProp false Src Dst false
  else
    let Src' := zeroCoefficient (subInv Src (scMul _ A_K (scNeg _ C))) L in
    let Dst' := addToCoefficient Dst L (scNeg _ A_K) in
    mkProp true Src' Dst' (negb (isZero _ Or (findCoefficient Dst' L))).
(** DependenceAnalysis.cpp 3266-3335, propagateLine.  [None]: a violated assertion or
    division by zero. *)
Definition propagateLine (Src Dst : expr) (L : loop) (A B C : scev) : option prop :=
  if isZero _ Or A then
    match seConst _ Or B, seConst _ Or C with
    | Some Beta, Some Charlie =>
      if Beta =? 0 then None
      else if negb (Z.rem Charlie Beta =? 0) then None
      else
        let AP_K := findCoefficient Dst L in
        let Src' := subInv Src (scMul _ AP_K (scC _ (Z.quot Charlie Beta))) in
        Some (mkProp true Src' (zeroCoefficient Dst L) (negb (isZero _ Or (findCoefficient Src' L))))
    | _, _ => Some (mkProp false Src Dst false)
    end
  else if isZero _ Or B then
    match seConst _ Or A, seConst _ Or C with
    | Some Alpha, Some Charlie =>
      if Alpha =? 0 then None
      else if negb (Z.rem Charlie Alpha =? 0) then None
      else
        let A_K := findCoefficient Src L in
        let Src' := zeroCoefficient (addInv Src (scMul _ A_K (scC _ (Z.quot Charlie Alpha)))) L in
        Some (mkProp true Src' Dst (negb (isZero _ Or (findCoefficient Dst L))))
    | _, _ => Some (mkProp false Src Dst false)
    end
  else if isKnownPredicate _ Or ICMP_EQ A B then
    match seConst _ Or A, seConst _ Or C with
    | Some Alpha, Some Charlie =>
      if Alpha =? 0 then None
      else if negb (Z.rem Charlie Alpha =? 0) then None
      else
        let A_K := findCoefficient Src L in
        let Src' := zeroCoefficient (addInv Src (scMul _ A_K (scC _ (Z.quot Charlie Alpha)))) L in
        let Dst' := addToCoefficient Dst L A_K in
        Some (mkProp true Src' Dst' (negb (isZero _ Or (findCoefficient Dst' L))))
    | _, _ => Some (mkProp false Src Dst false)
    end
  else
    let A_K := findCoefficient Src L in
    let Src' := zeroCoefficient (addInv (mulInv Src A) (scMul _ A_K C)) L in
    let Dst' := addToCoefficient (mulInv Dst A) L (scMul _ A_K B) in
    Some (mkProp true Src' Dst' (negb (isZero _ Or (findCoefficient Dst' L)))).
(** DependenceAnalysis.cpp 3341-3356, propagatePoint *)
Definition propagatePoint (Src Dst : expr) (L : loop) (X Y : scev) : prop :=
  let A_K := findCoefficient Src L in
  let AP_K := findCoefficient Dst L in
  let Src' := zeroCoefficient (addInv Src (scSub _ (scMul _ A_K X) (scMul _ AP_K Y))) L in
  mkProp true Src' (zeroCoefficient Dst L) false.
(** DependenceAnalysis.cpp 3221-3230, one step of propagate *)
Definition propagateOne (Src Dst : expr) (L : loop) (c : constr Env) : option prop :=
  match c with
  | CDistance _ C => Some (propagateDistance Src Dst L C)
  | CLine _ A B C => propagateLine Src Dst L A B C
  | CPoint _ X Y => Some (propagatePoint Src Dst L X Y)
  | _ => Some (mkProp false Src Dst false)
  end.
(** DependenceAnalysis.cpp 3216-3232, propagate: constraints of loops in turn *)
Fixpoint propagate (Src Dst : expr) (cs : list (loop * constr Env)) : option (bool * expr * expr * bool) :=
  match cs with
  | [] => Some (false, Src, Dst, false)
  | (L, c) :: cs =>
    match propagateOne Src Dst L c with
    | None => None
    | Some p =>
      match propagate (pSrc p) (pDst p) cs with
      | None => None
      | Some (ch, S', D', ix) => Some (pChanged p || ch, S', D', pInexact p || ix)
      end
    end
  end.

(** DependenceAnalysis.cpp 3360-3407, updateDirection.  [None]: llvm_unreachable. *)
Definition clearScalar (d : dventry Env) (dist : option scev) : dventry Env :=
  mkDV _ (dvDir _ d) false (dvPeelFirst _ d) (dvPeelLast _ d) (dvSplitable _ d) dist.
Definition updateDirection (Level : dventry Env) (c : constr Env) : option (dventry Env) :=
  match c with
  | CAny _ => Some Level
  | CDistance _ _ =>
    let D := getD c in
    Some (andDir _ (clearScalar Level (Some D))
            (mkDirs (negb (seNonPos _ Or D)) (negb (seNonZero _ Or D)) (negb (seNonNeg _ Or D))))
  | CLine _ _ _ _ => Some (clearScalar Level None)
  | CPoint _ X Y =>
    Some (andDir _ (clearScalar Level None)
            (mkDirs (negb (isKnownPredicate _ Or ICMP_SLE Y X)) (negb (isKnownPredicate _ Or ICMP_NE Y X))
                    (negb (isKnownPredicate _ Or ICMP_SGE Y X))))
  | CEmpty _ => None
  end.
End MIV.
