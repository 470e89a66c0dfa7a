(** Model of the single-subscript dependence tests of
    /repo/lib/Analysis/Memory/DependenceAnalysis.cpp.

    Common simplifications.
    - A symbolic expression ([const SCEV *]) is its denotation: a function from
      an environment (the values of all loop-invariant symbols) to Z.  SCEV
      arithmetic (getMinusSCEV, getMulExpr, ...) is exact integer arithmetic:
      the wrap-around of SCEV expressions is not modelled (the analysis
      requires no-wrap recurrences).  APInt arithmetic in findGCD,
      exactSIVtest and exactRDIVtest does wrap, and is modelled with wrap.
    - Loops are normalised: iterations of a loop are 0, 1, ..., UB where UB is
      the backedge-taken count, if it is known (DependenceAnalysis.cpp
      1178-1200, collectUpperBound).
    - Statistics counters and debug output are dropped. *)
From Coq Require Import ZArith Bool List Lia.
Import ListNotations.
Open Scope Z_scope.

(** Sets of directions, DependenceAnalysis.h 108-116: a 3-bit mask with
    LT = 1, EQ = 2, GT = 4. *)
Record dirs := mkDirs { dLT : bool; dEQ : bool; dGT : bool }.
Definition dNONE := mkDirs false false false.
Definition dALL := mkDirs true true true.
Definition dLTonly := mkDirs true false false.
Definition dEQonly := mkDirs false true false.
Definition dGTonly := mkDirs false false true.
Definition dLE := mkDirs true true false.
Definition dGE := mkDirs false true true.
Definition dNE := mkDirs true false true.
Definition dand (a b : dirs) : dirs :=
  mkDirs (dLT a && dLT b) (dEQ a && dEQ b) (dGT a && dGT b).
Definition dor (a b : dirs) : dirs :=
  mkDirs (dLT a || dLT b) (dEQ a || dEQ b) (dGT a || dGT b).
Definition dempty (a : dirs) : bool := negb (dLT a || dEQ a || dGT a).

(** Comparison predicates used by the analysis (llvm::CmpInst). *)
Inductive cmp := ICMP_EQ | ICMP_NE | ICMP_SGE | ICMP_SLE | ICMP_SGT | ICMP_SLT.
Definition cmpP (p : cmp) (x y : Z) : Prop :=
  match p with
  | ICMP_EQ => x = y | ICMP_NE => x <> y
  | ICMP_SGE => x >= y | ICMP_SLE => x <= y
  | ICMP_SGT => x > y | ICMP_SLT => x < y
  end.

Section Scev.
Variable Env : Type.
Definition scev := Env -> Z.

(** The queries to llvm::ScalarEvolution used by the tests. *)
Record oracle := mkOracle {
  seNonNeg : scev -> bool;                  (* isKnownNonNegative *)
  seNonPos : scev -> bool;                  (* isKnownNonPositive *)
  sePos : scev -> bool;                     (* isKnownPositive *)
  seNeg : scev -> bool;                     (* isKnownNegative *)
  seNonZero : scev -> bool;                 (* isKnownNonZero *)
  sePred : cmp -> scev -> scev -> bool;     (* isKnownPredicate *)
  seConst : scev -> option Z;               (* dyn_cast<SCEVConstant> *)
  seEnclosing : scev -> scev -> bool        (* isEnclosingNestAddRec, 705-734 *)
}.
Variable O : oracle.

Definition scAdd (x y : scev) : scev := fun e => x e + y e.
Definition scSub (x y : scev) : scev := fun e => x e - y e.
Definition scMul (x y : scev) : scev := fun e => x e * y e.
Definition scNeg (x : scev) : scev := fun e => - x e.
Definition scMax (x y : scev) : scev := fun e => Z.max (x e) (y e).
Definition scMin (x y : scev) : scev := fun e => Z.min (x e) (y e).
Definition scUDiv (x y : scev) : scev := fun e => x e / y e.
Definition scC (c : Z) : scev := fun _ => c.

(** SCEV::isZero and SCEV::isOne: true for the constants 0 and 1 only. *)
Definition isZero (x : scev) : bool :=
  match seConst O x with Some c => c =? 0 | None => false end.
Definition isOne (x : scev) : bool :=
  match seConst O x with Some c => c =? 1 | None => false end.

(** DependenceAnalysis.cpp 1072-1117, DependenceInfo::isKnownPredicate.
    Stripping of matching sign and zero extensions (1074-1089) is omitted:
    extensions are the identity on the denoted integers. *)
Definition isKnownPredicate (p : cmp) (X Y : scev) : bool :=
  if negb (seEnclosing O X Y) then false
  else if sePred O p X Y then true
  else let Delta := scSub X Y in
       match p with
       | ICMP_EQ => isZero Delta
       | ICMP_NE => seNonZero O Delta
       | ICMP_SGE => seNonNeg O Delta
       | ICMP_SLE => seNonPos O Delta
       | ICMP_SGT => sePos O Delta
       | ICMP_SLT => seNeg O Delta
       end.

(** DependenceAnalysis.h 107-124, struct DVEntry. *)
Record dventry := mkDV {
  dvDir : dirs; dvScalar : bool; dvPeelFirst : bool; dvPeelLast : bool;
  dvSplitable : bool; dvDist : option scev }.
Definition dvInit : dventry := mkDV dALL true false false false None.
Definition setDir (d : dventry) (x : dirs) : dventry :=
  mkDV x (dvScalar d) (dvPeelFirst d) (dvPeelLast d) (dvSplitable d) (dvDist d).
Definition andDir (d : dventry) (x : dirs) : dventry := setDir d (dand (dvDir d) x).
Definition setDist (d : dventry) (x : scev) : dventry :=
  mkDV (dvDir d) (dvScalar d) (dvPeelFirst d) (dvPeelLast d) (dvSplitable d) (Some x).
Definition setSplitable (d : dventry) (b : bool) : dventry :=
  mkDV (dvDir d) (dvScalar d) (dvPeelFirst d) (dvPeelLast d) b (dvDist d).
Definition setPeelFirst (d : dventry) : dventry :=
  mkDV (dvDir d) (dvScalar d) true (dvPeelLast d) (dvSplitable d) (dvDist d).
Definition setPeelLast (d : dventry) : dventry :=
  mkDV (dvDir d) (dvScalar d) (dvPeelFirst d) true (dvSplitable d) (dvDist d).

(** DependenceAnalysis.h 424-443 and DependenceAnalysis.cpp 331-418,
    class Constraint.  A distance D is stored as the line 1*X + (-1)*Y = -D
    (setDistance, 404-411), a point as (A, B) = (X, Y). *)
Inductive constr :=
| CEmpty
| CPoint (x y : scev)
| CDistance (c : scev)           (* the stored C; A = 1 and B = -1 *)
| CLine (a b c : scev)
| CAny.
Definition setDistance (D : scev) : constr := CDistance (scNeg D).
(* isLine is also true for distances, DependenceAnalysis.h 462-465 *)
Definition lineOf (c : constr) : option (scev * scev * scev) :=
  match c with
  | CLine a b c => Some (a, b, c)
  | CDistance c => Some (scC 1, scNeg (scC 1), c)
  | _ => None
  end.

(** Result of a test: was the dependence disproved, the updated entry of the
    direction vector, the new constraint ([None] if it was not set, so the
    caller keeps its former value), the split iteration if it was set. *)
Record tres := mkT {
  tIndep : bool; tDV : dventry; tConstr : option constr; tSplit : option scev }.

(** DependenceAnalysis.cpp 1207-1229, testZIV; returns (disproved, possibly
    inconsistent). *)
Definition testZIV (Src Dst : scev) : bool :=
  if isKnownPredicate ICMP_EQ Src Dst then false
  else if isKnownPredicate ICMP_NE Src Dst then true
  else false.

(** DependenceAnalysis.cpp 1316-1358, the part of strongSIVtest for a
    difference or a coefficient that is not a constant. *)
Definition strongSIVsym (Coeff Delta : scev) (dv : dventry) : tres :=
  if isZero Delta then
    mkT false (andDir (setDist dv Delta) dEQonly) (Some (setDistance Delta)) None
  else
    let dv1 := if isOne Coeff then setDist dv Delta else dv in
    let c := if isOne Coeff then setDistance Delta
             else CLine Coeff (scNeg Coeff) (scNeg Delta) in
    let DeltaMaybeZero := negb (seNonZero O Delta) in
    let DeltaMaybePositive := negb (seNonPos O Delta) in
    let DeltaMaybeNegative := negb (seNonNeg O Delta) in
    let CoeffMaybePositive := negb (seNonPos O Coeff) in
    let CoeffMaybeNegative := negb (seNonNeg O Coeff) in
    let newDir := mkDirs
      ((DeltaMaybePositive && CoeffMaybePositive)
         || (DeltaMaybeNegative && CoeffMaybeNegative))
      DeltaMaybeZero
      ((DeltaMaybeNegative && CoeffMaybePositive)
         || (DeltaMaybePositive && CoeffMaybeNegative)) in
    mkT false (andDir dv1 newDir) (Some c) None.

(** DependenceAnalysis.cpp 1254-1360, strongSIVtest.  [UB] is the result of
    collectUpperBound. *)
Definition strongSIV (Coeff SrcConst DstConst : scev) (UB : option scev)
    (dv : dventry) : tres :=
  if negb (seEnclosing O SrcConst DstConst) then mkT false dv None None
  else
  let Delta := scSub SrcConst DstConst in
  let tooFar :=
    match UB with
    | None => false
    | Some U =>
        let AbsDelta := if seNonNeg O Delta then Delta else scNeg Delta in
        let AbsCoeff := if seNonNeg O Coeff then Coeff else scNeg Coeff in
        isKnownPredicate ICMP_SGT AbsDelta (scMul U AbsCoeff)
    end in
  if tooFar then mkT true dv None None
  else
  match seConst O Delta, seConst O Coeff with
  | Some cd, Some cc =>
      let Distance := Z.quot cd cc in
      let Remainder := Z.rem cd cc in
      if negb (Remainder =? 0) then mkT true dv None None
      else
        let D := scC Distance in
        let newDir := if Distance >? 0 then dLTonly
                      else if Distance <? 0 then dGTonly else dEQonly in
        mkT false (andDir (setDist dv D) newDir) (Some (setDistance D)) None
  | _, _ => strongSIVsym Coeff Delta dv
  end.

(** DependenceAnalysis.cpp 1391-1508, weakCrossingSIVtest.
    The assertion of line 1441 (a negated constant is a constant) is built in:
    the negation of the constant c is the constant -c. *)
Definition weakCrossingSIV (Coeff SrcConst DstConst : scev) (UB : option scev)
    (dv : dventry) : tres :=
  if negb (seEnclosing O SrcConst DstConst) then mkT false dv None None
  else
  let Delta0 := scSub DstConst SrcConst in
  let line := CLine Coeff Coeff Delta0 in
  if isZero Delta0 then
    let dv1 := andDir dv dEQonly in
    if dempty (dvDir dv1) then mkT true dv1 (Some line) None
    else mkT false (setDist dv1 Delta0) (Some line) None
  else
  match seConst O Coeff with
  | None => mkT false dv (Some line) None
  | Some cc0 =>
      let dv1 := setSplitable dv true in
      let isneg := seNeg O Coeff in
      let cc := if isneg then - cc0 else cc0 in
      let Delta := if isneg then scNeg Delta0 else Delta0 in
      let split := scUDiv (scMax (scC 0) Delta) (scMul (scC 2) (scC cc)) in
      match seConst O Delta with
      | None => mkT false dv1 (Some line) (Some split)
      | Some cd =>
          if seNeg O Delta then mkT true dv1 (Some line) (Some split)
          else
          let tail dv2 :=
            let Distance := Z.quot cd cc in
            if negb (Z.rem cd cc =? 0) then mkT true dv2 (Some line) (Some split)
            else if negb (Z.rem Distance 2 =? 0)
                 then mkT false (andDir dv2 dNE) (Some line) (Some split)
                 else mkT false dv2 (Some line) (Some split) in
          match UB with
          | None => tail dv1
          | Some U =>
              let ML := scMul (scMul (scC cc) U) (scC 2) in
              if isKnownPredicate ICMP_SGT Delta ML
              then mkT true dv1 (Some line) (Some split)
              else if isKnownPredicate ICMP_EQ Delta ML then
                let dv2 := andDir dv1 dEQonly in
                if dempty (dvDir dv2) then mkT true dv2 (Some line) (Some split)
                else mkT false (setDist (setSplitable dv2 false) (scC 0))
                         (Some line) (Some split)
              else tail dv1
          end
      end
  end.

(** DependenceAnalysis.cpp 1815-1885, weakZeroSrcSIVtest.
    [common] is the condition Level < CommonLevels. *)
Definition weakZeroSrcSIV (DstCoeff SrcConst DstConst : scev) (UB : option scev)
    (common : bool) (dv : dventry) : tres :=
  if negb (seEnclosing O SrcConst DstConst) then mkT false dv None None
  else
  let Delta := scSub SrcConst DstConst in
  let line := CLine (scC 0) DstCoeff Delta in
  if isKnownPredicate ICMP_EQ SrcConst DstConst then
    mkT false (if common then setPeelFirst (andDir dv dGE) else dv) (Some line) None
  else
  match seConst O DstCoeff with
  | None => mkT false dv (Some line) None
  | Some cc =>
      let AbsCoeff := if seNeg O DstCoeff then scNeg DstCoeff else DstCoeff in
      let NewDelta := if seNeg O DstCoeff then scNeg Delta else Delta in
      let tail :=
        if seNeg O NewDelta then mkT true dv (Some line) None
        else match seConst O Delta with
             | Some cd => if negb (Z.rem cd cc =? 0) then mkT true dv (Some line) None
                          else mkT false dv (Some line) None
             | None => mkT false dv (Some line) None
             end in
      match UB with
      | None => tail
      | Some U =>
          let Product := scMul AbsCoeff U in
          if isKnownPredicate ICMP_SGT NewDelta Product then mkT true dv (Some line) None
          else if isKnownPredicate ICMP_EQ NewDelta Product then
            mkT false (if common then setPeelLast (andDir dv dLE) else dv) (Some line) None
          else tail
      end
  end.

(** DependenceAnalysis.cpp 1927-2000, weakZeroDstSIVtest. *)
Definition weakZeroDstSIV (SrcCoeff SrcConst DstConst : scev) (UB : option scev)
    (common : bool) (dv : dventry) : tres :=
  if negb (seEnclosing O SrcConst DstConst) then mkT false dv None None
  else
  let Delta := scSub DstConst SrcConst in
  let line := CLine SrcCoeff (scC 0) Delta in
  if isKnownPredicate ICMP_EQ DstConst SrcConst then
    mkT false (if common then setPeelFirst (andDir dv dLE) else dv) (Some line) None
  else
  match seConst O SrcCoeff with
  | None => mkT false dv (Some line) None
  | Some cc =>
      let AbsCoeff := if seNeg O SrcCoeff then scNeg SrcCoeff else SrcCoeff in
      let NewDelta := if seNeg O SrcCoeff then scNeg Delta else Delta in
      let tail :=
        if seNeg O NewDelta then mkT true dv (Some line) None
        else match seConst O Delta with
             | Some cd => if negb (Z.rem cd cc =? 0) then mkT true dv (Some line) None
                          else mkT false dv (Some line) None
             | None => mkT false dv (Some line) None
             end in
      match UB with
      | None => tail
      | Some U =>
          let Product := scMul AbsCoeff U in
          if isKnownPredicate ICMP_SGT NewDelta Product then mkT true dv (Some line) None
          else if isKnownPredicate ICMP_EQ NewDelta Product then
            mkT false (if common then setPeelLast (andDir dv dGE) else dv) (Some line) None
          else tail
      end
  end.

(** DependenceAnalysis.cpp 2157-2260, symbolicRDIVtest. *)
Definition symbolicRDIV (A1 A2 C1 C2 : scev) (N1 N2 : option scev) : bool :=
  if negb (seEnclosing O C1 C2) then false
  else
  let C2_C1 := scSub C2 C1 in
  let C1_C2 := scSub C1 C2 in
  if seNonNeg O A1 then
    if seNonNeg O A2 then
      if match N1 with Some n1 => isKnownPredicate ICMP_SGT C2_C1 (scMul A1 n1)
                  | None => false end then true
      else match N2 with Some n2 => isKnownPredicate ICMP_SLT (scMul A2 n2) C1_C2
                    | None => false end
    else if seNonPos O A2 then
      if match N1, N2 with
         | Some n1, Some n2 =>
             isKnownPredicate ICMP_SGT C2_C1 (scSub (scMul A1 n1) (scMul A2 n2))
         | _, _ => false end then true
      else seNeg O C2_C1
    else false
  else if seNonPos O A1 then
    if seNonNeg O A2 then
      if match N1, N2 with
         | Some n1, Some n2 =>
             isKnownPredicate ICMP_SGT (scSub (scMul A1 n1) (scMul A2 n2)) C2_C1
         | _, _ => false end then true
      else sePos O C2_C1
    else if seNonPos O A2 then
      if match N1 with Some n1 => isKnownPredicate ICMP_SGT (scMul A1 n1) C2_C1
                  | None => false end then true
      else match N2 with Some n2 => isKnownPredicate ICMP_SLT C1_C2 (scMul A2 n2)
                    | None => false end
    else false
  else false.

End Scev.

(** ** APInt arithmetic of [Bits]-bit two's complement numbers. *)
Section APInt.
Variable Bits : Z.
(* the signed value of a Bits-bit word *)
Definition wr (z : Z) : Z := (z + 2 ^ (Bits - 1)) mod 2 ^ Bits - 2 ^ (Bits - 1).
Definition apAdd (a b : Z) := wr (a + b).
Definition apSub (a b : Z) := wr (a - b).
Definition apMul (a b : Z) := wr (a * b).
Definition apNeg (a : Z) := wr (- a).
Definition apAbs (a : Z) := if a <? 0 then apNeg a else a.
(* APInt::sdivrem, sdiv and srem truncate towards zero *)
Definition apQuot (a b : Z) := wr (Z.quot a b).
Definition apRem (a b : Z) := wr (Z.rem a b).
Definition apMax := 2 ^ (Bits - 1) - 1.
Definition apMin := - 2 ^ (Bits - 1).

(** DependenceAnalysis.cpp 1528-1533, the loop of findGCD; [None] stands for
    out of fuel. *)
Fixpoint gcdLoop (fuel : nat) (A0 A1 B0 B1 G0 G1 Q R : Z) : option (Z * Z * Z) :=
  if R =? 0 then Some (A1, B1, G1)
  else match fuel with
       | O => None
       | S fuel' =>
           let A2 := apSub A0 (apMul Q A1) in
           let B2 := apSub B0 (apMul Q B1) in
           gcdLoop fuel' A1 A2 B1 B2 G1 R (apQuot G1 R) (apRem G1 R)
       end.
Definition gcdFuel (b : Z) : nat := 2 * Z.to_nat (Z.log2 (Z.abs b)) + 2.

Inductive gcdRes := GcdDisproved | GcdSol (G X Y : Z).
(** DependenceAnalysis.cpp 1520-1547, findGCD. *)
Definition findGCD (AM BM Delta : Z) : option gcdRes :=
  let G0 := apAbs AM in
  let G1 := apAbs BM in
  match gcdLoop (gcdFuel BM) 1 0 0 1 G0 G1 (apQuot G0 G1) (apRem G0 G1) with
  | None => None
  | Some (A1, B1, G) =>
      let X := if AM <? 0 then apNeg A1 else A1 in
      let Y := if BM <? 0 then B1 else apNeg B1 in
      if negb (apRem Delta G =? 0) then Some GcdDisproved
      else let Q := apQuot Delta G in
           Some (GcdSol G (apMul X Q) (apMul Y Q))
  end.

(** DependenceAnalysis.cpp 1550-1560. *)
Definition floorOfQuotient (A B : Z) : Z :=
  let Q := apQuot A B in
  if apRem A B =? 0 then Q
  else if ((A >? 0) && (B >? 0)) || ((A <? 0) && (B <? 0)) then Q
  else apSub Q 1.
(** DependenceAnalysis.cpp 1563-1573. *)
Definition ceilingOfQuotient (A B : Z) : Z :=
  let Q := apQuot A B in
  if apRem A B =? 0 then Q
  else if ((A >? 0) && (B >? 0)) || ((A <? 0) && (B <? 0)) then apAdd Q 1
  else Q.
(** DependenceAnalysis.cpp 1576-1585. *)
Definition maxAPInt (A B : Z) := if A >? B then A else B.
Definition minAPInt (A B : Z) := if A <? B then A else B.

(** DependenceAnalysis.cpp 1650-1664 and 1672-1690 (exactSIVtest), 2065-2082
    and 2084-2101 (exactRDIVtest): narrow [TL, TU] by
    0 <= V + TMUL * t and, if UM is known, V + TMUL * t <= UM. *)
Definition narrow (TMUL V : Z) (UM : option Z) (T : Z * Z) : Z * Z :=
  let '(TL, TU) := T in
  if TMUL >? 0 then
    let TL := maxAPInt TL (ceilingOfQuotient (apNeg V) TMUL) in
    match UM with
    | Some um => (TL, minAPInt TU (floorOfQuotient (apSub um V) TMUL))
    | None => (TL, TU)
    end
  else
    let TU := minAPInt TU (floorOfQuotient (apNeg V) TMUL) in
    match UM with
    | Some um => (maxAPInt TL (ceilingOfQuotient (apSub um V) TMUL), TU)
    | None => (TL, TU)
    end.

(** One step of the exploration of directions, 1704-1759: TMUL * t >= V. *)
Definition atLeast (TMUL V : Z) (T : Z * Z) : Z * Z :=
  let '(TL, TU) := T in
  if TMUL >? 0 then (maxAPInt TL (ceilingOfQuotient V TMUL), TU)
  else (TL, minAPInt TU (floorOfQuotient V TMUL)).
Definition nonEmpty (T : Z * Z) : bool := fst T <=? snd T.

Inductive sivRes := SivIndep | SivDirs (d : dirs).
(** DependenceAnalysis.cpp 1604-1770, exactSIVtest for constant coefficients
    AM and BM and a constant difference Delta = DstConst - SrcConst; UM is the
    constant upper bound if it is known.  The result is the mask which is
    and-ed into the direction vector (1764), or [SivIndep] at the early exits.
    [None]: out of fuel. *)
Definition exactSIV (AM BM Delta : Z) (UM : option Z) : option sivRes :=
  match findGCD AM BM Delta with
  | None => None
  | Some GcdDisproved => Some SivIndep
  | Some (GcdSol G X Y) =>
      let T0 := (apMin, apMax) in
      let T1 := narrow (apQuot BM G) X UM T0 in
      let T2 := narrow (apQuot AM G) Y UM T1 in
      if fst T2 >? snd T2 then Some SivIndep
      else
        let lt := nonEmpty (atLeast (apSub AM BM) (apAdd (apSub X Y) 1) T2) in
        let eq := nonEmpty (atLeast (apSub BM AM) (apSub Y X)
                              (atLeast (apSub AM BM) (apSub X Y) T2)) in
        let gt := nonEmpty (atLeast (apSub BM AM) (apAdd (apSub Y X) 1) T2) in
        Some (SivDirs (mkDirs lt eq gt))
  end.

(** DependenceAnalysis.cpp 2014-2106, exactRDIVtest for constants. *)
Definition exactRDIV (AM BM Delta : Z) (SrcUM DstUM : option Z) : option bool :=
  match findGCD AM BM Delta with
  | None => None
  | Some GcdDisproved => Some true
  | Some (GcdSol G X Y) =>
      let T0 := (apMin, apMax) in
      let T1 := narrow (apQuot BM G) X SrcUM T0 in
      let T2 := narrow (apQuot AM G) Y DstUM T1 in
      Some (fst T2 >? snd T2)
  end.
End APInt.
