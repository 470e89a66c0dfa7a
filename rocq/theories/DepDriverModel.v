(** Model of the driver of dependence tests,
    /repo/lib/Analysis/Memory/DependenceAnalysis.cpp: DependenceInfo::depends with
    classifyPair, testSIV, testRDIV and the Delta test for coupled subscripts.

    Simplifications (besides those of DepModel.v and MIVModel.v).
    - Delinearization (tryDelinearize), removeMatchingExtensions, getSCEVAtScope
      and unifySubscriptType are done before: the input is a list of subscripts,
      each is a pair of chains of recurrences or it is non-linear.  All numbers
      have the same width [Bits].
    - ConfusedLevels are not modelled: a subscript with a start or a step which
      is not invariant is non-linear.
    - The flag Consistent and the split iteration are not modelled here. *)
From Coq Require Import ZArith Bool List Arith Lia.
From Verif Require Import DepModel MIVModel.
Import ListNotations.
Local Open Scope Z_scope.

(** Outcome of a step: undefined behavior (violated assertion, unreachable code, use
    of an uninitialized variable), the bound on the number of rounds is exceeded,
    dependence is disproved (return nullptr or true), go on. *)
Inductive res (A : Type) := Undef | OutOfFuel | Disproved | Go (a : A).
Arguments Undef {A}.
Arguments OutOfFuel {A}.
Arguments Disproved {A}.
Arguments Go {A} a.
Definition bind {A B} (r : res A) (f : A -> res B) : res B :=
  match r with
  | Undef => Undef
  | OutOfFuel => OutOfFuel
  | Disproved => Disproved
  | Go a => f a
  end.
(** A loop over set bits of SmallBitVector in ascending order; loops of the driver
    reset the current bit only. *)
Fixpoint forEach {S} (f : nat -> S -> res S) (l : list nat) (s : S) : res S :=
  match l with
  | [] => Go s
  | n :: l => bind (f n s) (forEach f l)
  end.
Definition bits := nat -> bool.
Definition setBits (n : nat) (b : bits) : list nat := filter b (seq 0 n).
Definition countBits (n : nat) (b : bits) : nat := length (setBits n b).
Definition noBits : bits := fun _ => false.
Definition orBits (a b : bits) : bits := fun K => a K || b K.
Definition andBits (a b : bits) : bits := fun K => a K && b K.
Definition anyBits (n : nat) (b : bits) : bool := existsb b (seq 0 n).

(** Subscript::ClassificationKind without NonLinear, DependenceAnalysis.h 388 *)
Inductive cls := ZIV | SIV | RDIV | MIV.

Section Driver.
Variable Env : Type.
Notation scev := (scev Env).
Variable Or : oracle Env.
Variable Q : miv Env.
(** Equality of pointers to SCEVs (testSIV, SrcCoeff == DstCoeff and SrcCoeff == -DstCoeff). *)
Variable same : scev -> scev -> bool.
Variable upperBound : loop -> option scev.
Variable Bits : Z.
(** Loops around the source and the destination, the innermost ones first. *)
Variables srcNest dstNest : list loop.
(** Loop::getLoopDepth of a loop outside of the nest. *)
Variable outDepth : loop -> nat.
Variable lv : levels.

(** A subscript: linear in both accesses, or non-linear which depends on common
    loops of the given levels (collectCommonLoops, 860-870). *)
Inductive subscript :=
| Linear (Src Dst : expr Env)
| NonLinear (Loops : bits).

Definition contains (nest : list loop) (L : loop) : bool :=
  match depthIn nest L with Some _ => true | None => false end.
(** DependenceAnalysis.cpp 816-831, mapSrcLoop and mapDstLoop for each loop *)
Definition mapSrc (L : loop) : nat :=
  match mapSrcLoop srcNest L with Some K => K | None => outDepth L end.
Definition mapDst (L : loop) : nat :=
  match mapDstLoop lv dstNest L with
  | Some K => K
  | None => let D := outDepth L in
            if Nat.ltb (CommonLevels lv) D then (D - CommonLevels lv + SrcLevels lv)%nat else D
  end.
(** DependenceAnalysis.cpp 948-976 and 984-1012, checkSrcSubscript and
    checkDstSubscript: levels of loops of a chain. *)
Definition levelsOf (map : loop -> nat) (E : expr Env) : bits :=
  fun K => existsb (fun p => Nat.eqb (map (fst p)) K) (eRecs _ E).
Definition NL : nat := S (MaxLevels lv).
(** DependenceAnalysis.cpp 1023-1060, classifyPair.  [None]: a bit outside of
    SmallBitVector is set. *)
Definition classifyPair (Src Dst : expr Env) : option (cls * bits) :=
  let SrcLoops := levelsOf mapSrc Src in
  let DstLoops := levelsOf mapDst Dst in
  if forallb (fun p => Nat.ltb (mapSrc (fst p)) NL) (eRecs _ Src) &&
     forallb (fun p => Nat.ltb (mapDst (fst p)) NL) (eRecs _ Dst) then
    let Loops := orBits SrcLoops DstLoops in
    let N := countBits NL Loops in
    Some (if Nat.eqb N 0 then ZIV
          else if Nat.eqb N 1 then SIV
          else if Nat.eqb N 2 && (Nat.eqb (countBits NL SrcLoops) 0 ||
                                  Nat.eqb (countBits NL DstLoops) 0 ||
                                  (Nat.eqb (countBits NL SrcLoops) 1 &&
                                   Nat.eqb (countBits NL DstLoops) 1)) then RDIV
          else MIV, Loops)
  else None.

(** The direction vector: levels start with 1 (FullDependence::DV). *)
Definition dvec := nat -> dventry Env.
Definition withDirs (dv : dvec) (d : nat -> dirs) : dvec := fun K => setDir _ (dv K) (d K).
Definition lift (r : option (bool * (nat -> dirs))) (dv : dvec) : res dvec :=
  match r with
  | None => Undef
  | Some (true, _) => Disproved
  | Some (false, d) => Go (withDirs dv d)
  end.
Definition gcdLift (Src Dst : expr Env) (dv : dvec) : res dvec :=
  lift (gcdMIVtest _ Or Q srcNest dstNest Src Dst (fun K => dvDir _ (dv K))) dv.
(** DependenceAnalysis.cpp 1191-1199, collectConstantUpperBound *)
Definition constUB (L : loop) : option Z :=
  match upperBound L with Some U => seConst _ Or U | None => None end.

(** DependenceAnalysis.cpp 1604-1770, exactSIVtest (the part for constants is
    [exactSIV]).  [None]: out of fuel of findGCD. *)
Definition exactSIVtest (SrcCoeff DstCoeff SrcConst DstConst : scev) (CurLoop : loop)
    (dv : dventry Env) : option (tres Env) :=
  if negb (seEnclosing _ Or SrcConst DstConst) then Some (mkT _ false dv None None)
  else
    let Delta := scSub _ DstConst SrcConst in
    let line := Some (CLine _ SrcCoeff (scNeg _ DstCoeff) Delta) in
    match seConst _ Or Delta, seConst _ Or SrcCoeff, seConst _ Or DstCoeff with
    | Some CD, Some AM, Some BM =>
      match exactSIV Bits AM BM CD (constUB CurLoop) with
      | None => None
      | Some SivIndep => Some (mkT _ true dv line None)
      | Some (SivDirs d) =>
        let dv' := andDir _ dv d in
        Some (mkT _ (dempty (dvDir _ dv')) dv' line None)
      end
    | _, _, _ => Some (mkT _ false dv line None)
    end.
(** DependenceAnalysis.cpp 2014-2106, exactRDIVtest *)
Definition exactRDIVtest (SrcCoeff DstCoeff SrcConst DstConst : scev) (SrcLoop DstLoop : loop)
    : option bool :=
  if negb (seEnclosing _ Or SrcConst DstConst) then Some false
  else
    let Delta := scSub _ DstConst SrcConst in
    match seConst _ Or Delta, seConst _ Or SrcCoeff, seConst _ Or DstCoeff with
    | Some CD, Some AM, Some BM => exactRDIV Bits AM BM CD (constUB SrcLoop) (constUB DstLoop)
    | _, _, _ => Some false
    end.

(** A constraint and its loop (AssociatedLoop). *)
Definition cons := (constr Env * loop)%type.
Definition setNew (nc : cons) (c : option (constr Env)) (L : loop) : cons :=
  match c with Some c => (c, L) | None => nc end.
(** DependenceAnalysis.cpp 2274-2345, testSIV.  The result: the direction vector,
    Level ([None] if it is not assigned), NewConstraint.  Chains with the same
    loop twice are undefined. *)
Definition testSIV (Src Dst : expr Env) (dv : dvec) (nc : cons) : res (dvec * option nat * cons) :=
  match eRecs _ Src, eRecs _ Dst with
  | [(L, a)], [(L', b)] =>
    if negb (contains srcNest L && contains dstNest L') then Go (dv, None, nc)
    else if negb (Nat.eqb L L') then Undef
    else
      let Level := mapSrc L in
      if negb (Nat.leb 1 Level && Nat.leb Level (CommonLevels lv)) then Undef
      else
        let sc := eStart _ Src in
        let dc := eStart _ Dst in
        let r := if same a b then Some (strongSIV _ Or a sc dc (upperBound L) (dv Level))
                 else if same a (scNeg _ b)
                      then Some (weakCrossingSIV _ Or a sc dc (upperBound L) (dv Level))
                 else exactSIVtest a b sc dc L (dv Level) in
        match r with
        | None => Undef
        | Some r =>
          if tIndep _ r then Disproved
          else bind (gcdLift Src Dst (setLevel dv Level (tDV _ r))) (fun dv' =>
               if symbolicRDIV _ Or a b sc dc (upperBound L) (upperBound L) then Disproved
               else Go (dv', Some Level, setNew nc (tConstr _ r) L))
        end
  | [(L, a)], [] =>
    if negb (contains srcNest L) then Go (dv, None, nc)
    else
      let Level := mapSrc L in
      let r := weakZeroDstSIV _ Or a (eStart _ Src) (eStart _ Dst) (upperBound L)
                 (Nat.leb Level (CommonLevels lv)) (dv Level) in
      if tIndep _ r then Disproved
      else bind (gcdLift Src Dst (setLevel dv Level (tDV _ r))) (fun dv' =>
           Go (dv', Some Level, setNew nc (tConstr _ r) L))
  | [], [(L, b)] =>
    if negb (contains dstNest L) then Go (dv, None, nc)
    else
      let Level := mapDst L in
      let r := weakZeroSrcSIV _ Or b (eStart _ Src) (eStart _ Dst) (upperBound L)
                 (Nat.leb Level (CommonLevels lv)) (dv Level) in
      if tIndep _ r then Disproved
      else bind (gcdLift Src Dst (setLevel dv Level (tDV _ r))) (fun dv' =>
           Go (dv', Some Level, setNew nc (tConstr _ r) L))
  | _, _ => Undef
  end.

(** DependenceAnalysis.cpp 2358-2415, testRDIV *)
Definition testRDIV (Src Dst : expr Env) (dv : dvec) : res dvec :=
  match (match eRecs _ Src, eRecs _ Dst with
         | [(L, a)], [(L', b)] => Some (a, b, L, L')
         | [(L2, a2); (L1, a1)], [] => Some (a1, scNeg _ a2, L1, L2)
         | [], [(L2, a2); (L1, a1)] => Some (scNeg _ a2, a1, L2, L1)
         | _, _ => None
         end) with
  | None => Undef
  | Some (a, b, L, L') =>
    let sc := eStart _ Src in
    let dc := eStart _ Dst in
    match exactRDIVtest a b sc dc L L' with
    | None => Undef
    | Some true => Disproved
    | Some false =>
      bind (gcdLift Src Dst dv) (fun dv' =>
      if symbolicRDIV _ Or a b sc dc (upperBound L) (upperBound L') then Disproved else Go dv')
    end
  end.
(** DependenceAnalysis.cpp 2424-2432, testMIV *)
Definition testMIVLift (Src Dst : expr Env) (Loops : bits) (dv : dvec) : res dvec :=
  lift (testMIV _ Or Q upperBound srcNest dstNest lv Loops Src Dst (fun K => dvDir _ (dv K))) dv.
(** DependenceAnalysis.cpp 1207-1229, testZIV *)
Definition testZIVLift (Src Dst : expr Env) (dv : dvec) : res dvec :=
  if testZIV _ Or (eStart _ Src) (eStart _ Dst) then Disproved else Go dv.

(** struct Subscript, DependenceAnalysis.h 386-396 *)
Record pair := mkPair {
  pSub : subscript; pCls : cls; pLoops : bits; pGroupLoops : bits; pGroup : bits }.
Definition isLinear (p : pair) : bool := match pSub p with Linear _ _ => true | _ => false end.
Definition pairs := nat -> pair.
(** DependenceAnalysis.cpp 3644-3676: classification of subscripts.  Loops of a
    non-linear subscript are collected at lines 3742-3747, GroupLoops of it are
    empty. *)
Definition initPair (P : nat) (sub : subscript) : option pair :=
  match sub with
  | NonLinear Loops => Some (mkPair sub MIV Loops noBits (Nat.eqb P))
  | Linear Src Dst =>
    match classifyPair Src Dst with
    | None => None
    | Some (c, Loops) => Some (mkPair sub c Loops Loops (Nat.eqb P))
    end
  end.
Fixpoint initPairs (P : nat) (subs : list subscript) : option (list pair) :=
  match subs with
  | [] => Some []
  | sub :: subs =>
    match initPair P sub, initPairs (S P) subs with
    | Some p, Some ps => Some (p :: ps)
    | _, _ => None
    end
  end.
Definition noPair : pair := mkPair (NonLinear noBits) MIV noBits noBits noBits.
Definition asMap (ps : list pair) : pairs := fun P => nth P ps noPair.

(** ** Partition, DependenceAnalysis.cpp 3738-3778 *)
Definition intersects (a b : bits) : bool := anyBits NL (andBits a b).
(** The inner loop 3756-3766 for the given SJ. *)
Definition mergeInto (SI SJ : nat) (s : pairs * bool) : pairs * bool :=
  let '(ps, Done) := s in
  if intersects (pGroupLoops (ps SI)) (pGroupLoops (ps SJ)) then
    let p := ps SJ in
    (setLevel ps SJ (mkPair (pSub p) (pCls p) (pLoops p)
                       (orBits (pGroupLoops p) (pGroupLoops (ps SI)))
                       (orBits (pGroup p) (pGroup (ps SI)))), false)
  else s.
Record parts := mkParts { ptPairs : pairs; ptSep : bits; ptCpl : bits }.
Definition addBit (b : bits) (K : nat) : bits := setLevel b K true.
Definition partStep (n SI : nat) (s : parts) : parts :=
  let p := ptPairs s SI in
  if negb (isLinear p) then s
  else match pCls p with
  | ZIV => mkParts (ptPairs s) (addBit (ptSep s) SI) (ptCpl s)
  | _ =>
    let '(ps, Done) := fold_left (fun st SJ => mergeInto SI SJ st) (seq (S SI) (n - S SI)) (ptPairs s, true) in
    if Done then
      if Nat.eqb (countBits n (pGroup p)) 1 then mkParts ps (addBit (ptSep s) SI) (ptCpl s)
      else mkParts ps (ptSep s) (addBit (ptCpl s) SI)
    else mkParts ps (ptSep s) (ptCpl s)
  end.
Definition partition (n : nat) (ps : pairs) : parts :=
  fold_left (fun s SI => partStep n SI s) (seq 0 n) (mkParts ps noBits noBits).

(** ** Separable subscripts, DependenceAnalysis.cpp 3785-3819 *)
Definition sepStep (ps : pairs) (SI : nat) (s : dvec * cons) : res (dvec * cons) :=
  let '(dv, nc) := s in
  match pSub (ps SI) with
  | NonLinear _ => Undef
  | Linear Src Dst =>
    match pCls (ps SI) with
    | ZIV => bind (testZIVLift Src Dst dv) (fun dv => Go (dv, nc))
    | SIV => bind (testSIV Src Dst dv nc) (fun r => let '(dv, _, nc) := r in Go (dv, nc))
    | RDIV => bind (testRDIV Src Dst dv) (fun dv => Go (dv, nc))
    | MIV => bind (testMIVLift Src Dst (pLoops (ps SI)) dv) (fun dv => Go (dv, nc))
    end
  end.

(** ** Coupled subscripts, DependenceAnalysis.cpp 3821-3943 *)
Record st := mkSt {
  sDV : dvec; sNew : cons; sCons : nat -> cons; sPairs : pairs;
  sSivs : bits; sMivs : bits; sLevels : bits; sChanged : bool }.
(** 3847-3865: a SIV subscript of the group.  A constraint which is unknown takes
    the loop of the new one (X is assigned Y, 456). *)
Definition sivStep (SJ : nat) (s : st) : res st :=
  match pSub (sPairs s SJ) with
  | NonLinear _ => Undef
  | Linear Src Dst =>
    bind (testSIV Src Dst (sDV s) (sNew s)) (fun r =>
    let '(dv, oL, nc) := r in
    match oL with
    | None => Undef
    | Some Level =>
      let '(X, LX) := sCons s Level in
      match intersectConstraints _ Or (constUB LX) X (fst nc) with
      | None => Undef
      | Some (R, ch) =>
        if ch && isEmptyC _ R then Disproved
        else
          let LR := if isAnyC _ X then snd nc else LX in
          Go (mkSt dv nc (if ch then setLevel (sCons s) Level (R, LR) else sCons s) (sPairs s)
                (setLevel (sSivs s) SJ false) (sMivs s) (addBit (sLevels s) Level)
                (sChanged s || ch))
      end
    end)
  end.
(** 3871-3903: propagation to a subscript of the group. *)
Definition propStep (SJ : nat) (s : st) : res st :=
  let p := sPairs s SJ in
  match pSub p with
  | NonLinear _ => Undef
  | Linear Src Dst =>
    match propagate _ Or Q Src Dst
            (map (fun K => (snd (sCons s K), fst (sCons s K))) (setBits NL (pLoops p))) with
    | None => Undef
    | Some (false, _, _, _) => Go s
    | Some (true, Src', Dst', _) =>
      match classifyPair Src' Dst' with
      | None => Undef
      | Some (c, Loops) =>
        let ps := setLevel (sPairs s) SJ
                    (mkPair (Linear Src' Dst') c Loops (pGroupLoops p) (pGroup p)) in
        match c with
        | ZIV => bind (testZIVLift Src' Dst' (sDV s)) (fun dv =>
                 Go (mkSt dv (sNew s) (sCons s) ps (sSivs s) (setLevel (sMivs s) SJ false)
                       (sLevels s) (sChanged s)))
        | SIV => Go (mkSt (sDV s) (sNew s) (sCons s) ps (setLevel (sSivs s) SJ true)
                       (setLevel (sMivs s) SJ false) (sLevels s) (sChanged s))
        | _ => Go (mkSt (sDV s) (sNew s) (sCons s) ps (sSivs s) (sMivs s) (sLevels s) (sChanged s))
        end
      end
    end
  end.
Definition clearChanged (s : st) : st :=
  mkSt (sDV s) (sNew s) (sCons s) (sPairs s) (sSivs s) (sMivs s) (sLevels s) false.
(** 3845-3907: while (Sivs.any()); [n] is the number of subscripts. *)
Fixpoint rounds (n fuel : nat) (s : st) : res st :=
  if anyBits n (sSivs s) then
    match fuel with
    | O => OutOfFuel
    | S fuel =>
      bind (forEach sivStep (setBits n (sSivs s)) (clearChanged s)) (fun s1 =>
      bind (if sChanged s1 then forEach propStep (setBits n (sMivs s1)) s1 else Go s1)
           (rounds n fuel))
    end
  else Go s.
(** 3909-3918: RDIV subscripts which remain. *)
Definition rdivStep (SJ : nat) (s : st) : res st :=
  let p := sPairs s SJ in
  match pSub p, pCls p with
  | Linear Src Dst, RDIV =>
    bind (testRDIV Src Dst (sDV s)) (fun dv =>
    Go (mkSt dv (sNew s) (sCons s) (sPairs s) (sSivs s) (setLevel (sMivs s) SJ false)
          (sLevels s) (sChanged s)))
  | _, _ => Go s
  end.
(** 3920-3931: MIV subscripts which remain. *)
Definition mivStep (SJ : nat) (s : st) : res st :=
  let p := sPairs s SJ in
  match pSub p, pCls p with
  | Linear Src Dst, MIV =>
    bind (testMIVLift Src Dst (pLoops p) (sDV s)) (fun dv =>
    Go (mkSt dv (sNew s) (sCons s) (sPairs s) (sSivs s) (sMivs s) (sLevels s) (sChanged s)))
  | _, _ => Undef
  end.
(** 3933-3941: directions from the constraints. *)
Definition dirStep (SJ : nat) (s : st) : res st :=
  match updateDirection _ Or (sDV s SJ) (fst (sCons s SJ)) with
  | None => Undef
  | Some e =>
    if dempty (dvDir _ e) then Disproved
    else Go (mkSt (setLevel (sDV s) SJ e) (sNew s) (sCons s) (sPairs s) (sSivs s) (sMivs s)
               (sLevels s) (sChanged s))
  end.
(** 3829-3843: SIV and other subscripts of the group. *)
Definition groupStart (SI : nat) (s : st) : st :=
  let Group := pGroup (sPairs s SI) in
  let isSiv SJ := match pCls (sPairs s SJ) with SIV => true | _ => false end in
  mkSt (sDV s) (sNew s) (sCons s) (sPairs s)
    (fun SJ => Group SJ && isSiv SJ) (fun SJ => Group SJ && negb (isSiv SJ)) noBits false.
(** 3828-3942: one coupled group. *)
Definition groupStep (n SI : nat) (s : st) : res st :=
  bind (rounds n (S n) (groupStart SI s)) (fun s1 =>
  bind (forEach rdivStep (setBits n (sMivs s1)) s1) (fun s2 =>
  bind (forEach mivStep (setBits n (sMivs s2)) s2) (fun s3 =>
  forEach dirStep (filter (fun K => Nat.leb K (CommonLevels lv)) (setBits NL (sLevels s3))) s3))).

(** ** The whole test of subscripts, DependenceAnalysis.cpp 3644-3979 *)
(** 3945-3951: Scalar flags *)
Definition clearScalars (n : nat) (ps : pairs) (dv : dvec) : dvec :=
  fun K => if Nat.leb 1 K && Nat.leb K (CommonLevels lv) &&
              existsb (fun P => pLoops (ps P) K) (seq 0 n)
           then mkDV _ (dvDir _ (dv K)) false (dvPeelFirst _ (dv K)) (dvPeelLast _ (dv K))
                  (dvSplitable _ (dv K)) (dvDist _ (dv K))
           else dv K.
Definition isEQonly (d : dirs) : bool := dEQ d && negb (dLT d) && negb (dGT d).
(** A dependence with a direction vector and the flag LoopIndependent. *)
Record full := mkFull { fDV : dvec; fLoopIndependent : bool }.
Definition commonLevels : list nat := seq 1 (CommonLevels lv).
(** 3953-3978: LoopIndependent, or all the directions are '=' *)
Definition finish (PossiblyLoopIndependent : bool) (dv : dvec) : res full :=
  if PossiblyLoopIndependent
  then Go (mkFull dv (forallb (fun K => dEQ (dvDir _ (dv K))) commonLevels))
  else if forallb (fun K => isEQonly (dvDir _ (dv K))) commonLevels then Disproved
  else Go (mkFull dv false).
Definition groupsStart (dv : dvec) (nc : cons) (ps : pairs) : st :=
  mkSt dv nc (fun _ => (CAny Env, 0%nat)) ps noBits noBits noBits false.
Definition testSubscripts (PossiblyLoopIndependent : bool) (subs : list subscript) : res full :=
  let n := length subs in
  match initPairs 0 subs with
  | None => Undef
  | Some l =>
    let pt := partition n (asMap l) in
    let anyC := (CAny Env, 0%nat) in
    bind (forEach (sepStep (ptPairs pt)) (setBits n (ptSep pt)) ((fun _ => dvInit _), anyC)) (fun r =>
    let '(dv, nc) := r in
    bind (forEach (groupStep n) (setBits n (ptCpl pt))
            (groupsStart dv nc (ptPairs pt))) (fun s =>
    finish PossiblyLoopIndependent (clearScalars n (sPairs s) (sDV s))))
  end.
End Driver.

(** ** Accesses *)
Inductive alias := NoAlias | MayAlias | PartialAlias | MustAlias.
(** Facts about the two instructions: is it the same instruction, may they access
    memory, are they unordered loads or stores, aliasing of underlying objects. *)
Record query := mkQuery {
  qSame : bool; qSrcMemory : bool; qDstMemory : bool; qSrcSimple : bool; qDstSimple : bool;
  qAlias : alias; qPossiblyLoopIndependent : bool }.
Inductive answer (Env : Type) := NoDependence | Confused | Full (f : full Env).
Arguments NoDependence {Env}.
Arguments Confused {Env}.
Arguments Full {Env} f.
(** DependenceAnalysis.cpp 3578-3979, depends.  [None]: undefined behavior. *)
Definition depends {Env} (Or : oracle Env) (Q : miv Env) (same : scev Env -> scev Env -> bool)
    (upperBound : loop -> option (scev Env)) (Bits : Z) (srcNest dstNest : list loop)
    (outDepth : loop -> nat) (q : query) (subs : list (subscript Env)) : option (answer Env) :=
  let PossiblyLoopIndependent := if qSame q then false else qPossiblyLoopIndependent q in
  if negb (qSrcMemory q) || negb (qDstMemory q) then Some NoDependence
  else if negb (qSrcSimple q) || negb (qDstSimple q) then Some Confused
  else match qAlias q with
  | MayAlias | PartialAlias => Some Confused
  | NoAlias => Some NoDependence
  | MustAlias =>
    match establishNestingLevels srcNest dstNest with
    | None => None
    | Some lv =>
      match testSubscripts Env Or Q same upperBound Bits srcNest dstNest outDepth lv
              PossiblyLoopIndependent subs with
      | Undef => None
      | OutOfFuel => None
      | Disproved => Some NoDependence
      | Go f => Some (Full f)
      end
    end
  end.
