(** Model of the record of loop-carried dependences of a location,
    /repo/lib/Analysis/Memory/PrivateAnalysis.cpp: insertDependence and
    class DependenceImp.

    Values of symbolic expressions are as in DepModel.v; [Bits] is the width of
    the words the distances are compared in. *)
From Coq Require Import ZArith Bool List Arith.
From Verif Require Import DepModel.
Import ListNotations.

(** A load or a store.  collectDependencies (617-739) calls insertDependence for
    accesses accepted by getLoadOrStoreLocation (462-471) only. *)
Inductive access := Read | Write.
Definition writes (a : access) : bool := match a with Write => true | Read => false end.
Definition reads (a : access) : bool := match a with Write => false | Read => true end.
Inductive kind := Flow | Anti | Output.

Section T.
Variable Env : Type.
Notation scev := (scev Env).
Variable Bits : Z.

(** A dependence found by DependenceInfo::depends, DependenceAnalysis.h 89-287.
    [pConfused]: the base class. Levels start with 1. *)
Record dep := mkDep {
  pSrc : access; pDst : access;
  pConfused : bool; pConfusedLevels : nat; pLevels : nat;
  pDirection : nat -> dirs; pDistance : nat -> option scev }.
(** DependenceAnalysis.cpp 239-253 *)
Definition isOutput (d : dep) : bool := writes (pSrc d) && writes (pDst d).
Definition isFlow (d : dep) : bool := writes (pSrc d) && reads (pDst d).
Definition isAnti (d : dep) : bool := reads (pSrc d) && writes (pDst d).

(** DistanceInfo, PrivateAnalysis.cpp 133-174: a dependence, a level, flags Revert
    and Extend. *)
Record distInfo := mkDist { iDep : dep; iLevel : nat; iRevert : bool; iExtend : bool }.

Definition dirsEqb (a b : dirs) : bool :=
  Bool.eqb (dLT a) (dLT b) && Bool.eqb (dEQ a) (dEQ b) && Bool.eqb (dGT a) (dGT b).
(** Arguments of updateDependence: kinds to set and a distance; [None] is
    DistanceInfo{}. *)
Record upd := mkUpd { uFlow : bool; uAnti : bool; uOutput : bool; uDist : option distInfo }.
Definition uSet (u : upd) (t : kind) : bool :=
  match t with Flow => uFlow u | Anti => uAnti u | Output => uOutput u end.

(** PrivateAnalysis.cpp 563-574: the loop over outer levels, [n] of them. *)
Fixpoint outerOk (d : dep) (OuterDepth n : nat) : bool :=
  match n with
  | O => true
  | S n =>
    let Dir := pDirection d OuterDepth in
    if negb (dirsEqb Dir dEQonly) && negb (dirsEqb Dir dALL)
       && negb (dirsEqb Dir dLE) && negb (dirsEqb Dir dGE) then false
    else outerOk d (S OuterDepth) n
  end.
(** PrivateAnalysis.cpp 549-615, insertDependence; [None]: the dependence is ignored.
    The flags except UnknownDistance and the update of both locations are not
    modelled. *)
Definition insertDependence (d : dep) (LoopDepth : nat) : option upd :=
  if pConfused d || (LoopDepth <=? pConfusedLevels d)%nat then Some (mkUpd true true true None)
  else
    let start := if (0 <? pConfusedLevels d)%nat then pConfusedLevels d else 1%nat in
    if negb (outerOk d start (LoopDepth - start)) then None
    else
      let Dir := pDirection d LoopDepth in
      if dirsEqb Dir dEQonly then None
      else
        let LTorLE := dirsEqb Dir dLTonly || dirsEqb Dir dLE in
        let GTorGE := dirsEqb Dir dGTonly || dirsEqb Dir dGE in
        let dist r e := Some (mkDist d LoopDepth r e) in
        Some (if isOutput d then mkUpd false false true (dist GTorGE false)
              else if dirsEqb Dir dALL then mkUpd true true false (dist false true)
              else if isFlow d then
                if LTorLE then mkUpd true false false (dist false false)
                else mkUpd false true false (dist true false)
              else if isAnti d then
                if LTorLE then mkUpd false true false (dist false false)
                else mkUpd true false false (dist true false)
              else mkUpd true true false (dist false true)).

(** ** DependenceImp (179-373), the part for one kind: is it set in mDptr, the flag
    UnknownDistance, mKnownDistanceLevel, mDists.  A set of distances is a
    list. *)
Record tstate := mkT { tIs : bool; tUnknown : bool; tKnown : option nat; tDists : list (list scev) }.
Definition tNew : tstate := mkT false false None [].
(** 280-294: distances of a level to insert *)
Definition transformed (i : distInfo) (first : bool) (D : scev) : list scev :=
  if negb (iRevert i) && negb (iExtend i) then [D]
  else if iRevert i then [scNeg _ D]
  else if first then [scMax _ (scNeg _ D) D] else [D; scNeg _ D].
(** dists[j].insert(...), 278-294; a new level is appended if j = size *)
Fixpoint insertAt (j : nat) (ds : list (list scev)) (v : list scev) : list (list scev) :=
  match j, ds with
  | O, [] => [v]
  | O, x :: ds => (x ++ v) :: ds
  | S j, x :: ds => x :: insertAt j ds v
  | S _, [] => []
  end.
(** 269-295: the loop over levels, [j] = I - Level, [n] levels remain *)
Fixpoint addLevels (i : distInfo) (j n : nat) (s : tstate) : tstate :=
  match n with
  | O => s
  | S n =>
    match pDistance (iDep i) (iLevel i + j) with
    | None => mkT (tIs s) (if (j =? 0)%nat then true else tUnknown s) (Some j) (firstn j (tDists s))
    | Some D =>
      addLevels i (S j) n
        (mkT (tIs s) (tUnknown s) (tKnown s) (insertAt j (tDists s) (transformed i (j =? 0)%nat D)))
    end
  end.
(** 253-296, UpdateFunctor; [F] is the flag UnknownDistance of mFlag. *)
Definition updateOne (F : bool) (i : option distInfo) (s : tstate) : tstate :=
  let unk := tUnknown s || F in
  match i with
  | None => mkT true true (Some 0%nat) []
  | Some i =>
    if unk then mkT true true (Some 0%nat) []
    else
      let DistLevel := (pLevels (iDep i) + 1)%nat in
      let DistLevel := match tKnown s with
                       | Some k => if (iLevel i + k <? DistLevel)%nat then (iLevel i + k)%nat else DistLevel
                       | None => DistLevel
                       end in
      addLevels i 0 (DistLevel - iLevel i) (mkT true unk (tKnown s) (tDists s))
  end.
(** 322-327: sets of the first [n] levels are joined *)
Fixpoint joinLevels (n : nat) (dst src : list (list scev)) : list (list scev) :=
  match n with
  | O => dst
  | S n => (hd [] dst ++ hd [] src) :: joinLevels n (tl dst) (tl src)
  end.
(** 304-334, UpdateDepFunctor; it is called for kinds of the source only *)
Definition mergeOne (s src : tstate) : tstate :=
  if negb (tIs src) then s
  else
    let unk := tUnknown s || tUnknown src in
    if unk then mkT true true (Some 0%nat) []
    else
      let known := match tKnown src, tKnown s with
                   | Some a, Some b => Some (Nat.min a b)
                   | Some a, None => Some a
                   | None, k => k
                   end in
      let MergedLevel := match known with
                         | Some k => Nat.min k (length (tDists src))
                         | None => length (tDists src)
                         end in
      mkT true unk known (joinLevels MergedLevel (tDists s) (tDists src)).

(** 196-227, SummarizeFunctor: the lowest and the highest distance of levels, [None]
    if the distance is unknown.  The outer [None]: the first level does not
    exist (begin() of an empty vector is read, line 206) or a set is empty.
    The first level is compared as unsigned words. *)
Definition uword (z : Z) : Z := (z mod 2 ^ Bits)%Z.
Definition scUMin (x y : scev) : scev := fun e => if (uword (x e) <=? uword (y e))%Z then x e else y e.
Definition scUMax (x y : scev) : scev := fun e => if (uword (x e) <=? uword (y e))%Z then y e else x e.
Definition fold1 (f : scev -> scev -> scev) (l : list scev) : option scev :=
  match l with [] => None | x :: l => Some (fold_left f l x) end.
Fixpoint summarizeRest (ds : list (list scev)) : option (list (scev * scev)) :=
  match ds with
  | [] => Some []
  | l :: ds =>
    match fold1 (scMin _) l, fold1 (scMax _) l, summarizeRest ds with
    | Some a, Some b, Some r => Some ((a, b) :: r)
    | _, _, _ => None
    end
  end.
Definition summarize (s : tstate) : option (option (list (scev * scev))) :=
  if tUnknown s then Some None
  else
    match tDists s with
    | [] => None
    | l :: ds =>
      match fold1 scUMin l, fold1 scUMax l, summarizeRest ds with
      | Some a, Some b, Some r => Some (Some ((a, b) :: r))
      | _, _, _ => None
      end
    end.

(** DependenceImp: all kinds; update (234-243) *)
Record imp := mkImp { mFlow : tstate; mAnti : tstate; mOutput : tstate }.
Definition impNew : imp := mkImp tNew tNew tNew.
Definition get (m : imp) (t : kind) : tstate :=
  match t with Flow => mFlow m | Anti => mAnti m | Output => mOutput m end.
Definition update (u : upd) (F : bool) (m : imp) : imp :=
  let f t := if uSet u t then updateOne F (uDist u) (get m t) else get m t in
  mkImp (f Flow) (f Anti) (f Output).
Definition merge (m src : imp) : imp :=
  let f t := mergeOne (get m t) (get src t) in
  mkImp (f Flow) (f Anti) (f Output).

(** What happens to the record of a location for the loop at depth [k]: dependences
    between loads and stores are inserted (collectDependencies 712-723),
    unknown ones are assumed (646-702), records of other locations are merged
    into it (mergeDependence, 440-460). *)
Inductive history :=
| HNew
| HInsert (h : history) (d : dep)
| HAssume (h : history)
| HMerge (h from : history).
Fixpoint run (k : nat) (h : history) : imp :=
  match h with
  | HNew => impNew
  | HInsert h d =>
    match insertDependence d k with
    | None => run k h
    | Some u => update u false (run k h)
    end
  | HAssume h => update (mkUpd true true true None) true (run k h)
  | HMerge h from => merge (run k h) (run k from)
  end.
End T.
