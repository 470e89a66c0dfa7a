(** Model of the analyses of defined and live memory.

    Sources (all in /repo):
      include/tsar/ADT/DataFlow.h                139-171, 194-235, 291-340
      include/tsar/Analysis/Memory/DefinedMemory.h  523-583
      lib/Analysis/Memory/DefinedMemory.cpp      826-878 (transfer function),
                                                 880-1055 (collapse)
      include/tsar/Analysis/Memory/LiveMemory.h  86-152
      lib/Analysis/Memory/LiveMemory.cpp         50-97, 117-169

    The memory sets are those of MemSetModel, the regions and their graphs are
    those of RegionModel, the order of evaluation is that of DFlowModel.

    Simplifications:
    - [blockDU] are the def-use sets of basic blocks (they are filled by
      'initialize', DefinedMemory.cpp 669-822, which is not modelled);
    - [aggr] stands for 'aggregate', [local] for the test of memory that is
      allocated in the loop (DefinedMemory.cpp 944-949), [trips] for
      getSmallConstantTripCount;
    - explicit accesses, addresses and unknown instructions (1041-1104) are not
      modelled; locations marked as a hint are produced by that part only, so
      the tests which skip them (941, 1012, 1033) are left out as well;
    - the DenseMap from nodes to values is a function for each region. *)
From Coq Require Import ZArith Bool List.
From Verif Require Import RangeModel MemSetModel DFValueModel DFlowModel RegionModel.
Import ListNotations.
Open Scope nat_scope.

(** DefUseSet: mDefs, mMayDefs, mUses (DefinedMemory.h 74-371). *)
Record du := mkDU { duDefs : mset; duMayDefs : mset; duUses : mset }.
Definition duEmpty : du := mkDU [] [] [].

(** Node pointers are numbers for the solver. *)
Definition code (n : rnode) : node :=
  match n with
  | NEntry => 0 | NExit => 1 | NLatch => 2
  | NBlock b => 3 + 2 * b | NLoop h => 4 + 2 * h
  end.
Definition decode (k : node) : rnode :=
  match k with
  | 0 => NEntry | 1 => NExit | 2 => NLatch
  | S (S (S k)) => if Nat.even k then NBlock (Nat.div2 k) else NLoop (Nat.div2 k)
  end.
Definition regionOf (g : graph) : region :=
  mkRegion (map code (gNodes g)) (fun k => map code (gPred g (decode k)))
           (fun k => map code (gSucc g (decode k))).

(** ** The solver for a framework which keeps both values of a node *)
Section Solver.
  Context {V : Type}.
  Variable top boundary : V.
  (* meetOperator(LHS, RHS): the new value of RHS *)
  Variable meet : V -> V -> V.
  (* transferFunction(V, N): from the argument and the value of the node to the
     new value of the node and the result *)
  Variable tf : node -> V -> V -> V * bool.
  (* the value of a node (getValue) and the other one, which is set to the
     argument of the transfer function *)
  Record vals := mkVals { vVal : node -> V; vArg : node -> V }.

  Variable children : node -> list node.
  (* DataFlow.h 161-165 and 228-232 *)
  Definition gatherK (s : node -> V) (n : node) : V :=
    fold_left (fun acc c => meet (s c) acc) (children n) top.
  (* DataFlow.h 161-167 *)
  Definition evalK (st : vals * bool) (n : node) : vals * bool :=
    let '(s, ch) := st in
    let v := gatherK (vVal s) n in
    let '(x, c) := tf n v (vVal s n) in
    (mkVals (setValue (vVal s) n x) (setValue (vArg s) n v), c || ch).
  (* DataFlow.h 156-169 *)
  Fixpoint iterateK (nodes : list node) (fuel : nat) (s : vals) : option vals :=
    match fuel with
    | O => None
    | S f => let '(s', ch) := fold_left evalK nodes (s, false) in
             if ch then iterateK nodes f s' else Some s'
    end.
  (* DataFlow.h 147-153 and 217-222; initialize creates a pair of empty
     values [e] *)
  Definition initK (e : V) (ns : list node) (entry : node) : vals :=
    mkVals (setValue (fold_left (fun s n => setValue s n top) ns (fun _ => e)) entry boundary)
           (fun _ => e).
  (* DataFlow.h 299-302 and 331-334 *)
  Definition solveK (e : V) (d : direction) (r : region) (fuel : nat) : option vals :=
    match isDAG (gtChildren d r) fuel (gtEntry d r) with
    | None => None
    | Some true =>
      match reversePostOrder (gtEntry d r) (gtInverseChildren d r) fuel with
      | None => None
      | Some ord => Some (fst (fold_left evalK (tl ord) (initK e (tl ord) (gtEntry d r), false)))
      end
    | Some false => iterateK (gtNodes d r) fuel (initK e (gtNodes d r) (gtEntry d r))
    end.
End Solver.
Arguments mkVals {V}.
Arguments vVal {V}.
Arguments vArg {V}.

(* more than the depth of a search in the region *)
Definition fuelOf (g : graph) : nat := S (S (length (gNodes g))).

Section Analysis.
  Variable dio : Z -> Z -> Z -> option (Z * Z * Z * Z).
  Variable bsucc bpred : block -> list block.
  Variable shuffle : list (block * rnode) -> list (block * rnode).
  Variable blockDU : block -> du.
  Variable aggr : loop -> range -> range * bool.
  Variable local : loop -> range -> bool.
  Variable trips : loop -> nat.

  (** ** Defined memory *)
  (* DefinedMemory.h 374-377, DefinitionInfo: MustReach, MayReach *)
  Definition rval := (dfval * dfval)%type.
  (* DefinedMemory.h 526-531 *)
  Definition rTop : rval := (DFull, DMask []).
  (* 532-537; also the value of a new ReachSet *)
  Definition rBoundary : rval := (DMask [], DMask []).
  (* 558-562 *)
  Definition rMeet (l r : rval) : rval :=
    (fst (dfIntersect dio (fst r) (fst l)), fst (dfMerge (snd r) (snd l))).

  (* The def-use set of a node; [sums] are the sets of inner loops. *)
  Fixpoint findSum (h : block) (sums : list (block * du)) : du :=
    match sums with
    | [] => duEmpty
    | (k, d) :: sums => if Nat.eqb k h then d else findSum h sums
    end.
  Definition duOf (sums : list (block * du)) (n : rnode) : du :=
    match n with
    | NBlock b => blockDU b
    | NLoop h => findSum h sums
    | _ => duEmpty
    end.

  (* DefinedMemory.cpp 826-878; the value of the node is its OUT *)
  Definition keepR (old new : rval) : rval * bool :=
    if dfEqb (fst old) (fst new) && dfEqb (snd old) (snd new)
    then (old, false) else (new, true).
  Definition rTransfer (sums : list (block * du)) (k : node) (v old : rval) : rval * bool :=
    match decode k with
    | NExit => keepR old v
    | n =>
      let d := duOf sums n in
      let must := fst (dfMerge (fst (dfInsertAll (DMask []) (allLocs (duDefs d)))) (fst v)) in
      let may := fst (dfMerge
                   (fst (dfInsertAll (fst (dfInsertAll (DMask []) (allLocs (duDefs d))))
                                     (allLocs (duMayDefs d)))) (snd v)) in
      keepR old (must, may)
    end.
  Definition solveReach (sums : list (block * du)) (g : graph) : option (@vals rval) :=
    solveK rTop rBoundary rMeet (rTransfer sums) (gtChildren DForward (regionOf g))
           rBoundary DForward (regionOf g) (fuelOf g).

  (* DefinedMemory.cpp 911-917, distribute *)
  Definition distribute (res : range * bool) (orig : range)
      (acc : mset * list (range * range)) : mset * list (range * range) :=
    let '(own, other) := acc in
    if snd res then (msInsert own (fst res), other) else (own, other ++ [(orig, fst res)]).
  Definition clarified (acc : mset * list (range * range)) : mset :=
    clarify dio (fst acc) (snd acc).

  (* 940-968: the uses of one node of the region *)
  Definition collectUses (isLoop : bool) (l : loop) (d : du) : mset :=
    clarified (fold_left (fun acc Loc =>
                 if isLoop && local l Loc then acc else distribute (aggr l Loc) Loc acc)
               (allLocs (duUses d)) ([], [])).
  Definition addUse (mustIn : dfval) (u : mset) (Loc : range) : mset :=
    match dfSubtract dio mustIn Loc with
    | (true, Some diff) => fst (minsertAll u diff)
    | (true, None) => u
    | (false, _) => msInsert u Loc
    end.
  (* 1014-1038: one definition of a node against the set of definitions that
     reach the latch or the exit *)
  Definition checkDef (l : loop) (must : dfval) (Loc : range)
      (acc : (mset * list (range * range)) * (mset * list (range * range))) :=
    let '(D, M) := acc in
    match dfFindCoveredBy dio must Loc with
    | [] => (D, distribute (aggr l Loc) Loc M)
    | Locs => (fold_left (fun D L => distribute (aggr l L) Loc D) Locs D, M)
    end.
  Definition hasTrips (isLoop : bool) (l : loop) : bool := isLoop && Nat.ltb 0 (trips l).
  Definition collectDefs (isLoop : bool) (l : loop) (latch exit : dfval) (d : du) :=
    fold_left (fun acc Loc =>
        checkDef l exit Loc (if hasTrips isLoop l then checkDef l latch Loc acc else acc))
      (allLocs (duDefs d)) (([], []), ([], [])).
  (* 930-1055: one node *)
  Definition collapseNode (isLoop : bool) (l : loop) (sums : list (block * du))
      (vs : @vals rval) (acc : du) (n : rnode) : du :=
    let d := duOf sums n in
    let uses := fold_left (addUse (fst (vArg vs (code n))))
                  (allLocs (collectUses isLoop l d)) (duUses acc) in
    let '(D, M) := collectDefs isLoop l (fst (vVal vs (code NLatch)))
                     (fst (vVal vs (code NExit))) d in
    let M := fold_left (fun M Loc => distribute (aggr l Loc) Loc M)
               (allLocs (duMayDefs d)) M in
    mkDU (fst (minsertAll (duDefs acc) (allLocs (clarified D))))
         (fst (minsertAll (duMayDefs acc) (allLocs (clarified M)))) uses.
  (* 880-1055, ReachDFFwk::collapse *)
  Definition collapseRegion (isLoop : bool) (l : loop) (sums : list (block * du))
      (g : graph) (vs : @vals rval) : du :=
    fold_left (collapseNode isLoop l sums vs) (gNodes g) duEmpty.

  (* One region when inner regions are done. *)
  Definition reachLevel (l : loop) (sums : list (block * du)) : option (graph * @vals rval) :=
    match buildLevel bsucc bpred shuffle l with
    | None => None
    | Some g => match solveReach sums g with
                | None => None
                | Some vs => Some (g, vs)
                end
    end.
  (* DataFlow.h 291-305, solveDataFlowUpward: the def-use set of a region. *)
  Fixpoint summary (isLoop : bool) (l : loop) {struct l} : option du :=
    let sums := (fix go (is : list loop) : option (list (block * du)) :=
      match is with
      | [] => Some []
      | i :: is =>
        match summary true i, go is with
        | Some d, Some r => Some ((lpHeader i, d) :: r)
        | _, _ => None
        end
      end) (lpInner l) in
    match sums with
    | None => None
    | Some sums =>
      match reachLevel l sums with
      | None => None
      | Some (g, vs) => Some (collapseRegion isLoop l sums g vs)
      end
    end.
  Fixpoint summaries (is : list loop) : option (list (block * du)) :=
    match is with
    | [] => Some []
    | i :: is =>
      match summary true i, summaries is with
      | Some d, Some r => Some ((lpHeader i, d) :: r)
      | _, _ => None
      end
    end.
  (* The values of reach definition analysis in the region of l. *)
  Definition reachOf (l : loop) : option (graph * @vals rval) :=
    match summaries (lpInner l) with
    | None => None
    | Some sums => reachLevel l sums
    end.

  (** ** Live memory *)
  (* LiveMemory.h 127-130 *)
  Definition lMeet (l r : mset) : mset := fst (minsertAll r (allLocs l)).
  (* 90-107 *)
  Definition lBoundary (inV outV : mset) : mset := lMeet outV (lMeet inV []).
  (* LiveMemory.cpp 117-169; the value of the node is its IN *)
  Definition keepL (old new : mset) : mset * bool :=
    if mset_eqb old new then (old, false) else (new, true).
  Definition lTransfer (sums : list (block * du)) (k : node) (v old : mset) : mset * bool :=
    match decode k with
    | NEntry => keepL old v
    | n =>
      let d := duOf sums n in
      keepL old (fold_left (fun s Loc => if contain dio (duDefs d) Loc then s
                                         else msInsert s Loc) (allLocs v) (duUses d))
    end.
  Definition solveLive (sums : list (block * du)) (g : graph) (inV outV : mset)
      : option (@vals mset) :=
    let r := regionOf (expandLive g) in
    solveK [] (lBoundary inV outV) lMeet (lTransfer sums) (gtChildren DBackward r)
           [] DBackward r (fuelOf g).
  Definition liveLevel (l : loop) (inV outV : mset) : option (@vals mset) :=
    match summaries (lpInner l), buildLevel bsucc bpred shuffle l with
    | Some sums, Some g => solveLive sums g inV outV
    | _, _ => None
    end.
  (* DataFlow.h 323-338, solveDataFlowDownward: the values for each region of
     the nest. *)
  Fixpoint liveDown (l : loop) (inV outV : mset) {struct l}
      : option (list (loop * @vals mset)) :=
    match liveLevel l inV outV with
    | None => None
    | Some vs =>
      let rest := (fix go (is : list loop) : option (list (loop * @vals mset)) :=
        match is with
        | [] => Some []
        | i :: is =>
          let n := code (NLoop (lpHeader i)) in
          match liveDown i (vVal vs n) (vArg vs n), go is with
          | Some a, Some b => Some (a ++ b)
          | _, _ => None
          end
        end) (lpInner l) in
      match rest with
      | None => None
      | Some rest => Some ((l, vs) :: rest)
      end
    end.
  (* LiveMemory.cpp 77-93: what is alive after the function if there is no
     interprocedural information. *)
  Definition defaultOut (isAlloca : option nat -> bool) (d : du) : mset :=
    let add := fold_left (fun s Loc => if isAlloca (rPtr Loc) then s else msInsert s Loc) in
    add (allLocs (duMayDefs d)) (add (allLocs (duDefs d)) []).
  (* LiveMemory.cpp 50-97 *)
  Definition liveMemory (f : loop) (out : mset) := liveDown f [] out.
End Analysis.
