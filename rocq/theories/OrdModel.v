(** Model of parallelization of loops with regular dependencies (#pragma omp ordered):
    - distances of dependencies, /repo/lib/Analysis/Clang/ASTDependenceAnalysis.cpp:215-253
    - makeOrderedRange, OMPOrderedDirective, addOrUpdateOrderedIfNeed, exploitParallelism,
      finalize and buildOrederedSink, /repo/lib/Transform/Clang/OpenMPAutoPar.cpp:105-156, 255-287,
      453-496, 498-587, 598-639, 686-710.

    Simplifications.  Distances are unbounded integers.  A textual representation of a directive is
    replaced with a list of vectors of offsets which are added to induction variables.  An assertion
    and an access out of range of a vector are represented with [None].  A comparison of clauses of
    inner and outer loops, uniqueness of an entry of a body and results of other analyses for inner
    loops are arguments.  A map of dependencies is a list in the order of insertion (the order of
    variables in std::map determines an initial range only). *)
From Coq Require Import List Bool Arith ZArith.
From Verif Require Import ParLoopModel.
Import ListNotations.

(** A minimum and a maximum of distances for a level of a nest.  Known distances of flow and anti
    dependencies are kept only, DistanceInfo, ASTDependenceAnalysis.cpp:218-229 *)
Definition range := (Z * Z)%type.
Record distInfo := Dist { dvFlow : list range; dvAnti : list range }.

(** std::map::emplace, ASTDependenceAnalysis.cpp:237-240: the first distances for a variable are kept *)
Definition emplace (v : nat) (d : distInfo) (m : list (nat * distInfo)) : list (nat * distInfo) :=
  if existsb (fun x => Nat.eqb (fst x) v) m then m else m ++ [(v, d)].

Section Collect.
Variable dist : memT -> distInfo.
(** ASTDependenceAnalysis.cpp:215-253, the first memory of a node determines a variable *)
Fixpoint collectNode (q : search) (ts : list memT) (m : list (nat * distInfo)) : list (nat * distInfo) :=
  match ts with
  | [] => m
  | t :: ts =>
    let m := if distOk (mFlow t) && distOk (mAnti t)
             then match varOfSearch q with Some v => emplace v (dist t) m | None => m end
             else m in
    collectNode q ts m
  end.
(** The same sequence of checks as in [evalNode], ASTDependenceAnalysis.cpp:79-253 *)
Definition depNode (x : node) : bool :=
  let d := nDesc x in
  nCov x && negb (dShared d || dReadonly d) && negb (dInduction d) && negb (dPrivate d) && negb (dReduction d)
  && ((dAnti d || dFlow d) && negb (dOutput d)).
Definition collect (xs : list node) : list (nat * distInfo) :=
  fold_left (fun m x => if depNode x then match nMems x with [] => m | t :: _ => collectNode (mSearch t) (nMems x) m end else m) xs [].
End Collect.

(** update, OpenMPAutoPar.cpp:264-276, without a prefix of enclosing loops: the shorter size, minimums
    and maximums *)
Fixpoint update (dv dst : list range) : list range :=
  match dv, dst with
  | (a, b) :: dv, (a', b') :: dst => (if Z.ltb a' a then a' else a, if Z.gtb b' b then b' else b) :: update dv dst
  | _, _ => []
  end.
Definition updateIf (dv dst : list range) : list range := match dst with [] => dv | _ => update dv dst end.
(** makeOrderedRange, OpenMPAutoPar.cpp:255-287: unknown distances of enclosing loops, distances of the
    current loop are negated *)
Definition makeOrderedRange (deps : list distInfo) (k : nat) : option (list (option range)) :=
  match deps with
  | [] => None
  | f :: _ =>
    let init := match dvFlow f with [] => dvAnti f | _ => dvFlow f end in
    match fold_left (fun dv d => updateIf (updateIf dv (dvFlow d)) (dvAnti d)) deps init with
    | [] => None
    | (a, b) :: dv => Some (repeat None k ++ Some (- a, - b)%Z :: map Some dv)
    end
  end.

(** OMPOrderedDirective, OpenMPAutoPar.cpp:105-149 *)
Record ordered := Ordered { oSink : list (list (option range)); oDepth : nat }.
Definition ordered0 : ordered := Ordered [] 0.
Definition pushBack (dv : list (option range)) (o : ordered) : ordered :=
  Ordered (oSink o ++ [dv]) (if length dv <? oDepth o then length dv else oDepth o).
(** resize appends unset distances *)
Definition resize (n : nat) (s : list (option range)) : list (option range) := firstn n s ++ repeat None (n - length s).
Definition reduceDepth (n : nat) (o : ordered) : ordered :=
  Ordered (if n <? oDepth o then map (resize n) (oSink o) else oSink o) n.

(** buildOrederedSink, OpenMPAutoPar.cpp:598-639: all offsets between bounds, for all levels *)
Fixpoint zrange (a : Z) (n : nat) : list Z := match n with 0 => [] | S n => a :: zrange (a + 1)%Z n end.
Definition between (r : range) : list Z :=
  let '(a, b) := if Z.gtb (fst r) (snd r) then (snd r, fst r) else r in zrange a (Z.to_nat (b - a + 1)).
Fixpoint buildSink (depth : nat) (s : list (option range)) : option (list (list Z)) :=
  match depth with
  | 0 => Some [[]]
  | S depth =>
    match s with
    | [] => None
    | x :: s => match buildSink depth s with
                | None => None
                | Some vs => Some (flat_map (fun d => map (cons d) vs) (match x with None => [0%Z] | Some r => between r end))
                end
    end
  end.
Fixpoint buildSinks (depth : nat) (ss : list (list (option range))) : option (list (list Z)) :=
  match ss with
  | [] => Some []
  | s :: ss => match buildSink depth s, buildSinks depth ss with
               | Some a, Some b => Some (a ++ b)
               | _, _ => None
               end
  end.

(** A loop of a nest: analysis of dependencies succeeds and there is a single induction variable
    (SharedMemoryAutoPar.cpp:118-182, exploitParallelism:503-508), regular dependencies, lists of
    variables for clauses, an entry of a body is unique (462-484), the loop is perfectly nested and has
    inner regions (581-584) *)
Record level := Level {
  lvOk : bool; lvInd : nat; lvDeps : list distInfo;
  lvPriv : list nat; lvLast : list nat; lvFirst : list nat; lvRed : list (nat * nat);
  lvEntry : bool; lvPerfect : bool
}.
(** Comparison of sets of variables *)
Definition pairEqb (a b : nat * nat) : bool := Nat.eqb (fst a) (fst b) && Nat.eqb (snd a) (snd b).
Definition sameVars (a b : list nat) : bool := forallb (fun x => isIn x b) a && forallb (fun x => isIn x a) b.
Definition sameReds (a b : list (nat * nat)) : bool :=
  forallb (fun x => existsb (pairEqb x) b) a && forallb (fun x => existsb (pairEqb x) a) b.
(** addOrUpdateOrderedIfNeed, OpenMPAutoPar.cpp:453-496: a number of loops in a nest is an argument.
    The outer option is a failed assertion *)
Definition addOrUpdate (lv : level) (k : nat) (o : ordered) : option (option (ordered * bool)) :=
  match lvDeps lv with
  | [] => Some (Some (o, false))
  | deps => if lvEntry lv
            then match makeOrderedRange deps k with
                 | None => None
                 | Some dv => let o := pushBack dv o in Some (Some (o, Nat.eqb (oDepth o) (S k)))
                 end
            else Some None
  end.
(** 581-584 *)
Definition finalLevel (lv : level) (final : bool) : bool :=
  match lvDeps lv with [] => true | _ => final || negb (lvPerfect lv) end.
(** exploitParallelism for inner loops and finalize, OpenMPAutoPar.cpp:151-156, 498-508, 559-587: a nest of
    [k] loops with lists of private and reduction variables is extended until it is final *)
Fixpoint extend (lvs : list level) (k : nat) (priv : list nat) (red : list (nat * nat)) (o : ordered) : option (ordered * nat * list nat) :=
  match lvs with
  | [] => Some (reduceDepth k o, k, priv)
  | lv :: lvs =>
    if negb (lvOk lv) then Some (reduceDepth k o, k, priv)
    else
      let priv := remove Nat.eq_dec (lvInd lv) priv in
      if negb (sameVars (lvPriv lv) priv) || negb (sameReds (lvRed lv) red) then Some (reduceDepth k o, k, lvInd lv :: priv)
      else match addOrUpdate lv k o with
           | None => None
           | Some None => Some (reduceDepth k o, k, lvInd lv :: priv)
           | Some (Some (o, final)) =>
             if finalLevel lv final then Some (reduceDepth (S k) o, S k, priv) else extend lvs (S k) priv red o
           end
  end.
(** The result for a nest: a number of collapsed loops, private variables and offsets in
    depend(sink: ...) clauses; other lists of variables are lists of the outermost loop, 513-529 *)
Inductive nestResult := Rejected | Crash | Nest (size : nat) (priv : list nat) (sinks : list (list Z)).
Definition exploitNest (lv : level) (lvs : list level) : nestResult :=
  match addOrUpdate lv 0 ordered0 with
  | None => Crash
  | Some None => Rejected
  | Some (Some (o, final)) =>
    match (if finalLevel lv final then Some (reduceDepth 1 o, 1, lvPriv lv) else extend lvs 1 (lvPriv lv) (lvRed lv) o) with
    | None => Crash
    | Some (o, n, priv) => match buildSinks (oDepth o) (oSink o) with Some vs => Nest n priv vs | None => Crash end
    end
  end.

(** The outermost loop: clauses from [exploitAny], distances of its dependencies *)
Definition exploitOrdered (l : loopInfo) (dist : memT -> distInfo) (entry perfect : bool) (lvs : list level) : option (clauses * nestResult) :=
  match exploitAny l with
  | None => None
  | Some (cl, _) =>
    Some (cl, exploitNest (Level true (cInd cl) (map snd (collect dist (lNodes l))) (cPriv cl) (cLast cl) (cFirst cl) (cRed cl) entry perfect) lvs)
  end.
