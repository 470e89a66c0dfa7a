(** Model of the choice of loops for shared memory parallelization,
    /repo/lib/Transform/Clang/SharedMemoryAutoPar.cpp:
    - findParallelLoops, 105-207, and /repo/lib/Transform/Clang/SharedMemoryAutoPar.h:193-205
    - buildAdjacentList, 240-298
    - addToReachability, 300-333
    - runOnModule, 381-450
    and of isParallelCallee, /repo/lib/Transform/Clang/SharedMemoryAutoPar.h:173-180.

    Simplifications.  A call graph is given by lists of direct calls, an order of strongly
    connected components is given (scc_iterator of LLVM).  A component which consists of
    external nodes only changes nothing and it is omitted.  Results of analyses of loops, a
    result of exploitParallelism() and tests of a function are arguments of the model.
    External calls of mExternalCalls and HasUnknownCalls are not used and they are omitted.
    Sets of numbers are lists in the order of insertion.  The assertion in the line 112 is not
    checked, other failed assertions are [None]. *)
From Coq Require Import List Bool Arith.
Import ListNotations.

(** llvm::Loop: its number, direct calls in all its blocks, inner loops *)
Inductive loop := Loop (id : nat) (calls : list nat) (kids : list loop).
(** ParallelItem, isFinal() and isChildPossible(), finalize(): /repo/include/tsar/Analysis/Parallel/Parallellelization.h:79-87,123 *)
Record pitem := PItem { piFinal : bool; piChild : bool }.
Definition finalizePI (p : option pitem) : option pitem := option_map (fun p => PItem true (piChild p)) p.

Record decisions := Decisions {
  inRegions : nat -> bool;        (* the loop is inside an optimization region *)
  isParallel : nat -> bool;       (* ParallelLoopPass *)
  isCanonical : nat -> bool;      (* CanonicalLoopPass *)
  isLight : nat -> bool;          (* a weight is less than a threshold *)
  depOk : nat -> bool;            (* evaluateDependency() *)
  exploit : nat -> option pitem -> option pitem;
  canProcess : nat -> bool;       (* tests of a function in runOnModule, 411-419 *)
  noContext : nat -> bool         (* there is no transformation context, 429-448 *)
}.
(** a parallel loop: a function, a loop, calls inside the loop *)
Record parLoop := ParLoop { plF : nat; plL : nat; plCalls : list nat }.
Definition isSome {A} (o : option A) : bool := match o with Some _ => true | None => false end.
Definition childPossible (p : option pitem) : bool := match p with Some p => piChild p | None => true end.

Section Loops.
Variable D : decisions.
Variable f : nat.
(** findParallelLoops, 105-207: a parallel item after the call and parallel loops *)
Fixpoint findPar (l : loop) (p : option pitem) {struct l} : option pitem * list parLoop :=
  let findAll := fix findAll (ls : list loop) (p : option pitem) : option pitem * list parLoop :=
    match ls with
    | [] => (p, [])
    | l :: ls => let r := findPar l p in let q := findAll ls (fst r) in (fst q, snd r ++ snd q)
    end in
  match l with
  | Loop id calls kids =>
    if negb (inRegions D id) then findAll kids p
    else if negb (isParallel D id) || negb (isCanonical D id) then
      let p := finalizePI p in if childPossible p then findAll kids p else (p, [])
    else if isLight D id then (p, [])
    else if negb (depOk D id) then
      let p := finalizePI p in if childPossible p then findAll kids p else (p, [])
    else
      let q := exploit D id p in
      let new := if isSome q && negb (isSome p) then [ParLoop f id calls] else [] in
      let r := if match q with Some q => piFinal q | None => false end then (q, []) else findAll kids q in
      (match p with Some _ => fst r | None => None end, new ++ snd r)
  end.
Fixpoint findAll (ls : list loop) (p : option pitem) : option pitem * list parLoop :=
  match ls with
  | [] => (p, [])
  | l :: ls => let r := findPar l p in let q := findAll ls (fst r) in (fst q, snd r ++ snd q)
  end.
End Loops.

(** Functions: direct calls (edges of the call graph without calls of external nodes), loops *)
Record func := Func { fCalls : list nat; fLoops : list loop }.

Section Module.
Variable fn : nat -> func.
Variable D : decisions.

(** Elements of mAdjacentList *)
Record entry := Entry { aF : nat; aId : nat; aCycle : bool; aAdj : list nat }.
Fixpoint idOf (f : nat) (l : list entry) : option nat :=
  match l with [] => None | e :: l => if Nat.eqb (aF e) f then Some (aId e) else idOf f l end.
Definition isIn (x : nat) (l : list nat) : bool := existsb (Nat.eqb x) l.
Definition hasCycle (c : list nat) : bool :=
  match c with [f] => isIn f (fCalls (fn f)) | _ => true end.
(** 257-274: calls of the first function are considered for each function *)
Fixpoint adjOf (acc : list entry) (n : nat) (calls : list nat) (adj : list nat) : option (list nat) :=
  match calls with
  | [] => Some adj
  | g :: calls =>
    if Nat.eqb g n then adjOf acc n calls adj
    else match idOf g acc with
         | Some i => adjOf acc n calls (if isIn i adj then adj else adj ++ [i])
         | None => None
         end
  end.
Fixpoint adjAll (acc : list entry) (ns : list nat) (calls : list nat) (adj : list nat) : option (list nat) :=
  match ns with
  | [] => Some adj
  | n :: ns => match adjOf acc n calls adj with Some adj => adjAll acc ns calls adj | None => None end
  end.
Definition addComponent (acc : list entry) (last : nat) (c : list nat) : option (list entry) :=
  let fresh := fun adj => map (fun f => Entry f last (hasCycle c) adj) c in
  match adjAll (acc ++ fresh []) c (fCalls (fn (hd 0 c))) [] with
  | Some adj => Some (acc ++ fresh adj)
  | None => None
  end.
Fixpoint buildAdjacent (acc : list entry) (last : nat) (cs : list (list nat)) : option (list entry) :=
  match cs with
  | [] => Some acc
  | c :: cs => match addComponent acc last c with Some acc => buildAdjacent acc (S last) cs | None => None end
  end.

(** addToReachability *)
Record dstate := DState { dFinished : list nat; dVisited : list nat; dReach : list (nat * nat) }.
Section Dfs.
Variable adj : list entry.
Fixpoint dfs (fuel : nat) (tos : list nat) (path : list nat) (s : dstate) {struct fuel} : option dstate :=
  match fuel with
  | 0 => None
  | S fuel =>
    (fix go (tos : list nat) (s : dstate) {struct tos} : option dstate :=
      match tos with
      | [] => Some s
      | t :: tos =>
        if isIn t (dVisited s) then go tos s
        else
          let fin := isIn t (dFinished s) in
          let s := DState (if fin then dFinished s else t :: dFinished s) (t :: dVisited s) (map (fun p => (p, t)) path ++ dReach s) in
          match nth_error adj t with
          | None => None
          | Some e =>
            match dfs fuel (aAdj e) (if fin then path else path ++ [t]) s with
            | Some s => go tos s
            | None => None
            end
          end
      end) tos s
  end.
(** 386-401: [prev] is a number of the previous component *)
Fixpoint reachAll (fuel : nat) (l : list entry) (prev : option nat) (fin : list nat) (r : list (nat * nat)) : option (list (nat * nat)) :=
  match l with
  | [] => Some r
  | e :: l =>
    if match prev with Some i => Nat.eqb i (aId e) | None => false end then reachAll fuel l prev fin r
    else if isIn (aId e) fin then reachAll fuel l (Some (aId e)) fin r
    else match dfs fuel (aAdj e) [aId e] (DState (aId e :: fin) [] r) with
         | Some s => reachAll fuel l (Some (aId e)) (dFinished s) (dReach s)
         | None => None
         end
  end.
End Dfs.
Definition reachability (adj : list entry) : option (list (nat * nat)) :=
  reachAll adj (S (length adj)) adj None [] [].

Definition inReach (r : list (nat * nat)) (i j : nat) : bool := existsb (fun p => Nat.eqb (fst p) i && Nat.eqb (snd p) j) r.
(** mParallelCallees: a function and a number of its component *)
Definition isParallelCallee (r : list (nat * nat)) (pc : list (nat * nat)) (f id : nat) : bool :=
  existsb (fun p => Nat.eqb (fst p) f) pc || existsb (fun p => inReach r (snd p) id) pc.
Fixpoint addCallees (adj : list entry) (calls : list nat) (pc : list (nat * nat)) : option (list (nat * nat)) :=
  match calls with
  | [] => Some pc
  | g :: calls => match idOf g adj with
                  | Some i => addCallees adj calls (if existsb (fun p => Nat.eqb (fst p) g) pc then pc else pc ++ [(g, i)])
                  | None => None
                  end
  end.
(** 408-450 *)
Fixpoint process (adj : list entry) (r : list (nat * nat)) (l : list entry) (pc : list (nat * nat)) (par : list parLoop) : option (list parLoop) :=
  match l with
  | [] => Some par
  | e :: l =>
    if aCycle e || negb (canProcess D (aF e)) then process adj r l pc par
    else if isParallelCallee r pc (aF e) (aId e) then process adj r l pc par
    else if noContext D (aF e) then Some par
    else
      let new := snd (findAll D (aF e) (fLoops (fn (aF e))) None) in
      match addCallees adj (flat_map plCalls new) pc with
      | Some pc => process adj r l pc (par ++ new)
      | None => None
      end
  end.
Definition runOnModule (comps : list (list nat)) : option (list parLoop) :=
  match buildAdjacent [] 0 comps with
  | Some adj => match reachability adj with
                | Some r => process adj r (rev adj) [] []
                | None => None
                end
  | None => None
  end.
End Module.
