(* Model of the construction of data-flow regions.

   Sources (all in /repo):
     lib/Analysis/DFRegionInfo.cpp          49-55, 57-72, 74-163
     include/tsar/Analysis/DataFlowGraph.h  addNode 296-325
     include/tsar/ADT/DataFlow.h            SmallDFNode 397-535
     include/tsar/Analysis/Memory/LiveMemory.h expand/collapse 135-152

   Simplifications:
   - a basic block is a natural number; a loop of LoopInfo is its header, the
     list of its blocks and its direct inner loops; a function with its LoopInfo
     is the same kind of object (LoopTraits.h:80-115: header = entry block,
     blocks = all blocks, inner loops = top-level loops);
   - DFNode pointers are values of [rnode]: a node of an inner loop is named by
     the header of that loop (headers of different loops are different);
   - the order in which the DenseMap 'Blocks' is traversed is unspecified, the
     model takes it as a parameter [shuffle];
   - dereference of Blocks.end() (assertion at DFRegionInfo.cpp:139) is the
     outcome None. *)
From Coq Require Import List Arith Bool.
Import ListNotations.

Definition block := nat.

Inductive rnode :=
| NEntry
| NExit
| NLatch
| NBlock (b : block)
| NLoop (h : block).

Definition rnode_eqb (a b : rnode) : bool :=
  match a, b with
  | NEntry, NEntry | NExit, NExit | NLatch, NLatch => true
  | NBlock x, NBlock y | NLoop x, NLoop y => Nat.eqb x y
  | _, _ => false
  end.

Definition isEntry (n : rnode) : bool :=
  match n with NEntry => true | _ => false end.
Definition isExit (n : rnode) : bool :=
  match n with NExit => true | _ => false end.

(* llvm::Loop / (Function, LoopInfo) through LoopTraits. *)
Inductive loop := Loop (header : block) (blocks : list block)
                       (inner : list loop).
Definition lpHeader (l : loop) : block := match l with Loop h _ _ => h end.
Definition lpBlocks (l : loop) : list block := match l with Loop _ b _ => b end.
Definition lpInner (l : loop) : list loop := match l with Loop _ _ i => i end.

(* DFRegion: mNodes and the adjacency lists of the nodes (DataFlow.h:533). *)
Record graph := mkGraph {
  gNodes : list rnode;
  gSucc : rnode -> list rnode;
  gPred : rnode -> list rnode
}.

(* DataFlow.h:467-472, addAdjacentNode: push_back. *)
Definition push (adj : rnode -> list rnode) (n m : rnode)
  : rnode -> list rnode :=
  fun x => if rnode_eqb x n then adj x ++ [m] else adj x.

Definition addSuccessor (g : graph) (n m : rnode) : graph :=
  mkGraph (gNodes g) (push (gSucc g) n m) (gPred g).
Definition addPredecessor (g : graph) (n m : rnode) : graph :=
  mkGraph (gNodes g) (gSucc g) (push (gPred g) n m).

(* The pair of calls X->addSuccessor(Y); Y->addPredecessor(X). *)
Definition addEdge (g : graph) (x y : rnode) : graph :=
  addPredecessor (addSuccessor g x y) y x.

(* DataFlow.h:492-511, removeAdjacentNode. The list is walked from the last
   element to the first one, an element equal to Node is erased. *)
Fixpoint eraseFromEnd (rl : list rnode) (n : rnode) : list rnode :=
  match rl with
  | [] => []
  | x :: rl' => if rnode_eqb x n then eraseFromEnd rl' n
                else x :: eraseFromEnd rl' n
  end.
Definition removeAdjacent (l : list rnode) (n : rnode) : list rnode :=
  rev (eraseFromEnd (rev l) n).
Definition removeSuccessor (g : graph) (n m : rnode) : graph :=
  mkGraph (gNodes g)
    (fun x => if rnode_eqb x n then removeAdjacent (gSucc g x) m
              else gSucc g x)
    (gPred g).
Definition removePredecessor (g : graph) (n m : rnode) : graph :=
  mkGraph (gNodes g) (gSucc g)
    (fun x => if rnode_eqb x n then removeAdjacent (gPred g x) m
              else gPred g x).

(* DataFlowGraph.h:313-320, addNode: position of a new node in mNodes. *)
Definition insertNode (l : list rnode) (n : rnode) : list rnode :=
  if isEntry n then n :: l
  else if isExit n then l ++ [n]
  else match rev l with
       | [] => l ++ [n]
       | x :: _ => if isExit x then removelast l ++ [n; x] else l ++ [n]
       end.
Definition addNode (g : graph) (n : rnode) : graph :=
  mkGraph (insertNode (gNodes g) n) (gSucc g) (gPred g).

(* DenseMap<BasicBlock *, DFNode *>: find, insert (keeps an existing value). *)
Fixpoint findBlock (m : list (block * rnode)) (b : block) : option rnode :=
  match m with
  | [] => None
  | (k, v) :: m' => if Nat.eqb k b then Some v else findBlock m' b
  end.
Definition insertBlock (m : list (block * rnode)) (b : block) (n : rnode)
  : list (block * rnode) :=
  match findBlock m b with Some _ => m | None => m ++ [(b, n)] end.

Section Build.
  (* succ_begin/succ_end and pred_begin/pred_end of a basic block. *)
  Variable bsucc bpred : block -> list block.
  (* Traversal order of the DenseMap. *)
  Variable shuffle : list (block * rnode) -> list (block * rnode).

  (* DFRegionInfo.cpp:84-90: blocks of inner loops. *)
  Definition mapInner (inner : list loop) : list (block * rnode) :=
    fold_left (fun m l =>
      fold_left (fun m b => insertBlock m b (NLoop (lpHeader l)))
                (lpBlocks l) m) inner [].

  (* DFRegionInfo.cpp:91-99: nodes for the other blocks of the loop. *)
  Definition addBlockNodes (blocks : list block) (m0 : list (block * rnode))
      (g : graph) : graph * list (block * rnode) :=
    fold_left (fun gm b =>
      let '(g, m) := gm in
      match findBlock m b with
      | Some _ => (g, m)
      | None => (addNode g (NBlock b), m ++ [(b, NBlock b)])
      end) blocks (g, m0).

  Definition hasLatch (g : graph) : bool :=
    existsb (fun n => rnode_eqb n NLatch) (gNodes g).

  (* DFRegionInfo.cpp:112-134: one successor s of a block whose node is n. *)
  Definition linkSucc (header : block) (m : list (block * rnode)) (n : rnode)
      (g : graph) (s : block) : graph :=
    match findBlock m s with
    | None => addEdge g n NExit
    | Some sn =>
      if Nat.eqb s header then
        let g' := if hasLatch g then g else addNode g NLatch in
        addEdge g' n NLatch
      else if rnode_eqb sn n then g
      else addSuccessor g n sn
    end.

  (* DFRegionInfo.cpp:138-147: one predecessor p of a block whose node is n. *)
  Definition linkPred (m : list (block * rnode)) (n : rnode)
      (og : option graph) (p : block) : option graph :=
    match og with
    | None => None
    | Some g =>
      match findBlock m p with
      | None => None
      | Some pn => if rnode_eqb pn n then Some g
                   else Some (addPredecessor g n pn)
      end
    end.

  (* DFRegionInfo.cpp:108-149: one iteration of the loop over Blocks. *)
  Definition linkBlock (header : block) (m : list (block * rnode))
      (og : option graph) (bn : block * rnode) : option graph :=
    match og with
    | None => None
    | Some g =>
      let '(b, n) := bn in
      let g1 := match bsucc b with
                | [] => addEdge g n NExit
                | ss => fold_left (linkSucc header m n) ss g
                end in
      if Nat.eqb b header then Some g1
      else fold_left (linkPred m n) (bpred b) (Some g1)
    end.

  (* DFRegionInfo.cpp:152-155 *)
  Definition linkNoExit (g : graph) : graph :=
    match gPred g NExit with
    | [] => addEdge g NEntry NExit
    | _ => g
    end.

  (* DFRegionInfo.cpp:156-165 *)
  Definition linkDeadLoop (g : graph) (l : loop) : graph :=
    match gSucc g (NLoop (lpHeader l)) with
    | [] => addEdge g (NLoop (lpHeader l)) NExit
    | _ => g
    end.

  (* DFRegionInfo.cpp:74-163, buildLoopRegion for one level; the recursive
     calls (line 87) build the regions of inner loops and do not touch this
     graph, see [regionOf] below. *)
  Definition buildLevel (l : loop) : option graph :=
    let g0 := addNode (mkGraph [] (fun _ => []) (fun _ => [])) NEntry in
    let g1 := fold_left (fun g i => addNode g (NLoop (lpHeader i)))
                        (lpInner l) g0 in
    let '(g2, m) := addBlockNodes (lpBlocks l) (mapInner (lpInner l)) g1 in
    let g3 := addNode g2 NExit in
    match findBlock m (lpHeader l) with
    | None => None
    | Some hn =>
      let g4 := addEdge g3 NEntry hn in
      match fold_left (linkBlock (lpHeader l) m) (shuffle m) (Some g4) with
      | None => None
      | Some g5 => Some (fold_left linkDeadLoop (lpInner l) (linkNoExit g5))
      end
    end.

  (* DFRegionInfo.cpp:87, 98: mBBToNode. The value is the loop in whose region
     the node NBlock b is created. Regions of inner loops are built first; the
     map keeps an existing value. *)
  Fixpoint bbToRegion (l : loop) (m : list (block * block))
    : list (block * block) :=
    let m1 := fold_left (fun m i => bbToRegion i m) (lpInner l) m in
    fold_left (fun m b =>
      match findBlock (mapInner (lpInner l)) b with
      | Some _ => m
      | None => if existsb (fun kv => Nat.eqb (fst kv) b) m then m
                else m ++ [(b, lpHeader l)]
      end) (lpBlocks l) m1.
End Build.

(* LiveMemory.h:136-152, RegionDFTraits<LiveDFFwk *>::expand / collapse. *)
Definition expandLive (g : graph) : graph :=
  if hasLatch g then addEdge g NLatch NExit else g.
Definition collapseLive (g : graph) : graph :=
  if hasLatch g then
    removePredecessor (removeSuccessor g NLatch NExit) NExit NLatch
  else g.

(* DFRegionInfo.h:49-52, getRegionFor(BB): the region (named by the header of
   its loop) which owns the node of the block. *)
Fixpoint getRegionFor (m : list (block * block)) (b : block) : option block :=
  match m with
  | [] => None
  | (k, h) :: m' => if Nat.eqb k b then Some h else getRegionFor m' b
  end.
