(* Model of the data-flow solver templates of tsar.

   Sources (all in /repo):
     include/tsar/ADT/DataFlow.h           solveDataFlowIteratively  139-171
                                           solveDataFlowTopologicaly 194-235
                                           solveDataFlowUpward       291-305
     include/tsar/ADT/GraphUtils.h         findBackEdge 75-120, isDAG 131-133
     include/tsar/Analysis/DataFlowGraph.h GraphTraits 521-613

   Simplifications:
   - a node (DFNode pointer) is a natural number, the values attached to nodes
     (DenseMap or attribute inside of the framework) are a function from nodes
     to values; 'initialize' has no effect on values and is dropped;
   - the C++ recursion and the do-while loop are bounded by an explicit fuel;
     running out of fuel is a separate outcome and it is proved unreachable;
   - assertions are not modelled. *)
From Coq Require Import List Arith Bool.
Import ListNotations.

Definition node := nat.

(* DataFlow.h:84-97, the part of DataFlowTraits used by the solvers. [meet l r]
   is the new value of the second parameter of meetOperator(l, r). [changed]
   is the boolean returned by transferFunction when the previous value is the
   first argument and the new one is the second. *)
Record framework (V : Type) : Type := mkFwk {
  fwTop : V;
  fwBoundary : V;
  fwMeet : V -> V -> V;
  fwTransfer : node -> V -> V;
  fwChanged : node -> V -> V -> bool
}.
Arguments fwTop {V}.
Arguments fwBoundary {V}.
Arguments fwMeet {V}.
Arguments fwTransfer {V}.
Arguments fwChanged {V}.

(* Values of nodes: DFT::getValue / DFT::setValue. *)
Definition setValue {V} (s : node -> V) (n : node) (v : V) : node -> V :=
  fun m => if Nat.eqb m n then v else s m.

Section Solver.
  Context {V : Type}.
  Variable F : framework V.
  (* GT::child_begin .. GT::child_end: the nodes the values come from. *)
  Variable children : node -> list node.
  (* GT::nodes_begin .. GT::nodes_end: all nodes except the entry. *)
  Variable nodes : list node.
  (* GT::getEntryNode. *)
  Variable entry : node.

  (* DataFlow.h:161-165 and 228-232: Value is initialized with top and met with
     the value of each child. *)
  Definition gather (s : node -> V) (n : node) : V :=
    fold_left (fun acc c => fwMeet F (s c) acc) (children n) (fwTop F).

  (* DataFlow.h:161-167: evaluation of one node; transferFunction stores the
     new value and tells whether it differs from the old one. *)
  Definition evalNode (st : (node -> V) * bool) (n : node)
    : (node -> V) * bool :=
    let (s, isChanged) := st in
    let v := fwTransfer F n (gather s n) in
    (setValue s n v, fwChanged F n (s n) v || isChanged).

  (* DataFlow.h:156-168: the for-loop in the body of the do-while loop. *)
  Definition onePass (s : node -> V) : (node -> V) * bool :=
    fold_left evalNode nodes (s, false).

  (* DataFlow.h:154-169: the do-while loop. None: out of fuel. *)
  Fixpoint iterate (fuel : nat) (s : node -> V) : option (node -> V) :=
    match fuel with
    | O => None
    | S f => let (s', isChanged) := onePass s in
             if isChanged then iterate f s' else Some s'
    end.

  (* DataFlow.h:147-153 and 217-222: top for the listed nodes, then the
     boundary condition for the entry. *)
  Definition initValues (s0 : node -> V) (ns : list node) : node -> V :=
    setValue (fold_left (fun s n => setValue s n (fwTop F)) ns s0)
             entry (fwBoundary F).

  (* DataFlow.h:139-171: solveDataFlowIteratively; s0 is the content of the
     value storage before the call. *)
  Definition solveIteratively (fuel : nat) (s0 : node -> V)
    : option (node -> V) :=
    iterate fuel (initValues s0 nodes).

  (* Successors in the sense of GraphTraits<Inverse<GraphType>>. *)
  Variable succs : node -> list node.

  (* LLVM po_iterator with an own set of visited nodes (instantiated in
     DataFlow.h:207-216): depth-first search which appends a node when all its
     successors are done. The list is kept in the order of the reverse
     traversal RPOT.rbegin() .. RPOT.rend(), i.e. a finished node is put at
     the front. *)
  Fixpoint postOrder (fuel : nat) (n : node)
      (st : (node -> bool) * list node)
    : option ((node -> bool) * list node) :=
    match fuel with
    | O => None
    | S f =>
      let visit := fix visit (cs : list node)
                       (st : (node -> bool) * list node) :=
        match cs with
        | [] => Some st
        | c :: cs' =>
          if fst st c then visit cs' st
          else match postOrder f c
                      ((fun m : node => Nat.eqb m c || fst st m), snd st) with
               | None => None
               | Some st' => visit cs' st'
               end
        end in
      match visit (succs n) st with
      | None => None
      | Some (vis, out) => Some (vis, n :: out)
      end
    end.

  (* DataFlow.h:207-216: RPOT in the order of the reverse iterators. *)
  Definition reversePostOrder (fuel : nat) : option (list node) :=
    match postOrder fuel entry ((fun m : node => Nat.eqb m entry), []) with
    | None => None
    | Some (_, out) => Some out
    end.

  (* DataFlow.h:194-235: solveDataFlowTopologicaly. The first node of the order
     is skipped (++I) in both loops. *)
  Definition solveTopologically (fuel : nat) (s0 : node -> V)
    : option (node -> V) :=
    match reversePostOrder fuel with
    | None => None
    | Some ord =>
      let rest := tl ord in
      Some (fold_left
              (fun s n => setValue s n (fwTransfer F n (gather s n)))
              rest (initValues s0 rest))
    end.
End Solver.

(* GraphUtils.h:37-44, DFSColor; White: the node is not in VisitedNodes. *)
Inductive color := White | Gray | Black.

Definition isWhite (c : color) : bool :=
  match c with White => true | _ => false end.

(* Result of detail::findBackEdge: a pair of nodes, or a pair of null pointers
   together with the updated VisitedNodes. *)
Inductive search :=
| SFuel
| SFound (from to : node)
| SNone (visited : node -> color).

Definition setColor (m : node -> color) (n : node) (c : color)
  : node -> color := fun x => if Nat.eqb x n then c else m x.

Section BackEdge.
  (* GraphTraits<GraphType>::child_begin .. child_end *)
  Variable children : node -> list node.

  (* GraphUtils.h:75-104, detail::findBackEdge. *)
  Fixpoint findBackEdgeFrom (fuel : nat) (n : node) (vis : node -> color)
    : search :=
    match fuel with
    | O => SFuel
    | S f =>
      (fix loop (cs : list node) (vis : node -> color) : search :=
        match cs with
        | [] => SNone vis
        | c :: cs' =>
          match vis c with
          | White =>
            match findBackEdgeFrom f c (setColor vis c Gray) with
            | SNone vis' => loop cs' (setColor vis' c Black)
            | r => r
            end
          | Gray => SFound n c
          | Black => loop cs' vis
          end
        end) (children n) vis
    end.

  (* GraphUtils.h:116-124, findBackEdge. *)
  Definition findBackEdge (fuel : nat) (entry : node) : search :=
    findBackEdgeFrom fuel entry (setColor (fun _ => White) entry Gray).

  (* GraphUtils.h:131-133, isDAG; None: out of fuel. *)
  Definition isDAG (fuel : nat) (entry : node) : option bool :=
    match findBackEdge fuel entry with
    | SFuel => None
    | SFound _ _ => Some false
    | SNone _ => Some true
    end.
End BackEdge.

(* A region as the solver sees it: the node list [entry; ...; exit]
   (DataFlowGraph.h:240-289) and the two adjacency lists of each node. *)
Record region := mkRegion {
  rgNodes : list node;
  rgPreds : node -> list node;
  rgSuccs : node -> list node
}.

Inductive direction := DForward | DBackward.

(* DataFlowGraph.h:521-613, the specializations of GraphTraits for
   Forward<DFRegion *> and Backward<DFRegion *>, and their Inverse. *)
Definition gtChildren (d : direction) (r : region) : node -> list node :=
  match d with DForward => rgPreds r | DBackward => rgSuccs r end.
Definition gtInverseChildren (d : direction) (r : region)
  : node -> list node :=
  match d with DForward => rgSuccs r | DBackward => rgPreds r end.
Definition gtEntry (d : direction) (r : region) : node :=
  match d with
  | DForward => hd 0 (rgNodes r)
  | DBackward => last (rgNodes r) 0
  end.
Definition gtNodes (d : direction) (r : region) : list node :=
  match d with
  | DForward => tl (rgNodes r)
  | DBackward => removelast (rgNodes r)
  end.

(* DataFlow.h:299-302 (and 331-334): the selection of the solver for one
   region. isDAG is applied to the same graph type DFG as the solvers, so its
   children are those of gtChildren. *)
Definition solveRegion {V} (F : framework V) (d : direction) (r : region)
    (fuel : nat) (s0 : node -> V) : option (node -> V) :=
  match isDAG (gtChildren d r) fuel (gtEntry d r) with
  | None => None
  | Some true =>
    solveTopologically F (gtChildren d r) (gtEntry d r)
                       (gtInverseChildren d r) fuel s0
  | Some false =>
    solveIteratively F (gtChildren d r) (gtNodes d r) (gtEntry d r) fuel s0
  end.
