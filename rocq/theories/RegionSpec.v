(* Independent vocabulary for C46: what a region graph of a loop has to be,
   in terms of the control-flow graph and the loop. *)
From Coq Require Import List Arith Bool.
Import ListNotations.
From Verif Require Import RegionModel.

Definition rnode_dec : forall a b : rnode, {a = b} + {a <> b}.
Proof. decide equality; apply Nat.eq_dec. Defined.

(* How many times an element occurs in a list of blocks or nodes. *)
Definition times (l : list block) (b : block) : nat :=
  count_occ Nat.eq_dec l b.
Definition timesN (l : list rnode) (n : rnode) : nat :=
  count_occ rnode_dec l n.

(* What LoopInfo and the control-flow graph guarantee for a loop:
   - a block a has as many edges to b as b has edges from a;
   - the header belongs to the loop;
   - a block other than the header is entered from inside of the loop only;
   - the header belongs to no inner loop;
   - inner loops lie inside, have different headers and do not intersect. *)
Record loopOk (bsucc bpred : block -> list block) (l : loop) : Prop := {
  loEdges : forall a b, times (bsucc a) b = times (bpred b) a;
  loHeader : In (lpHeader l) (lpBlocks l);
  loEntered : forall b p, In b (lpBlocks l) -> b <> lpHeader l ->
              In p (bpred b) -> In p (lpBlocks l);
  loOwn : forall i, In i (lpInner l) -> ~ In (lpHeader l) (lpBlocks i);
  loInside : forall i, In i (lpInner l) -> incl (lpBlocks i) (lpBlocks l);
  loHeads : NoDup (map lpHeader (lpInner l));
  loApart : forall i j b, In i (lpInner l) -> In j (lpInner l) ->
            In b (lpBlocks i) -> In b (lpBlocks j) -> i = j
}.

(* The node which stands for block b in the region of loop l: the inner loop
   that contains the block, or the block itself. *)
Definition standsFor (l : loop) (b : block) (n : rnode) : Prop :=
  (exists i, In i (lpInner l) /\ In b (lpBlocks i) /\ n = NLoop (lpHeader i))
  \/ (In b (lpBlocks l) /\ (forall i, In i (lpInner l) -> ~ In b (lpBlocks i))
      /\ n = NBlock b).

(* Control may leave the loop from block b. *)
Definition leaves (bsucc : block -> list block) (l : loop) (b : block)
  : Prop :=
  bsucc b = [] \/ exists s, In s (bsucc b) /\ ~ In s (lpBlocks l).

(* Control may jump back to the header from block b. *)
Definition jumpsBack (bsucc : block -> list block) (l : loop) (b : block)
  : Prop := In (lpHeader l) (bsucc b).

(* The edges of the region graph of loop l. *)
Inductive regionEdge (bsucc : block -> list block) (l : loop)
  : rnode -> rnode -> Prop :=
| re_entry : forall y, standsFor l (lpHeader l) y ->
    regionEdge bsucc l NEntry y
| re_flow : forall b c x y, standsFor l b x -> standsFor l c y ->
    In c (bsucc b) -> c <> lpHeader l -> x <> y -> regionEdge bsucc l x y
| re_back : forall b x, standsFor l b x -> jumpsBack bsucc l b ->
    regionEdge bsucc l x NLatch
| re_exit : forall b x, standsFor l b x -> leaves bsucc l b ->
    regionEdge bsucc l x NExit
| re_endless : (forall b, In b (lpBlocks l) -> ~ leaves bsucc l b) ->
    regionEdge bsucc l NEntry NExit
| re_trap : forall i, In i (lpInner l) ->
    (forall b, In b (lpBlocks i) -> bsucc b <> [] /\
       forall s, In s (bsucc b) -> In s (lpBlocks i)) ->
    regionEdge bsucc l (NLoop (lpHeader i)) NExit.

(* k is l itself or a loop nested in l at any depth. *)
Inductive nested (l : loop) : loop -> Prop :=
| nested_self : nested l l
| nested_inner : forall k i, nested l k -> In i (lpInner k) -> nested l i.

(* The innermost loop of the nest l that contains block b is k. *)
Definition innermost (l : loop) (b : block) (k : loop) : Prop :=
  nested l k /\ In b (lpBlocks k) /\
  forall i, In i (lpInner k) -> ~ In b (lpBlocks i).

(* The guarantees hold on each level of the nest. *)
Definition nestOk (bsucc bpred : block -> list block) (l : loop) : Prop :=
  forall k, nested l k -> loopOk bsucc bpred k.

(* Block b is reached from the header without leaving the loop. *)
Inductive reachedInside (bsucc : block -> list block) (l : loop)
  : block -> Prop :=
| ri_header : reachedInside bsucc l (lpHeader l)
| ri_step : forall a b, reachedInside bsucc l a -> In b (bsucc a) ->
    In b (lpBlocks l) -> reachedInside bsucc l b.

(* Node y is reached from node x along successor lists. *)
Inductive walk (succ : rnode -> list rnode) (x : rnode) : rnode -> Prop :=
| walk_here : walk succ x x
| walk_next : forall y z, walk succ x y -> In z (succ y) -> walk succ x z.
