(** Independent vocabulary for C17-C19: executions of blocks, of loops and of
    functions over the control-flow graph, and what it means that a set of
    memory locations describes them.  Nothing here depends on the analyses. *)
From Coq Require Import ZArith Bool List Arith.
From Verif Require Import RangeModel RangeSpec MemSetModel MemSetSpec DFValueModel
  RegionModel RegionSpec.
Import ListNotations.
Open Scope nat_scope.

(** A byte of an object. *)
Definition cell := (nat * Z)%type.
Inductive event := Rd (c : cell) | Wr (c : cell).
(** The byte is written; the byte is read and was not written before. *)
Definition written (c : cell) (t : list event) : Prop := In (Wr c) t.
Definition exposed (c : cell) (t : list event) : Prop :=
  exists t1 t2, t = t1 ++ Rd c :: t2 /\ ~ written c t1.

(** Membership of bytes in sets of locations. *)
Definition inSet (s : mset) (c : cell) : Prop := setCovers s (fst c) (snd c).
Definition inVal (x : dfval) (c : cell) : Prop :=
  match x with DFull => True | DMask s => inSet s c end.
Definition valOk (v : views) (x : dfval) : Prop :=
  match x with DFull => True | DMask s => setOk v s end.
(** The location has bytes of one object only. *)
Definition locHas (r : range) (c : cell) : Prop := rPtr r = Some (fst c) /\ covers r (snd c).

(** ** Executions *)
(** Consecutive blocks with the events of each of them. *)
Definition piece := list (block * list event).
Definition events (p : piece) : list event := concat (map snd p).
Definition blocksOf (p : piece) : list block := map fst p.

Section Program.
Variable bsucc : block -> list block.
(** [runs b t]: the events of a part of an execution of the block, from its
    beginning; [ends b t]: the events of a complete execution. *)
Variable runs ends : block -> list event -> Prop.

(** Control goes from block b through the blocks of p. *)
Fixpoint follows (b : block) (p : piece) : Prop :=
  match p with
  | [] => True
  | s :: p => In (fst s) (bsucc b) /\ follows (fst s) p
  end.
(** Control starts in block b. *)
Definition startsAt (b : block) (p : piece) : Prop :=
  match p with
  | [] => False
  | s :: p => fst s = b /\ follows b p
  end.
(** All blocks but the last one are executed to the end. *)
Fixpoint executed (p : piece) : Prop :=
  match p with
  | [] => True
  | s :: p => (p = [] /\ runs (fst s) (snd s)) \/ (ends (fst s) (snd s) /\ executed p)
  end.
Definition completed (p : piece) : Prop := Forall (fun s => ends (fst s) (snd s)) p.
Definition inside (l : loop) (p : piece) : Prop := Forall (fun s => In (fst s) (lpBlocks l)) p.
Definition lastBlock (p : piece) (b : block) : Prop := exists q t, p = q ++ [(b, t)].

(** An execution of the loop, maybe not finished: it starts at the header and
    does any number of iterations inside of the loop. *)
Definition loopRuns (l : loop) (p : piece) : Prop :=
  startsAt (lpHeader l) p /\ inside l p /\ executed p.
(** A finished execution: control leaves the loop from the last block. *)
Definition loopEnds (l : loop) (p : piece) : Prop :=
  startsAt (lpHeader l) p /\ inside l p /\ completed p /\
  exists b, lastBlock p b /\ leaves bsucc l b.
(** One iteration of the loop up to block b: the header is not visited again. *)
Definition iterationTo (l : loop) (p : piece) (b : block) : Prop :=
  startsAt (lpHeader l) p /\ inside l p /\ completed p /\ lastBlock p b /\
  ~ In (lpHeader l) (tl (blocksOf p)).
(** How many times the header is visited. *)
Definition headerVisits (l : loop) (p : piece) : nat := times (blocksOf p) (lpHeader l).

(** The continuation of an execution after the end of block b. *)
Definition continues (b : block) (p : piece) : Prop := follows b p /\ executed p.
(** The continuation reaches the return from the function. *)
Definition returns (b : block) (p : piece) : Prop :=
  follows b p /\ completed p /\
  exists x, lastBlock ((b, []) :: p) x /\ bsucc x = [].

(** ** What is known about the control-flow graph and the nest of loops *)
(** The edges of a region graph form no cycle. *)
Inductive regionWalk (l : loop) : rnode -> rnode -> Prop :=
| rw_edge x y : regionEdge bsucc l x y -> regionWalk l x y
| rw_next x y z : regionEdge bsucc l x y -> regionWalk l y z -> regionWalk l x z.
(** Reducible control flow: each cycle is formed by a loop of the nest. *)
Definition reducible (f : loop) : Prop :=
  (forall k x, nested f k -> ~ regionWalk k x x) /\
  (forall b, In b (lpBlocks f) -> In b (bsucc b) ->
     exists k, nested f k /\ lpHeader k = b).
(** Each block is reached from the header of each loop it belongs to. *)
Definition allReached (f : loop) : Prop :=
  forall k, nested f k ->
    (forall b, In b (lpBlocks k) -> reachedInside bsucc k b) /\ lpBlocks k <> [].
(** The nest is formed by all blocks of a function; the entry block has no
    predecessors. *)
Definition wholeFunction (f : loop) : Prop :=
  forall b s, In b (lpBlocks f) -> In s (bsucc b) ->
    In s (lpBlocks f) /\ s <> lpHeader f.
End Program.

(** ** What sets of locations say about executions *)
(** All bytes read before they are written are in the set of uses. *)
Definition usesSound (U : mset) (P : cell -> Prop) (part : list event -> Prop) : Prop :=
  forall t c, part t -> P c -> exposed c t -> inSet U c.
(** All written bytes are in the sets of definitions. *)
Definition maysSound (D M : mset) (part : list event -> Prop) : Prop :=
  forall t c, part t -> written c t -> inSet D c \/ inSet M c.
(** All bytes of the set of must definitions are written. *)
Definition mustsSound (D : mset) (whole : list event -> Prop) : Prop :=
  forall t c, whole t -> inSet D c -> written c t.

(** ** Real runs of the function *)
(** [real p]: p is a beginning of a real run of the function. *)
Definition realRuns (bsucc : block -> list block) (real : piece -> Prop) : Prop :=
  (forall p q, real (p ++ q) -> real p) /\
  (forall p q b, real (p ++ q) -> lastBlock p b -> follows bsucc b q).
(** Control enters the loop after a; control leaves the loop after p, q is
    executed next. *)
Definition enteredAfter (l : loop) (a : piece) : Prop :=
  forall b, lastBlock a b -> ~ In b (lpBlocks l).
Definition leftBefore (bsucc : block -> list block) (l : loop) (p q : piece) : Prop :=
  match q with
  | [] => exists b, lastBlock p b /\ bsucc b = []
  | s :: _ => ~ In (fst s) (lpBlocks l)
  end.
(** p is a finished execution of the loop which happens in a real run. *)
Definition finishedRun (bsucc : block -> list block) (ends : block -> list event -> Prop)
    (real : piece -> Prop) (l : loop) (p : piece) : Prop :=
  loopEnds bsucc ends l p /\
  exists a q, real (a ++ p ++ q) /\ enteredAfter l a /\ leftBefore bsucc l p q.
(** p happens in a real run. *)
Definition happens (real : piece -> Prop) (p : piece) : Prop := exists a, real (a ++ p).
(** The constant trip count of a loop, if it is known (not zero): how many
    times the header is visited by each finished execution. *)
Definition tripsExact (bsucc : block -> list block) (ends : block -> list event -> Prop)
    (real : piece -> Prop) (trips : loop -> nat) (f : loop) : Prop :=
  forall l p, nested f l -> 0 < trips l -> finishedRun bsucc ends real l p ->
    headerVisits l p = trips l.
(** Sets of basic blocks describe the blocks. *)
Definition blocksSound (runs ends : block -> list event -> Prop) (P : cell -> Prop)
    (uses defs : block -> mset) : Prop :=
  forall b, usesSound (uses b) P (runs b) /\ mustsSound (defs b) (ends b).
Definition blocksMay (runs : block -> list event -> Prop) (defs mays : block -> mset) : Prop :=
  forall b, maysSound (defs b) (mays b) (runs b).
(** The events of executions of a loop: of each one, of the ones that happen
    in real runs, of the finished ones. *)
Definition anyPart (bsucc : block -> list block) (runs ends : block -> list event -> Prop)
    (l : loop) (t : list event) : Prop := exists p, loopRuns bsucc runs ends l p /\ t = events p.
Definition partOf (bsucc : block -> list block) (runs ends : block -> list event -> Prop)
    (real : piece -> Prop) (l : loop) (t : list event) : Prop :=
  exists p, loopRuns bsucc runs ends l p /\ happens real p /\ t = events p.
Definition wholeOf (bsucc : block -> list block) (ends : block -> list event -> Prop)
    (real : piece -> Prop) (l : loop) (t : list event) : Prop :=
  exists p, finishedRun bsucc ends real l p /\ t = events p.
(** The location is a whole object of a known size. *)
Definition wholeObject (size : nat -> Z) (r : range) : Prop :=
  exists p, rPtr r = Some p /\ (0 < size p)%Z /\ rLo r = precise 0 /\ rHi r = precise (size p) /\
    rDims r = [] /\ rCollapsed r = false.
