(** Specification of parallel loops which are chosen for a shared memory system. *)
From Coq Require Import List Bool Arith.
From Verif Require Import NestModel.
Import ListNotations.

Section Spec.
Variable fn : nat -> func.

(** A direct call of a function, a chain of direct calls *)
Definition callsOf (f g : nat) : Prop := In g (fCalls (fn f)).
Inductive reaches : nat -> nat -> Prop :=
| ReachRefl f : reaches f f
| ReachStep f g h : callsOf f g -> reaches g h -> reaches f h.

(** Loops of a function and loops inside a loop *)
Inductive loopIn : loop -> list loop -> Prop :=
| LoopHere l ls : In l ls -> loopIn l ls
| LoopDeep l id calls kids ls : In (Loop id calls kids) ls -> loopIn l kids -> loopIn l ls.
Definition loopId (l : loop) : nat := match l with Loop i _ _ => i end.
Definition loopCalls (l : loop) : list nat := match l with Loop _ c _ => c end.
Definition loopKids (l : loop) : list loop := match l with Loop _ _ k => k end.

(** Numbers of all loops *)
Fixpoint loopIds (l : loop) : list nat := match l with Loop i _ ks => i :: flat_map loopIds ks end.

(** An order of strongly connected components of the call graph: callees first *)
Definition postorder (comps : list (list nat)) : Prop :=
  NoDup (concat comps) /\
  (forall c, In c comps -> c <> []) /\
  (forall c f g, In c comps -> In f c -> In g c -> reaches f g) /\
  (forall pre c post f g, comps = pre ++ c :: post -> In f c -> callsOf f g -> In g c \/ In g (concat pre)).
(** Calls in loops of functions are direct calls of these functions or calls of functions
    without calls and loops, intrinsics for example *)
Definition loopCallsDirect (comps : list (list nat)) : Prop :=
  forall f l g, In f (concat comps) -> loopIn l (fLoops (fn f)) -> In g (loopCalls l) ->
  callsOf f g \/ In g (concat comps) /\ fCalls (fn g) = [] /\ fLoops (fn g) = [].
(** A function called inside a parallel loop never reaches another parallel loop *)
Definition noNested (par : list parLoop) : Prop :=
  forall p q g, In p par -> In q par -> In g (plCalls p) -> ~ reaches g (plF q).
(** The loop is a loop of the function with the number and calls *)
Definition isLoopOf (p : parLoop) (l : loop) : Prop :=
  loopIn l (fLoops (fn (plF p))) /\ loopId l = plL p /\ loopCalls l = plCalls p.
End Spec.
(** A loop inside a parallel item stays in this item *)
Definition keepsItem (D : decisions) : Prop := forall id p, exploit D id (Some p) <> None.
(** A loop which passes all checks *)
Definition loopAllowed (D : decisions) (i : nat) : Prop :=
  inRegions D i = true /\ isParallel D i = true /\ isCanonical D i = true /\ isLight D i = false /\ depOk D i = true.

(** If it is possible to choose loops, a function executed by a parallel loop has no parallel loops *)
Definition C65_claim (cond : (nat -> func) -> list (list nat) -> Prop) : Prop :=
  forall fn D comps, postorder fn comps -> cond fn comps ->
  exists par, runOnModule fn D comps = Some par /\ noNested fn par.
(** There are no mutually recursive functions *)
Definition noMutual (comps : list (list nat)) : Prop := forall c, In c comps -> exists f, c = [f].
(** Mutually recursive functions call the same functions *)
Definition sameCalls (fn : nat -> func) (comps : list (list nat)) : Prop :=
  forall c f f' g, In c comps -> In f c -> In f' c -> callsOf fn f g -> callsOf fn f' g \/ In g c.
(** At most one component follows a component with many functions *)
Definition lastMutual (comps : list (list nat)) : Prop :=
  forall pre c post, comps = pre ++ c :: post -> 1 < length c -> length post <= 1.
(** Calls in loops are calls of known functions *)
Definition loopCallsKnown (fn : nat -> func) (comps : list (list nat)) : Prop :=
  forall f l g, In f (concat comps) -> loopIn l (fLoops (fn f)) -> In g (loopCalls l) -> In g (concat comps).
