(** Executions of a program with calls, meaning of results of analysis of functions. *)
From Coq Require Import ZArith List Bool.
From Verif Require Import RangeModel RangeSpec MemSetModel MemSetSpec GlobalLiveModel.
Import ListNotations.
Local Open Scope Z_scope.

(** A byte of memory a pointer refers to: a pointer and an offset *)
Definition cell := (nat * Z)%type.
Definition inSet (s : mset) (c : cell) : Prop := setCovers s (fst c) (snd c).
(** Activation of a function: [e] gives addresses of bytes, executed blocks with their
    events; an event of a block is a read, a write or a call *)
Inductive act := Act (f : nat) (e : cell -> Z) (steps : list (nat * list ev))
with ev := Rd (a : Z) | Wr (a : Z) | Sub (c : nat) (A : act).
Inductive access := ARead (a : Z) | AWrite (a : Z).
Fixpoint flatE (x : ev) : list access :=
  match x with
  | Rd a => [ARead a]
  | Wr a => [AWrite a]
  | Sub _ (Act _ _ steps) => flat_map (fun s => flat_map flatE (snd s)) steps
  end.
Definition flat (steps : list (nat * list ev)) : list access := flat_map (fun s => flat_map flatE (snd s)) steps.
Definition written (a : Z) (t : list access) : Prop := In (AWrite a) t.
(** a byte is read before it is written *)
Definition exposed (a : Z) (t : list access) : Prop := exists t1 t2, t = t1 ++ ARead a :: t2 /\ ~ written a t1.
(** [within root after0 A after]: [A] is an activation in the run [root], [after] is all that
    happens after [A] *)
Inductive within (root : act) (after0 : list access) : act -> list access -> Prop :=
| w_root : within root after0 root after0
| w_call G e pre b l1 c A l2 post after :
    within root after0 (Act G e (pre ++ (b, l1 ++ Sub c A :: l2) :: post)) after ->
    within root after0 A (flat_map flatE l2 ++ flat post ++ after).

Section Right.
Variable fn : nat -> func.
Variables isAlloca isGlobal : nat -> bool.
Variable under : nat -> nat.
Variable blockOf : nat -> nat.
Variable callLocs : nat -> list (nat * range).
Variable live : nat -> mset -> nat -> mset.
Variable sccs : list (node * list node).
Variable root : act.
Variable after0 : list access.

Definition nodes : list node := flat_map (fun s => fst s :: snd s) sccs.
(** Memory which may be defined in a function *)
Definition defines (f : nat) (c : cell) : Prop := inSet (gDefs (fn f)) c \/ inSet (gMayDefs (fn f)) c.
Definition rooted (f : nat) (c : cell) : Prop := In (under (fst c)) (gArgs (fn f)) \/ isGlobal (under (fst c)) = true.

(** A function which is called by somebody unknown *)
Definition calledOutside (f : nat) : Prop := exists n, In n nodes /\ nFun n = None /\ In f (calleesOf n).
(** Called functions are visited before calling ones *)
Definition calleesFirst : Prop := forall l n r l' m r' f g, sccs = l ++ (n, r) :: l' -> nFun n = Some f -> In g (calleesOf n) ->
  In (m, r') ((n, r) :: l') -> nFun m = Some g -> m = n \/ In m r.
Definition nodesUnique : Prop := NoDup (flat_map (fun n => match nFun n with Some f => [f] | None => [] end) nodes).
Definition noRecursion : Prop := forall n f, In n nodes -> nFun n = Some f -> ~ In f (calleesOf n).
(** Calls of the run: a function is called from outside, or there is a call in the last
    instruction of a block of an analyzed function *)
Definition callsRight (noExternal : bool) : Prop :=
  (forall F e steps, root = Act F e steps -> (exists a, exposed a after0) -> calledOutside F /\ noExternal = false) /\
  (forall G e pre b l1 c F e' steps l2 post after,
     within root after0 (Act G e (pre ++ (b, l1 ++ Sub c (Act F e' steps) :: l2) :: post)) after ->
     (calledOutside F /\ noExternal = false) \/
     (gLib (fn G) = false /\ gMarker (fn G) = false /\ b = blockOf c /\ l2 = [] /\ gVarArg (fn F) = false /\
      exists n, In n nodes /\ nFun n = Some G /\ In (mkEdge (Some c) (Some F)) (nCalls n))).
(** Memory of global variables and of arguments is memory of a calling function, it is known
    in this function; an argument and an actual argument have the same address *)
Definition paramsRight (known : nat -> cell -> Prop) : Prop := forall G e pre b l1 c F e' steps l2 post after x,
  within root after0 (Act G e (pre ++ (b, l1 ++ Sub c (Act F e' steps) :: l2) :: post)) after ->
  defines F x -> rooted F x -> isAlloca (under (fst x)) = false ->
  exists q z, 0 <= z /\ e (q, z) = e' x /\ known G (q, z) /\ defines G (q, z) /\ (under (fst x) = fst x -> z = snd x) /\
    ((isGlobal (under (fst x)) = true /\ q = under (fst x)) \/
     exists i r, nth_error (gArgs (fn F)) i = Some (under (fst x)) /\ In (i, r) (callLocs c) /\ rPtr r = Some q /\ covers r z).
(** Live memory at the end of blocks of a function is found (C17) *)
Definition liveRight (known : nat -> cell -> Prop) : Prop := forall G e pre b t post after out x,
  within root after0 (Act G e (pre ++ (b, t) :: post)) after -> known G x ->
  (exposed (e x) (flat post) -> inSet (live G out b) x) /\
  (~ written (e x) (flat post) -> exposed (e x) after -> inSet out x -> inSet (live G out b) x).
(** Local variables are not used after a return *)
Definition localsDie : Prop := forall F e steps after x, within root after0 (Act F e steps) after ->
  isAlloca (under (fst x)) = true -> ~ exposed (e x) after.
End Right.
