(** Executions of a function and what is expected after calls are placed into their own
    blocks. *)
From Coq Require Import PeanoNat Bool List.
From Verif Require Import ExtractModel.
Import ListNotations.

(** A machine: actions change a state; a state decides where to go. *)
Record machine := Machine { St : Type; act : nat -> St -> St; choose : nat -> St -> nat }.

Definition findBlock (fn : list block) (l : label) : option block :=
  find (fun b => Nat.eqb (bLabel b) l) fn.
(* an action of an instruction if control came from a block [pred] *)
Definition codeOf (pred : option label) (i : instr) : option nat :=
  match i with
  | IPhi from =>
      match pred with
      | None => None
      | Some p => match find (fun q => Nat.eqb (fst q) p) from with
                  | Some q => Some (snd q) | None => None end
      end
  | ICall _ c | IMark c | IOp c => Some c
  end.

(** [runs fn pred self is t st tr st']: starting in a state [st] from instructions [is], [t] of
    a block [self], actions [tr] are executed one after another and give a state [st'].
    Unconditional branches are not actions. *)
Section Runs.
Variable m : machine.
Inductive runs (fn : list block) :
  option label -> label -> list instr -> term -> St m -> list nat -> St m -> Prop :=
| r_stop pred self is t st : runs fn pred self is t st [] st
| r_instr pred self i is t st c tr st' :
    codeOf pred i = Some c -> runs fn pred self is t (act m c st) tr st' ->
    runs fn pred self (i :: is) t st (c :: tr) st'
| r_jump pred self l b st tr st' :
    findBlock fn l = Some b -> runs fn (Some self) l (bBody b) (bTerm b) st tr st' ->
    runs fn pred self [] (TJump l) st tr st'
| r_br pred self c ls l b st tr st' :
    nth_error ls (choose m c st) = Some l -> findBlock fn l = Some b ->
    runs fn (Some self) l (bBody b) (bTerm b) st tr st' ->
    runs fn pred self [] (TBr c ls) st (c :: tr) st'
| r_ret pred self c st : runs fn pred self [] (TRet c) st [c] (act m c st).
Definition executes (fn : list block) (st : St m) (tr : list nat) (st' : St m) : Prop :=
  match fn with
  | [] => False
  | b :: _ => runs fn None (bLabel b) (bBody b) (bTerm b) st tr st'
  end.
End Runs.

(** Well-formed functions: names of blocks are different, PHI nodes are at the beginning. *)
Definition isPhi (i : instr) : bool := match i with IPhi _ => true | _ => false end.
Definition phisFirst (b : block) : Prop :=
  forall p i q, bBody b = p ++ i :: q -> isPhi i = true -> forall j, In j p -> isPhi j = true.
Definition wfFunction (fn : list block) : Prop :=
  NoDup (map bLabel fn) /\ forall b, In b fn -> phisFirst b.

(** The pass finishes. *)
Definition C77_total_claim : Prop :=
  forall fn, wfFunction fn -> exists fuel fn', runOnFunction fuel fn = Some fn'.

(** A function does the same. *)
Definition C77_same_claim : Prop :=
  forall (m : machine) fn fuel fn', wfFunction fn -> runOnFunction fuel fn = Some fn' ->
    wfFunction fn' /\
    forall st tr st', executes m fn st tr st' <-> executes m fn' st tr st'.

(** A block with a call does not contain anything else but a terminator. *)
Definition isCall (i : instr) : bool := match i with ICall _ _ => true | _ => false end.
Definition C77_alone_claim : Prop :=
  forall fn fuel fn', wfFunction fn -> runOnFunction fuel fn = Some fn' ->
    forall b c, In b fn' -> In c (bBody b) -> isCall c = true -> bBody b = [c].

(** A new block is never started for the sake of markers which follow a call.
    [gMark]: markers do not follow calls. *)
Definition useless (b : block) : Prop :=
  exists c is, bBody b = IMark c :: is.
Definition C77_markers_claim (gMark : bool) : Prop :=
  forall fn fuel fn', wfFunction fn -> runOnFunction fuel fn = Some fn' ->
    (gMark = true ->
       forall b p c x q, In b fn -> bBody b = p ++ c :: x :: q -> isCall c = true ->
         forall m, x <> IMark m) ->
    forall b, In b fn' -> useless b -> exists b0, In b0 fn /\ useless b0 /\ bLabel b = bLabel b0.

(** A musttail call is followed by a return, possibly with a cast of its result.
    [gCast]: without a cast. *)
Definition tailOk (gCast : bool) (fn : list block) : Prop :=
  forall b p c q, In b fn -> bBody b = p ++ ICall true c :: q ->
    (exists r, bTerm b = TRet r) /\
    (q = [] \/ (gCast = false /\ exists x, q = [IOp x])).
Definition C77_tail_claim (gCast : bool) : Prop :=
  forall fn fuel fn', wfFunction fn -> runOnFunction fuel fn = Some fn' ->
    tailOk gCast fn -> tailOk gCast fn'.
