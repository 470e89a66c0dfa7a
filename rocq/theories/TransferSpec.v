(** Specification of data transfer between a host and an accelerator. *)
From Coq Require Import PeanoNat Bool List ZArith.
From Verif Require Import TransferModel.
Import ListNotations.

(** The original program has a single memory. *)
Definition readsOf (e : event) : list (nat * nat) := match e with EHost _ rs _ | EDev _ rs _ => rs end.
Definition writesOf (e : event) : nat -> nat -> option Z := match e with EHost _ _ w | EDev _ _ w => w end.
Fixpoint original (es : list event) (m : values) : list (list Z) * values :=
  match es with
  | [] => ([], m)
  | e :: es =>
      let o := map (fun p => m (fst p) (snd p)) (readsOf e) in
      let m := fun v c => match writesOf e v c with Some x => x | None => m v c end in
      let (os, m) := original es m in (o :: os, m)
  end.

Definition isIn (f : func) (v : nat) : Prop := exists r, In r (fRegions f) /\ In v (rIn r).
Definition isOut (f : func) (v : nat) : Prop := exists r, In r (fRegions f) /\ In v (rOut r).
(** May the access touch the variable according to alias analysis. *)
Definition mayTouch (f : func) (a : access) (v : nat) : Prop :=
  match aNode a with
  | Some n => fRelated f n (fNode f v) = true
  | None => exists n, In n (fDistinct f) /\ fRelated f n (fNode f v) = true
  end.
(** Static analysis is sound for the event: variables of regions are accessed by an instruction
    through its memory accesses only; a region reads its input variables and writes its output
    variables, an output variable which is not an input one is written entirely. *)
Definition sound (f : func) (e : event) : Prop :=
  match e with
  | EHost i rs w =>
      (forall v c, In (v, c) rs -> isIn f v \/ isOut f v -> exists a, In a i /\ aRead a = true /\ mayTouch f a v) /\
      (forall v c x, w v c = Some x -> isIn f v \/ isOut f v -> exists a, In a i /\ aWrite a = true /\ mayTouch f a v)
  | EDev r rs w =>
      In r (fRegions f) /\ (forall v c, In (v, c) rs -> In v (rIn r)) /\
      (forall v c x, w v c = Some x -> In v (rOut r)) /\
      (forall v c, In v (rOut r) -> ~ In v (rIn r) -> w v c <> None)
  end.
(** Initially the host has valid copies of all variables. The accelerator may have copies of
    variables which are available outside the function, these copies may be obsolete. *)
Definition initial (f : func) (m : values) (s : mstate) : Prop :=
  (forall v c, host s v c = m v c) /\ (forall v, hostOk s v = true) /\
  (forall v, fMain f = true \/ fVisible f v = false -> devOk s v = false).
Definition relatedOk (f : func) : Prop := forall n, fRelated f n n = true.

(** The host and the accelerator read the same values as the original program does, and after a
    return from the function variables which are available outside it have proper values on the host.
    [gWritten]: a variable which is written by an accelerator and by the host is an input variable
    of some region. [gInduct]: induction variables of post-dominating parallel loops are not treated
    specially. *)
Definition C84_coherent_claim (gWritten gInduct : bool) : Prop :=
  forall f es m s, relatedOk f -> initial f m s -> (forall e, In e es -> sound f e) ->
    (gWritten = true -> forall i rs w v c, In (EHost i rs w) es -> w v c <> None -> isOut f v -> isIn f v) ->
    (gInduct = true -> forall i rs w a, In (EHost i rs w) es -> In a i -> aInduct a = false) ->
    fst (execute f es s) = fst (original es m) /\
    (fMain f = false -> forall v c, fVisible f v = true -> host (snd (execute f es s)) v c = snd (original es m) v c).

(** Transferred variables are used in regions and may be related to accesses of the instruction:
    directly or, if there is a write, through a variable to be actualized. *)
Definition C84_precise_claim : Prop :=
  forall f i v,
    (In v (dActual (visitInstr f i)) -> isIn f v /\ exists a, In a i /\ aWrite a = true /\ mayTouch f a v) /\
    (In v (dGet (visitInstr f i)) -> isOut f v /\ exists a, In a i /\
       ((aRead a = true /\ mayTouch f a v) \/
        (aWrite a = true /\ exists u, isIn f u /\ mayTouch f a u /\ fRelated f (fNode f u) (fNode f v) = true))).

(** Data are copied from an accelerator before the first instruction of an exit block which reads
    memory, it is a terminator (the last instruction) if there are no such instructions.
    [gQuiet]: instructions of the block do not read memory. *)
Definition C84_exit_claim (gQuiet : bool) : Prop :=
  forall b, b <> [] -> (gQuiet = true -> forall k r, nth_error b k = Some r -> r = false) ->
    exists p, exitPos b = Some p /\ p < length b /\ (forall k, k < p -> nth_error b k = Some false) /\
      (nth_error b p = Some false -> S p = length b).

(** All variables which must be transferred before and after a callee are transferred before and
    after a call, some of them are a subject of further optimization in the caller,
    no variable is transferred twice.
    [gSame]: the callee has the same variables before and after it. *)
Definition C84_callee_claim (gSame : bool) : Prop :=
  forall acts gets localA localG final,
    (gSame = true -> forall v, In v (concat acts) <-> In v (concat gets)) ->
    let res := collectInCallee acts gets localA localG final in
    (forall v, In v (fst (fst res)) \/ In v (snd (fst res)) <-> In v (concat acts)) /\
    (forall v, In v (fst (snd res)) \/ In v (snd (snd res)) <-> In v (concat gets)) /\
    (forall v, In v (snd (fst res)) <-> final = false /\ In v (concat acts) /\ In v localA) /\
    (forall v, In v (snd (snd res)) <-> final = false /\ In v (concat gets) /\ In v localG) /\
    (forall v, ~ (In v (fst (fst res)) /\ In v (snd (fst res)))) /\
    (forall v, ~ (In v (fst (snd res)) /\ In v (snd (snd res)))).
