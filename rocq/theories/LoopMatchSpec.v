(** Specification of the search for pairs of loops. *)
From Coq Require Import PeanoNat Bool List.
From Verif Require Import MatchModel LoopMatchModel.
Import ListNotations.

(** A location which clang gives to the start of a loop. *)
Definition key (t : stmt) : loc := match tKind t with KFor (Some i) => i | _ => tBegin t end.
(** Loops have the same location if they are the same text which is included several times.  A
    location of an initialization belongs to the initialization itself, which is visited after its loop. *)
Definition textOk (ts : list stmt) : Prop :=
  (forall t u, In t ts -> In u ts -> isLoop t = true -> isLoop u = true ->
     key t = key u \/ tBegin t = tBegin u \/ key t = tBegin u -> tKind t = tKind u /\ tBegin t = tBegin u) /\
  (forall t u, In t ts -> In u ts -> isLoop t = true -> isLoop u = false -> tBegin u <> tBegin t) /\
  (forall a u b t, ts = a ++ u :: b -> isLoop u = false -> In t ts -> isLoop t = true -> tBegin u = key t ->
     exists t', In t' a /\ isLoop t' = true /\ key t' = key t) /\
  (forall t i, In t ts -> tKind t = KFor (Some i) -> i <> tBegin t).

(** Each loop of IR is paired with the statement it is produced from, there are no other pairs, other loops
    of a source code are reported as the ones without a pair.
    [origin] gives a statement for a loop of IR.
    [gComplete]: there is a loop of IR for each loop of a source code; [gHeader]: a terminator of a
    header has a location of its loop. *)
Definition C87_match_claim (asserts gComplete gHeader : bool) : Prop :=
  forall ts ls (origin : nat -> nat),
    NoDup (map tId ts) -> NoDup (map lId ls) -> textOk ts ->
    (exists keep, map (fun l => origin (lId l)) ls = filter keep (map tId (filter isLoop ts))) ->
    (gComplete = true -> map (fun l => origin (lId l)) ls = map tId (filter isLoop ts)) ->
    (forall l t, In l ls -> In t ts -> tId t = origin (lId l) ->
       lStart l = Some (key t) /\ (gHeader = true -> lHeader l = Some (tBegin t))) ->
    exists s, runLoops asserts ts ls = Done s /\
      (forall n o, In (n, o) (mMatch s) <-> exists l, In l ls /\ n = origin (lId l) /\ o = Some (lId l)) /\
      (forall n, In n (mUnmatched s) <->
         exists t, In t ts /\ isLoop t = true /\ tId t = n /\ ~ exists l, In l ls /\ n = origin (lId l)).

(** An implicit loop is paired with the label its header starts with.  A header consists of
    statements from the label to the one with a location of the terminator.
    [gSingle]: there are no other labels in a header. *)
Definition C87_implicit_claim (gSingle : bool) : Prop :=
  forall asserts ts ls (head : nat -> nat) s n x,
    NoDup (map tId ts) ->
    (forall l h a u b, In l ls -> lHeader l = Some h -> ts = a ++ u :: b -> tKind u = KPlain -> tBegin u = h ->
       exists a1 lab a2, a = a1 ++ lab :: a2 /\ tKind lab = KLabel /\ tId lab = head (lId l) /\
         (gSingle = true -> forall v, In v a2 -> tKind v <> KLabel)) ->
    runLoops asserts ts ls = Done s ->
    In (n, Some x) (mMatch s) -> (exists t, In t ts /\ tId t = n /\ tKind t = KLabel) -> n = head x.

(** A statement and a loop have at most one pair, pairs consist of given loops only. *)
Definition C87_once_claim : Prop :=
  forall asserts ts ls s, runLoops asserts ts ls = Done s ->
    NoDup (map fst (mMatch s)) /\ NoDup (map snd (mMatch s)) /\
    forall n o, In (n, o) (mMatch s) ->
      (exists t, In t ts /\ tId t = n /\ (isLoop t = true \/ tKind t = KLabel)) /\
      (forall x, o = Some x -> exists l, In l ls /\ lId l = x).

(** A loop without a pair is reported.  [gInit]: the loop is not a for with initialization. *)
Definition C87_reported_claim (gInit : bool) : Prop :=
  forall asserts ts ls s t, NoDup (map lId ls) -> runLoops asserts ts ls = Done s -> In t ts -> isLoop t = true ->
    (gInit = true -> forall i, tKind t <> KFor (Some i)) ->
    In (tId t) (map fst (mMatch s)) \/ In (tId t) (mUnmatched s).
