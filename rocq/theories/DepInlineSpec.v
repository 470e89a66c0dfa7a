(** Specification of the inliner which handles calls which prevent data dependence analysis. *)
From Coq Require Import PeanoNat Bool List Permutation.
From Verif Require Import DepInlineModel.
Import ListNotations.

(** A trait of a loop reports that there is a dependence. *)
Definition depends (t : trait) : Prop :=
  exists os, tAnti t = Some os \/ tFlow t = Some os \/ tOutput t = Some os.
(** A location is a cause of a dependence. *)
Definition causes (t : trait) (l : nat) : Prop :=
  exists os, (tAnti t = Some os \/ tFlow t = Some os \/ tOutput t = Some os) /\ In (Some l) os.
(** A loop which may be parallelized and one of traits of its memory. *)
Definition traitOf (f : func) (t : trait) : Prop :=
  fDecl f = false /\ exists l ds ts, In l (fLoops f) /\ lID l = true /\ lAttrs l = true /\
    lDeps l = Some ds /\ In (true, ts) ds /\ In t ts.
(** A call prevents parallelization of a loop in a function [f]. *)
Definition prevents (f : func) (c : call) : Prop :=
  exists t, traitOf f t /\
    ((In c (fCalls f) /\ exists l, cLoc c = Some l /\ causes t l) \/
     (depends t /\ In (Some c) (tCalls t))).
(** Chains of direct calls. *)
Inductive reaches (m : list func) : nat -> nat -> Prop :=
| reach_refl f : reaches m f f
| reach_call f g c h : reaches m f (fId g) -> In g m -> In c (fCalls g) -> cCallee c = Some h ->
    reaches m f h.
(** Calls which must be expanded: a call which prevents parallelization and calls in functions
    which are executed when it is. *)
Definition needed (m : list func) (c : call) : Prop :=
  (exists f, In f m /\ prevents f c) \/
  exists f c0 h g, In f m /\ prevents f c0 /\ cCallee c0 = Some h /\ reaches m h (fId g) /\
    In g m /\ In c (fCalls g).

(** A module: names of functions and calls are unique, handles refer to calls of a function. *)
Definition someOrder (order : list nat -> list nat) : Prop := forall l, Permutation (order l) l.
Definition wellFormed (m : list func) : Prop :=
  NoDup (map fId m) /\
  (forall f g c c', In f m -> In g m -> In c (fCalls f) -> In c' (fCalls g) -> cId c = cId c' ->
    c = c' /\ f = g) /\
  (forall f t c, In f m -> traitOf f t -> In (Some c) (tCalls t) -> In c (fCalls f)).

(** Marking finishes. *)
Definition C80_finish_claim : Prop :=
  forall order m marks, someOrder order -> wellFormed m ->
    exists n, forall fuel, n <= fuel -> exists r, runOnModule fuel order m marks = Some r.
(** Marked calls are needed, marks are not removed, and a returned value says whether there are new
    marks. *)
Definition C80_sound_claim : Prop :=
  forall fuel order m marks marks' ch, someOrder order -> wellFormed m ->
    runOnModule fuel order m marks = Some (marks', ch) ->
    incl marks marks' /\
    (forall n, In n marks' -> In n marks \/ exists f c, In f m /\ In c (fCalls f) /\ cId c = n /\ needed m c) /\
    (ch = true <-> exists n, In n marks' /\ ~ In n marks).
(** Needed calls are marked.  [gLocs]: locations of calls in a function differ.  [gOnce]: there
    are no marks before. *)
Definition C80_complete_claim (gLocs gOnce : bool) : Prop :=
  forall fuel order m marks marks' ch, someOrder order -> wellFormed m ->
    (gLocs = true -> forall f c c' l, In f m -> In c (fCalls f) -> In c' (fCalls f) ->
      cLoc c = Some l -> cLoc c' = Some l -> c = c') ->
    (gOnce = true -> marks = []) ->
    runOnModule fuel order m marks = Some (marks', ch) ->
    forall c, needed m c -> In (cId c) marks'.

(** Expansion of calls.  A function calls functions before it. *)
Definition bottomUp (bodies : list (list elem)) : Prop :=
  forall f b g ok, nth_error bodies f = Some b -> In (ECall g ok) b -> g < f.
Definition isCall (e : elem) : bool := match e with ECall _ _ => true | _ => false end.
(** A call which is allowed to be expanded remains only if the cost exceeds the threshold. *)
Definition C80_expand_claim : Prop :=
  forall T bodies f b, bottomUp bodies -> nth_error bodies f = Some b ->
    exists b', nth_error (inlineAll T bodies) f = Some b' /\
    forall g, In (ECall g true) b' -> exists c, nth_error bodies g = Some c /\ T <= length b + length c.
(** The number of accesses is less than the threshold if something is expanded.  [gOne]: there is at
    most one call in a function.  [gLeaf]: functions which are called do not contain calls. *)
Definition C80_size_claim (gOne gLeaf : bool) : Prop :=
  forall T bodies f b, bottomUp bodies -> nth_error bodies f = Some b ->
    (gOne = true -> length (filter isCall b) <= 1) ->
    (gLeaf = true -> forall g ok c, In (ECall g ok) b -> nth_error bodies g = Some c ->
      forall e, In e c -> isCall e = false) ->
    exists b', nth_error (inlineAll T bodies) f = Some b' /\ (b' = b \/ length b' < T).
