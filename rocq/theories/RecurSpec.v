(** Specification of the search for recursion (C71). *)
From Coq Require Import List Bool Arith.
From Verif Require Import RecurModel.
Import ListNotations.

Section R.
Variable ts : list templ.
Variable need : nat -> bool.
(** [f] contains a call of [g] which will be inlined *)
Definition callsOf (f g : nat) : Prop := (exists t, In t ts /\ tFun t = f /\ In g (tCalls t)) /\ need g = true.
(** A chain of [k] calls from [f] to [g] *)
Inductive chain (f : nat) : nat -> nat -> Prop :=
| ChainOne g : callsOf f g -> chain f g 1
| ChainMore g h k : chain f g k -> callsOf g h -> chain f h (S k).
(** A chain which does not return to [f] before its end *)
Inductive chainOut (f : nat) : nat -> nat -> Prop :=
| OutOne g : callsOf f g -> chainOut f g 1
| OutMore g h k : chainOut f g k -> g <> f -> callsOf g h -> chainOut f h (S k).
Definition recursive (f : nat) : Prop := exists k, chain f f k.
(** Chains from a function to another one have the same length *)
Definition graded : Prop := forall f g j k, g <> f -> chainOut f g j -> chainOut f g k -> j = k.
(** Either all calls of a function will be inlined or none of them *)
Definition uniform : Prop := forall t, In t ts -> (forall g, In g (tCalls t) -> need g = true) \/ (forall g, In g (tCalls t) -> need g = false).
End R.
(** Functions have different templates, a callee has a template *)
Definition wf (ts : list templ) : Prop :=
  NoDup (map tFun ts) /\ forall t g, In t ts -> In g (tCalls t) -> In g (map tFun ts).
Definition isOrder (order : list nat -> list nat) : Prop := forall l x, In x (order l) <-> In x l.

(** Switches of premises *)
Definition premises (graded_ uniform_ : bool) (ts : list templ) (order : list nat -> list nat) (need : nat -> bool) : Prop :=
  wf ts /\ isOrder order /\ (graded_ = true -> graded ts need) /\ (uniform_ = true -> uniform ts need).
(** The search finishes *)
Definition C71_finishes (graded_ uniform_ : bool) : Prop :=
  forall ts order need, premises graded_ uniform_ ts order need -> exists n rs, findRecursion ts order n need = Some rs.
(** Each found function is recursive *)
Definition C71_sound (graded_ uniform_ : bool) : Prop :=
  forall ts order need n rs f, premises graded_ uniform_ ts order need ->
    findRecursion ts order n need = Some rs -> In f rs -> recursive ts need f.
(** Each recursive function is found *)
Definition C71_complete (graded_ uniform_ : bool) : Prop :=
  forall ts order need n rs f, premises graded_ uniform_ ts order need ->
    findRecursion ts order n need = Some rs -> In f (map tFun ts) -> recursive ts need f -> In f rs.
(** The check of templates finishes and the following inline expansion of each function finishes too *)
Definition C71_expansion (graded_ uniform_ : bool) : Prop :=
  forall ts order, premises graded_ uniform_ ts order (initial ts) ->
    exists need, (exists n, checkTemplates ts order n = Some need) /\ forall f, exists n, expand ts n need f = true.
