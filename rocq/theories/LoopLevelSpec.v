(** Specification of C96. *)
From Coq Require Import PeanoNat Bool List Permutation.
From Verif Require Import LoopLevelModel.
Import ListNotations.

(** A result of std::sort: the same elements, a less element is never after a greater one. *)
Inductive ordered (text : nat -> token) : list loop -> Prop :=
| ordered_nil : ordered text []
| ordered_cons : forall p l, (forall q, In q l -> ltLoc (startLoc text q) (startLoc text p) = false) ->
    ordered text l -> ordered text (p :: l).
Definition sorted (text : nat -> token) (ls res : list loop) : Prop := Permutation ls res /\ ordered text res.
(** A possible answer. *)
Definition answer (text : nat -> token) (ls : list loop) (a : list (loop * nat)) : Prop :=
  exists res, sorted text ls res /\ a = setLevels text [] res.

(** Loops of a program: tokens of a loop are from the first token up to the true end. *)
Record program := Program { pLoops : list loop; pEnd : loop -> nat }.
Definition inside (P : program) (b a : loop) : Prop := oFirst a < oFirst b /\ pEnd P b <= pEnd P a.
Definition insideb (P : program) (b a : loop) : bool := (oFirst a <? oFirst b) && (pEnd P b <=? pEnd P a).
Definition apart (P : program) (a b : loop) : Prop := pEnd P a < oFirst b \/ pEnd P b < oFirst a.
Definition wellFormed (P : program) : Prop :=
  NoDup (pLoops P)
  /\ (forall a, In a (pLoops P) -> oFirst a <= oLast a <= pEnd P a)
  /\ (forall a b, In a (pLoops P) -> In b (pLoops P) -> a <> b -> apart P a b \/ inside P a b \/ inside P b a).
(** Number of loops around a loop. *)
Definition depth (P : program) (b : loop) : nat := length (filter (insideb P b) (pLoops P)).

(** A token is a bound of a loop. *)
Definition bound (P : program) (t : nat) : Prop := exists a, In a (pLoops P) /\ (t = oFirst a \/ t = oLast a).
(** Tokens of the main file are expanded in the order of lines and columns. *)
Definition printed (main : nat) (text : nat -> token) : Prop :=
  forall t t', t < t' -> tFile (text t) = main -> tFile (text t') = main ->
    tLine (text t) < tLine (text t') \/ tLine (text t) = tLine (text t') /\ tCol (text t) <= tCol (text t').
(** Guards: loops are not implicit (the last token of a statement is the end of a loop),
    bounds of loops are produced by different expansions, they are in the main file. *)
Definition explicit (P : program) : Prop := forall a, In a (pLoops P) -> oLast a = pEnd P a.
Definition separate (P : program) (text : nat -> token) : Prop :=
  forall t t', bound P t -> bound P t' -> t <> t' ->
    tFile (text t) = tFile (text t') -> tLine (text t) = tLine (text t') -> tCol (text t) <> tCol (text t').
Definition single (P : program) (main : nat) (text : nat -> token) : Prop :=
  forall t, bound P t -> tFile (text t) = main.

(** Levels are depths of loops. *)
Definition C96_level_claim (gi gm gf : bool) : Prop :=
  forall P main text a, wellFormed P -> printed main text ->
    (gi = true -> explicit P) -> (gm = true -> separate P text) -> (gf = true -> single P main text) ->
    answer text (pLoops P) a ->
    forall p n, In (p, n) a -> n = 1 + depth P p.
(** A loop is placed after all loops around it and all loops before it in the text. *)
Definition C96_order_claim (gm gf : bool) : Prop :=
  forall P main text a, wellFormed P -> printed main text ->
    (gm = true -> separate P text) -> (gf = true -> single P main text) ->
    answer text (pLoops P) a ->
    forall l p n q k r, a = l ++ (p, n) :: r -> In (q, k) r -> oFirst p < oFirst q.
(** Each loop is in the answer exactly once. *)
Definition C96_all_claim : Prop :=
  forall text ls a, answer text ls a -> Permutation ls (map fst a).
(** An answer is a list of nodes of a forest: the first one is a root, a level of the next one
    increases at most by one. *)
Definition C96_forest_claim : Prop :=
  forall text ls a, answer text ls a ->
    (forall p n r, a = (p, n) :: r -> n = 1)
    /\ forall l p n q k r, a = l ++ (p, n) :: (q, k) :: r -> 1 <= k <= n + 1.
(** There is always an answer, it does not depend on the order of loops in a hash table.
    Guard: beginnings of loops have different locations. *)
Definition C96_total_claim : Prop := forall text ls, exists a, answer text ls a.
Definition C96_unique_claim (gd : bool) : Prop :=
  forall text ls ls' a a',
    (gd = true -> forall p q, In p ls -> In q ls -> p <> q -> startLoc text p <> startLoc text q) ->
    Permutation ls ls' -> answer text ls a -> answer text ls' a' -> a = a'.
