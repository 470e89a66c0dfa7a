(** Specification vocabulary for recorded loop-carried dependences. *)
From Coq Require Import ZArith Bool List Arith.
From Verif Require Import DepModel DepSpec DTraitModel.
Import ListNotations.
Local Open Scope Z_scope.

Section S.
Context {Env : Type}.

(** Iteration vectors: from levels to numbers of iterations.  [x] is the iteration of
    the source, [y] is the iteration of the destination: the accesses touch
    the same element and the loop at depth [k] separates them. *)
Definition carriedBy (k : nat) (x y : nat -> Z) : Prop :=
  (forall l, (1 <= l < k)%nat -> x l = y l) /\ x k <> y k.
(** The kind of the dependence between the accesses: who comes first. *)
Definition orderedKind (first second : access) : option kind :=
  match first, second with
  | Write, Read => Some Flow
  | Read, Write => Some Anti
  | Write, Write => Some Output
  | Read, Read => None
  end.
Definition kindOf (d : dep Env) (k : nat) (x y : nat -> Z) : option kind :=
  if x k <? y k then orderedKind (pSrc _ d) (pDst _ d) else orderedKind (pDst _ d) (pSrc _ d).
(** Number of iterations at the level [l] from the first access to the second. *)
Definition distanceOf (k : nat) (x y : nat -> Z) (l : nat) : Z :=
  if x k <? y k then y l - x l else x l - y l.

(** What the analysis tells about the pair is true at levels starting with [from]
    (see C26-C33). *)
Definition truthful (from : nat) (d : dep Env) (e : Env) (x y : nat -> Z) : Prop :=
  pConfused _ d = true \/
  forall l, (1 <= l <= pLevels _ d)%nat -> (from <= l)%nat ->
    dirAdmits (pDirection _ d l) (x l) (y l) /\
    (forall D, pDistance _ d l = Some D -> D e = y l - x l).

(** Dependences inserted into the record or into merged ones. *)
Fixpoint recorded (h : history Env) (d : dep Env) : Prop :=
  match h with
  | HNew _ => False
  | HInsert _ h d' => recorded h d \/ d = d'
  | HAssume _ h => recorded h d
  | HMerge _ h from => recorded h d \/ recorded from d
  end.
(** A dependence with unknown distance was assumed. *)
Fixpoint assumed (h : history Env) : Prop :=
  match h with
  | HNew _ => False
  | HInsert _ h _ => assumed h
  | HAssume _ _ => True
  | HMerge _ h from => assumed h \/ assumed from
  end.
(** No records were merged. *)
Fixpoint noMerge (h : history Env) : Prop :=
  match h with
  | HNew _ => True
  | HInsert _ h _ => noMerge h
  | HAssume _ h => noMerge h
  | HMerge _ _ _ => False
  end.
(** The directions at the loop are on one side: a forward or a backward one, or both
    for flow and anti dependences (but not "different"). *)
Definition oneSided (d : dep Env) (k : nat) : Prop :=
  pDirection _ d k <> dNE /\ (isOutput _ d = true -> pDirection _ d k <> dALL).
End S.
