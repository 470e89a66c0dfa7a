(** What chains of estimate memory locations must be (EstimateMemory.h 375-392,
    1183-1203): locations which start at the same point are ordered from a
    smaller one to a greater one, and a location which was added is found. *)
From Coq Require Import ZArith Bool List.
From Verif Require Import AliasRelModel EMForestModel EMForestSpec EMChainModel.
Import ListNotations.
Open Scope Z_scope.

(** The order of sizes: known sizes are compared as numbers and are less than
    unknown ones, an unknown size after a pointer is less than an unknown size
    before or after it. *)
Definition lessSize (a b : size) : Prop :=
  match a, b with
  | (SPrecise n | SUpper n), (SPrecise m | SUpper m) => n < m
  | (SPrecise _ | SUpper _), _ => True
  | SAfter, SBeforeOrAfter => True
  | _, _ => False
  end.
Definition equalSize (a b : size) : Prop := ~ lessSize a b /\ ~ lessSize b a.

(** Locations which exist, and locations with the same list of pointers *)
Definition exists_in (T : tree) (e : em) : Prop := (e < tCount T)%nat.
Definition sameChain (T : tree) (x y : em) : Prop :=
  exists_in T x /\ exists_in T y /\ fBase (tForest T) x = fBase (tForest T) y.
(** y is reached from x in a chain *)
Inductive reach (T : tree) : em -> em -> Prop :=
| reachSelf x : reach T x x
| reachNext x y z : next T x = Some y -> reach T y z -> reach T x z.

Section Spec.
Variable sameBase : ptr -> ptr -> bool.
Variable alias : ptr -> ptr -> aliasResult.
Variable stripPointer : ptr -> ptr.
Variable stripToBase : mloc -> mloc.
Variable stripMemoryLevel : mloc -> option mloc.
Variable clarify : mloc -> mloc.

(** Trees which are built by additions of memory locations *)
Inductive built : list mloc -> tree -> Prop :=
| builtEmpty : built [] emptyTree
| builtAdd h T fuel l T' : built h T ->
    add sameBase alias stripPointer stripToBase stripMemoryLevel clarify fuel T l = Some T' ->
    built (l :: h) T'.

(** States of a tree and of its cache after any requests *)
Inductive served : list request -> tree -> cache -> Prop :=
| servedEmpty : served [] emptyTree []
| servedStep h T c fuel r T' c' a : served h T c ->
    serve sameBase alias stripPointer stripToBase stripMemoryLevel clarify fuel T c r
      = Some (T', c', a) ->
    served (r :: h) T' c'.

(** A pointer p certainly points to the beginning of e. *)
Definition pointsTo (T : tree) (p : ptr) (e : em) : Prop :=
  exists q, In q (ptrs T e) /\ alias q p = ARMust.
(** e is the memory location l: it starts at the pointer of l and has the size
    of l. *)
Definition represents (T : tree) (l : mloc) (e : em) : Prop :=
  exists_in T e /\ equalSize (mSize l) (tSize T e) /\ pointsTo T (mPtr l) e.
(** e is the smallest location of its chain which contains l. *)
Definition smallest (T : tree) (l : mloc) (e : em) : Prop :=
  exists_in T e /\ pointsTo T (mPtr l) e /\ ~ lessSize (tSize T e) (mSize l) /\
  forall x, sameChain T x e -> ~ lessSize (tSize T x) (mSize l) ->
    ~ lessSize (tSize T x) (tSize T e).
(** It is certain whether p points to the beginning of a location with the same
    base. *)
Definition decided (T : tree) (p : ptr) : Prop :=
  forall e, exists_in T e -> sameBase (front T e) p = true ->
    pointsTo T p e \/ forall q, In q (ptrs T e) -> alias q p <> ARMay.

(** The memory location which represents l *)
Definition baseOf (l : mloc) : mloc := clarify (stripToBase l).
End Spec.
