(** What memory ranges denote: sets of byte offsets from the base pointer and
    sets of index tuples of an array. *)
From Coq Require Import ZArith Bool List Lia.
From Verif Require Import RangeModel.
Import ListNotations.
Open Scope Z_scope.

(** The indices selected by a dimension: Start, Start+Step, ..., TripCount of them. *)
Definition inDim (d : dim) (i : Z) : Prop :=
  exists k, 0 <= k < dTrip d /\ i = dStart d + dStep d * k.
(** The index tuples selected by a list of dimensions. *)
Definition inDims (ds : list dim) (idx : list Z) : Prop := Forall2 inDim ds idx.

(** Row-major number of an element of the array with the given dimensions. *)
Fixpoint linear (sizes : list Z) (idx : list Z) : Z :=
  match sizes, idx with
  | _ :: ss, i :: is => i * fold_right Z.mul 1 ss + linear ss is
  | _, _ => 0
  end.

(** The bytes of a range.  A collapsed range covers whole elements of size
    UpperBound; another range covers the bytes from LowerBound to UpperBound,
    an unknown upper bound is no bound. *)
Definition below (b : Z) (hi : lsize) : Prop :=
  match hi with SKnown _ n => b < n | _ => True end.
Definition covers (r : range) (b : Z) : Prop :=
  if rCollapsed r then
    exists idx k, inDims (rDims r) idx /\ 0 <= k < getValue (rHi r) /\
      b = linear (map dSize (rDims r)) idx * getValue (rHi r) + k
  else getValue (rLo r) <= b /\ below b (rHi r).
Definition coversAny (rs : list range) (b : Z) : Prop := exists r, In r rs /\ covers r b.

(** Dimensions that describe something: positive steps and counts, the start
    is not negative. *)
Definition dimOk (d : dim) : Prop := 0 <= dStart d /\ 0 < dStep d /\ 0 < dTrip d.
(** The section stays inside of the array: each dimension but the first one has
    a size, and the first one has a size unless it is given as 0. *)
Definition dimInside (d : dim) : Prop := dEnd d < dSize d.
Definition dimsInside (ds : list dim) : Prop :=
  match ds with
  | [] => True
  | d :: ds => (0 < dSize d -> dimInside d) /\ 0 <= dSize d /\ Forall dimInside ds
  end.

(** The solver finds all solutions. *)
Definition dioSpec (dio : Z -> Z -> Z -> option (Z * Z * Z * Z)) : Prop :=
  forall K1 K2 c, 0 < K1 -> 0 < K2 ->
  match dio K1 K2 c with
  | None => forall X Y, K1 * X - K2 * Y <> c
  | Some (A, B, C, D) => 0 < B /\ 0 < D /\
      forall X Y, K1 * X - K2 * Y = c <-> exists t, X = A + B * t /\ Y = C + D * t
  end.

(** Ranges of one variable.  The array view is fixed: element size [E] and
    dimension sizes [sz]; byte ranges with known bounds are inside of the array,
    their lower bound is not above the upper one. *)
Definition total (E : Z) (sz : list Z) : Z := E * fold_right Z.mul 1 sz.
Record shapeOk (p : nat) (E : Z) (sz : list Z) (r : range) : Prop := {
  sh_ptr : rPtr r = Some p;
  sh_scalar : rCollapsed r = false ->
     rDims r = [] /\ hasValue (rLo r) = true /\ 0 <= getValue (rLo r) < 2 ^ 64 /\
     (hasValue (rHi r) = true ->
        getValue (rLo r) <= getValue (rHi r) < 2 ^ 64 /\
        (0 < hd 0 sz -> getValue (rHi r) <= total E sz));
  sh_coll : rCollapsed r = true ->
     rNonCollapsable r = false /\ rDims r <> [] /\
     rLo r = precise 0 /\ rHi r = precise E /\ map dSize (rDims r) = sz /\
     Forall dimOk (rDims r) /\ dimsInside (rDims r)
}.
(** The array view itself: elements have a size, and all sizes but the first
    one are positive; sizes fit into 64 bits. *)
Definition viewOk (E : Z) (sz : list Z) : Prop :=
  0 < E /\ match sz with [] => True | s :: ss => 0 <= s < 2 ^ 64 /\ Forall (fun x => 0 < x < 2 ^ 64) ss end.

(** What an answer of the intersection of L and R means.  [wl] and [wr]: the
    complements of L and R were asked for.
    - The complement lists contain only bytes that belong to one side only.
    - 'None' means that there is no common byte.
    - An exact answer contains exactly the common bytes, and the complement
      lists contain exactly the other bytes. *)
Definition interPost (p : nat) (E : Z) (sz : list Z) (L R : range) (wl wr : bool)
    (x : ires * list range * list range) : Prop :=
  let '(res, LC, RC) := x in
  Forall (shapeOk p E sz) LC /\ Forall (shapeOk p E sz) RC /\
  (forall b, coversAny LC b -> covers L b /\ ~ covers R b) /\
  (forall b, coversAny RC b -> covers R b /\ ~ covers L b) /\
  match res with
  | INone => forall b, covers L b -> covers R b -> False
  | IMaybe => True
  | IExact r => shapeOk p E sz r /\ (forall b, covers r b <-> covers L b /\ covers R b) /\
      (wl = true -> forall b, coversAny LC b <-> covers L b /\ ~ covers R b) /\
      (wr = true -> forall b, coversAny RC b <-> covers R b /\ ~ covers L b)
  end.


(** The same answer in terms of index tuples, for two collapsed sections. *)
Definition inSomeDims (rs : list range) (idx : list Z) : Prop :=
  exists r, In r rs /\ inDims (rDims r) idx.
Definition indexPost (L R : list dim) (wl wr : bool)
    (x : ires * list range * list range) : Prop :=
  let '(res, LC, RC) := x in
  (forall idx, inSomeDims LC idx -> inDims L idx /\ ~ inDims R idx) /\
  (forall idx, inSomeDims RC idx -> inDims R idx /\ ~ inDims L idx) /\
  match res with
  | INone => forall idx, inDims L idx -> inDims R idx -> False
  | IMaybe => True
  | IExact r =>
      (forall idx, inDims (rDims r) idx <-> inDims L idx /\ inDims R idx) /\
      (wl = true -> forall idx, inSomeDims LC idx <-> inDims L idx /\ ~ inDims R idx) /\
      (wr = true -> forall idx, inSomeDims RC idx <-> inDims R idx /\ ~ inDims L idx)
  end.
