(** What trees of estimate memory locations and operations on them must be
    (EstimateMemory.h 299-347, 208-235). *)
From Coq Require Import Arith Bool List.
From Verif Require Import EMForestModel.
Import ListNotations.

(** Links of parents and children are mutually inverse, no child is listed
    twice. *)
Definition linksOk (f : forest) : Prop :=
  (forall x p, fParent f x = Some p <-> In x (fKids f p)) /\
  (forall p, NoDup (fKids f p)).

(** A location reaches a root in finitely many steps: there are no cycles. *)
Inductive rooted (f : forest) : em -> Prop :=
| rootedRoot x : fParent f x = None -> rooted f x
| rootedStep x p : fParent f x = Some p -> rooted f p -> rooted f x.
Definition trees (f : forest) : Prop := linksOk f /\ forall x, rooted f x.

(** y is x or is above x. *)
Inductive above (f : forest) : em -> em -> Prop :=
| aboveSelf x : above f x x
| aboveStep x p y : fParent f x = Some p -> above f p y -> above f x y.

(** Pictures of operations.  All other locations keep their place and order. *)
Definition appendIf (b : bool) (x : em) : list em := if b then [x] else [].
Definition nextSpliced (f : forest) (c n : em) (f' : forest) : Prop :=
  (forall x, fParent f' x =
     if x =? c then Some n else if x =? n then fParent f c else fParent f x) /\
  (forall x, fKids f' x =
     without n (without c (fKids f x)) ++
     appendIf (x =? n) c ++ appendIf (opt_eqb (fParent f c) (Some x)) n) /\
  (forall x, fBase f' x = fBase f x).
Definition nextMerged (f : forest) (c n : em) (f' : forest) : Prop :=
  (forall x, fParent f' x = if x =? c then Some n else fParent f x) /\
  (forall x, fKids f' x = without c (fKids f x) ++ appendIf (x =? n) c) /\
  (forall x, fBase f' x = fBase f x).
Definition prevMerged (f : forest) (c p : em) (f' : forest) : Prop :=
  (forall x, fParent f' x = if x =? p then Some c else fParent f x) /\
  (forall x, fKids f' x = without p (fKids f x) ++ appendIf (x =? c) p) /\
  (forall x, fBase f' x = fBase f x).
(** Children of p become roots; the first child k of c with the base of p, if any,
    becomes the only child of p, which takes the place of k. *)
Definition prevSpliced (f : forest) (c p : em) (f' : forest) : Prop :=
  (forall x, fBase f' x = fBase f x) /\
  ((exists l1 k l2, fKids f c = l1 ++ k :: l2 /\ fBase f k = fBase f p /\
      (forall y, In y l1 -> fBase f y <> fBase f p) /\
      fKids f' c = l1 ++ p :: l2 /\ fKids f' p = [k] /\
      (forall x, x <> c -> x <> p -> fKids f' x = without p (fKids f x)) /\
      (forall x, fParent f' x =
         if x =? p then Some c else if x =? k then Some p
         else if opt_eqb (fParent f x) (Some p) then None else fParent f x)) \/
   ((forall y, In y (fKids f c) -> fBase f y <> fBase f p) /\
      fKids f' c = fKids f c ++ [p] /\ fKids f' p = [] /\
      (forall x, x <> c -> x <> p -> fKids f' x = without p (fKids f x)) /\
      (forall x, fParent f' x =
         if x =? p then Some c
         else if opt_eqb (fParent f x) (Some p) then None else fParent f x))).
