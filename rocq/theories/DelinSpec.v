(** What an access to an array means: an offset from the beginning of the array. *)
From Coq Require Import ZArith List Bool Arith.
From Verif Require Import SCEVModel SCEVSpec DelinModel.
Import ListNotations.
Local Open Scope Z_scope.

Fixpoint dot (a b : list Z) : Z :=
  match a, b with
  | x :: a, y :: b => x * y + dot a b
  | _, _ => 0
  end.
Fixpoint sizeT (t : lty) : Z := match t with TOther _ s => s | TArr n el => n * sizeT el end.

(** The offset of an address in a program: each index is multiplied by the size of the
    type it leads to. *)
Definition offsetOfTypes (values : list Z) (ts : list lty) : Z := dot values (map sizeT ts).
(** The offset of an element of an array of elements of size [es] with given sizes of
    dimensions: a subscript is multiplied by sizes of all inner dimensions. *)
Definition stride (dims : list Z) (es : Z) (j : nat) : Z := prod (skipn (S j) dims) * es.
Definition offsetOfElement (values dims : list Z) (es : Z) : Z :=
  dot values (map (stride dims es) (seq 0 (length dims))).
(** The same for an array type: sizes of its elements, of their elements and so on. *)
Fixpoint elemSizes (t : lty) : list Z := match t with TOther _ _ => [] | TArr _ el => sizeT el :: elemSizes el end.

(** The offset of a chain of address computations (the last one is the first). *)
Definition gepOffset {Val} (val : Val -> Z) (g : gep Val) : Z :=
  sum (map (fun p => match snd p with Some t => val (fst p) * sizeT t | None => 0 end) g).
Definition noStruct {Val} (g : gep Val) : Prop := forall p, In p g -> snd p <> None.
