(** What rewriting of a text means.  A document is a sequence of pieces.  Each piece
    stands for some consecutive characters of the original text. *)
From Coq Require Import List Arith.
Import ListNotations.

Section S.
Variable A : Type.
(** Texts inserted before and after the location of the piece, its current text, the
    number of original characters, was it never replaced. *)
Record piece := mkPiece {
  before : list A; after : list A; body : list A; width : nat; intact : bool }.
Definition doc := list piece.
(** The original text: each character is a piece. *)
Definition start (text : list A) : doc := map (fun c => mkPiece [] [] [c] 1 true) text.
Definition inner (p : piece) : list A := after p ++ body p.
Definition show (p : piece) : list A := before p ++ inner p.
Definition render (d : doc) : list A := flat_map show d.
(** The number of original characters. *)
Definition widths (d : doc) : nat := list_sum (map width d).

Inductive op :=
| Insert (Loc : nat) (s : list A) (InsertAfter : bool)
| Replace (Loc Len : nat) (s : list A).
Definition added (o : op) : nat := match o with Insert _ s _ => length s | Replace _ _ s => length s end.

(** Insertion goes to the piece which starts at the location: after the text which is
    already inserted before (after) this location.  Insertion after the location of a
    replaced text has no meaning.  A replaced range covers pieces completely; what
    was inserted before its beginning remains. *)
Inductive edit : op -> doc -> doc -> Prop :=
| edit_before : forall l p r s,
    edit (Insert (widths l) s false) (l ++ p :: r)
      (l ++ mkPiece (before p ++ s) (after p) (body p) (width p) (intact p) :: r)
| edit_after : forall l p r s, intact p = true ->
    edit (Insert (widths l) s true) (l ++ p :: r)
      (l ++ mkPiece (before p) (after p ++ s) (body p) (width p) (intact p) :: r)
| edit_replace : forall l p m r s,
    edit (Replace (widths l) (widths (p :: m)) s) (l ++ p :: m ++ r)
      (l ++ mkPiece (before p) [] s (widths (p :: m)) false :: r).
Inductive edits : list op -> doc -> doc -> Prop :=
| edits_nil : forall d, edits [] d d
| edits_cons : forall o os d d1 d2, edit o d d1 -> edits os d1 d2 -> edits (o :: os) d d2.

(** Locations an edit is about: [from, to). *)
Definition from (o : op) : nat := match o with Insert n _ _ => n | Replace n _ _ => n end.
Definition upto (o : op) : nat := match o with Insert n _ _ => S n | Replace n k _ => n + k end.
Definition apart (o1 o2 : op) : Prop := upto o1 <= from o2 \/ upto o2 <= from o1.
End S.
Arguments mkPiece {A}.
Arguments before {A}.
Arguments after {A}.
Arguments body {A}.
Arguments width {A}.
Arguments intact {A}.
Arguments start {A}.
Arguments inner {A}.
Arguments show {A}.
Arguments render {A}.
Arguments widths {A}.
Arguments Insert {A}.
Arguments Replace {A}.
Arguments added {A}.
Arguments edit {A}.
Arguments edits {A}.
Arguments from {A}.
Arguments upto {A}.
Arguments apart {A}.
