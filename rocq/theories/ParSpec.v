(** What a user expects of a storage of parallel constructs.  Nothing here
    depends on how the storage is implemented. *)
From Coq Require Import Arith Bool List.
From Verif Require Import ParModel.
Import ListNotations.

(** A user attaches items of a class to a place of a basic block (before or after
    an anchor), attaches an item if there is no item it may be merged with, or
    removes everything which is attached to a block. *)
Inductive op :=
| Attach (T bb : nat) (a : anchor) (onEntry : bool) (args : nat)
| AttachIfNew (T bb : nat) (a : anchor) (onEntry : bool) (args : nat)
| Erase (bb : nat).

Definition place : Type := nat * anchor * bool.
Definition place_eqb (p q : place) : bool :=
  match p, q with
  | (b, a, e), (b', a', e') =>
    (b =? b') && Bool.eqb e e' &&
    match a, a' with
    | AMeta n, AMeta m | AValue n, AValue m => n =? m
    | _, _ => false
    end
  end.
Definition blockOf (p : place) : nat := fst (fst p).

Section Spec.
Variable isa : nat -> nat -> bool.
Variable mergeable : nat -> nat -> nat -> bool.

(** Classes and arguments of items at a place after a history *)
Definition contents := place -> list (nat * nat).
Definition attach (c : contents) (p : place) (x : nat * nat) : contents :=
  fun q => if place_eqb p q then c q ++ [x] else c q.
Definition apply (c : contents) (o : op) : contents :=
  match o with
  | Attach T bb a e args => attach c (bb, a, e) (T, args)
  | AttachIfNew T bb a e args =>
    if existsb (fun x => isa T (fst x) && mergeable (fst x) (snd x) args) (c (bb, a, e))
    then c else attach c (bb, a, e) (T, args)
  | Erase bb => fun q => if bb =? blockOf q then [] else c q
  end.
Definition expected (h : list op) : contents := fold_left apply h (fun _ => []).
End Spec.

(** An execution of operations by the storage *)
Section Run.
Variable parentOf : nat -> nat.
Variable isa : nat -> nat -> bool.
Variable mergeable : nat -> nat -> nat -> bool.
Variable grows : state -> bool.
Definition perform (s : state) (o : op) : option state :=
  match o with
  | Attach T bb a e args => option_map fst (emplace parentOf grows s T bb a e args)
  | AttachIfNew T bb a e args =>
    option_map (fun r => fst (fst r))
      (tryEmplace parentOf isa mergeable grows s T bb a e args)
  | Erase bb => Some (eraseBlock s bb)
  end.
Fixpoint run (s : state) (h : list op) : option state :=
  match h with
  | [] => Some s
  | o :: h => match perform s o with Some s => run s h | None => None end
  end.
End Run.

(** What iteration over the storage shows at a place: items of all locations of
    the block with this anchor *)
Definition anchor_eqb (a b : anchor) : bool :=
  match a, b with
  | AMeta n, AMeta m | AValue n, AValue m => n =? m
  | _, _ => false
  end.
Definition shown (s : state) (p : place) : list item :=
  let '(bb, a, e) := p in
  match lookup (blocks s) bb with
  | None => []
  | Some l =>
    flat_map (fun q => if anchor_eqb (lAnchor q) a then pItems (side e q) else [])
      (llItems l)
  end.
Definition about (x : item) : nat * nat := (iClass x, iArgs x).
(** Operations which look for an item are only applied to anchors of loops. *)
Definition loopAnchors (h : list op) : Prop :=
  forall T bb v e args, ~ In (AttachIfNew T bb (AValue v) e args) h.
