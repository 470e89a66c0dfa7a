(** Expected relations of parallel constructs. *)
From Coq Require Import Arith Bool List.
From Verif Require Import ParItemModel.
Import ListNotations.

(** A user creates constructs and markers, nests a construct in another one, adds
    one more construct to a marker and destroys constructs. *)
Inductive op :=
| New (x c : nat) (lev : bool)
| NewMarker (x b : nat)
| Nest (p x : nat)
| Mark (m p : nat)
| Delete (x : nat).

(** What exists after a history: constructs which may have nested ones, other
    constructs, markers, and pairs of a construct and a nested one *)
Record world := World {
  used : list nat;
  exist : list nat;
  levels : list nat;
  markers : list nat;
  nested : list (nat * nat)
}.
Definition nothing : world := World [] [] [] [] [].
Definition has (l : list nat) (x : nat) : bool := existsb (Nat.eqb x) l.
Definition next (w : world) (o : op) : world :=
  match o with
  | New x c lev =>
    World (x :: used w) (x :: exist w) (if lev then x :: levels w else levels w) (markers w)
      (nested w)
  | NewMarker x b =>
    World (x :: used w) (x :: exist w) (levels w) (x :: markers w) (nested w)
  | Nest p x => World (used w) (exist w) (levels w) (markers w) (nested w ++ [(p, x)])
  | Mark m p => w
  | Delete x =>
    World (used w) (filter (fun y => negb (y =? x)) (exist w)) (levels w) (markers w)
      (filter (fun l => negb (fst l =? x) && negb (snd l =? x)) (nested w))
  end.
(** Conditions of operations: new addresses, existing arguments, no construct is
    nested in a construct which can not have nested ones, markers are not nested *)
Definition allowed (w : world) (o : op) : bool :=
  match o with
  | New x c lev => negb (has (used w) x)
  | NewMarker x b => negb (has (used w) x) && has (exist w) b && negb (has (markers w) b)
  | Nest p x =>
    has (exist w) p && has (exist w) x && has (levels w) p && negb (has (markers w) x)
  | Mark m p => has (exist w) m && has (markers w) m && has (exist w) p
  | Delete x => has (exist w) x
  end.
Fixpoint legal (w : world) (h : list op) : bool :=
  match h with
  | [] => true
  | o :: h => allowed w o && legal (next w o) h
  end.
Definition after (h : list op) : world := fold_left next h nothing.
(** Nested constructs and enclosing ones *)
Definition inside (w : world) (p : nat) : list nat :=
  map snd (filter (fun l => fst l =? p) (nested w)).
Definition around (w : world) (x : nat) : list nat :=
  map fst (filter (fun l => snd l =? x) (nested w)).

(** Execution *)
Definition perform (s : state) (o : op) : option state :=
  match o with
  | New x c lev => create s x c lev
  | NewMarker x b => createMarker s x b
  | Nest p x =>
    match childInsert s p x with Some s => parentInsert s x p | None => None end
  | Mark m p => parentInsert s m p
  | Delete x => destroy s x
  end.
Fixpoint run (s : state) (h : list op) : option state :=
  match h with
  | [] => Some s
  | o :: h => match perform s o with Some s => run s h | None => None end
  end.
