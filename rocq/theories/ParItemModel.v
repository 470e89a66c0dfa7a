(** Model of relations between parallel constructs:
    /repo/include/tsar/Analysis/Parallel/Parallellelization.h 52-239,
    /repo/lib/Transform/Clang/OpenMPAutoPar.cpp 310-359 (a merge of regions).

    Simplifications.
    - An item is a number (its address), an address is never reused.  To access
      an item which is destroyed is undefined behaviour: the result is [None], as
      well as a failed assertion.
    - A class of an item is a number; it is 0 for a marker. *)
From Coq Require Import Arith Bool List.
Import ListNotations.

Record state := State {
  made : list nat;                  (* addresses which were used *)
  live : list nat;                  (* items which are not destroyed *)
  marker : nat -> bool;             (* isMarker *)
  level : nat -> bool;              (* isChildPossible *)
  class : nat -> nat;               (* getKind *)
  parents : nat -> list nat;        (* mParents *)
  kids : nat -> list nat            (* mChildren *)
}.
Definition none : state :=
  State [] [] (fun _ => false) (fun _ => false) (fun _ => 0) (fun _ => []) (fun _ => []).
Definition upd {A} (f : nat -> A) (x : nat) (v : A) : nat -> A :=
  fun y => if y =? x then v else f y.
Definition alive (s : state) (x : nat) : bool := existsb (Nat.eqb x) (live s).
Definition setParents (s : state) (x : nat) (l : list nat) : state :=
  State (made s) (live s) (marker s) (level s) (class s) (upd (parents s) x l) (kids s).
Definition setKids (s : state) (x : nat) (l : list nat) : state :=
  State (made s) (live s) (marker s) (level s) (class s) (parents s) (upd (kids s) x l).

(** Parallellelization.h 66-67, 122-131 and 152-154: a constructor; x is a new
    address *)
Definition create (s : state) (x c : nat) (lev : bool) : option state :=
  if existsb (Nat.eqb x) (made s) then None
  else Some (State (x :: made s) (x :: live s) (upd (marker s) x false) (upd (level s) x lev)
               (upd (class s) x c) (upd (parents s) x []) (upd (kids s) x [])).
(** Parallellelization.h 109-111 *)
Definition parentInsert (s : state) (x p : nat) : option state :=
  if alive s x then Some (setParents s x (parents s x ++ [p])) else None.
(** Parallellelization.h 162-166 *)
Definition childInsert (s : state) (p x : nat) : option state :=
  if alive s p && alive s x && level s p && negb (marker s x)
  then Some (setKids s p (kids s p ++ [x])) else None.
(** Parallellelization.h 204-209 *)
Definition createMarker (s : state) (x b : nat) : option state :=
  if existsb (Nat.eqb x) (made s) then None
  else Some (State (x :: made s) (x :: live s) (upd (marker s) x true) (upd (level s) x false)
               (upd (class s) x 0) (upd (parents s) x [b]) (upd (kids s) x [])).

(* llvm::find and erase: the first occurrence *)
Fixpoint removeFirst (x : nat) (l : list nat) : list nat :=
  match l with
  | [] => []
  | y :: l => if y =? x then l else y :: removeFirst x l
  end.
(** Parallellelization.h 156-160 *)
Fixpoint leaveKids (s : state) (x : nat) (l : list nat) : option state :=
  match l with
  | [] => Some s
  | c :: l =>
    if alive s c then leaveKids (setParents s c (removeFirst x (parents s c))) x l
    else None
  end.
(** Parallellelization.h 232-239 *)
Fixpoint leaveParents (s : state) (x : nat) (l : list nat) : option state :=
  match l with
  | [] => Some s
  | p :: l =>
    if alive s p then
      leaveParents (if level s p then setKids s p (removeFirst x (kids s p)) else s) x l
    else None
  end.
(* a destructor: of ParallelLevel, then of ParallelItem, then memory is freed *)
Definition destroy (s : state) (x : nat) : option state :=
  if alive s x then
    match (if level s x then leaveKids s x (kids s x) else Some s) with
    | None => None
    | Some s =>
      match (if marker s x then Some s else leaveParents s x (parents s x)) with
      | None => None
      | Some s =>
        Some (State (made s) (filter (fun y => negb (y =? x)) (live s)) (marker s) (level s)
                (class s) (parents s) (kids s))
      end
    end
  else None.
(** Parallellelization.h 212-219: the first parent of the class.  isa<> reads a
    parent. *)
Fixpoint firstOf (s : state) (c : nat) (l : list nat) : option (option nat) :=
  match l with
  | [] => Some None
  | p :: l =>
    if alive s p then
      if class s p =? c then Some (Some p) else firstOf s c l
    else None
  end.
Definition getBase (s : state) (m c : nat) : option (option nat) :=
  if alive s m then firstOf s c (parents s m) else None.

Fixpoint destroyAll (s : state) (l : list nat) : option state :=
  match l with
  | [] => Some s
  | x :: l => match destroy s x with None => None | Some s => destroyAll s l end
  end.
(** OpenMPAutoPar.cpp 310-359, effects of a merge on items.  A loop has a region
    and a marker of its end: the first loop, inner ones and the last one. *)
Definition mergeRegions (s : state) (first : nat * nat) (inner : list (nat * nat))
    (last : nat * nat) : option state :=
  match parentInsert s (snd last) (fst first) with
  | None => None
  | Some s =>
    destroyAll s (snd first :: flat_map (fun p => [snd p; fst p]) inner ++ [fst last])
  end.
