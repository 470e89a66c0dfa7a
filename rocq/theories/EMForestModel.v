(** Model of trees of estimate memory locations:
    /repo/include/tsar/Analysis/Memory/EstimateMemory.h 208-235, 284-362,
    496-565 and 1274-1366,
    /repo/lib/Analysis/Memory/EstimateMemory.cpp 353-362.

    Simplifications.
    - A location is a number; the heap gives its parent, the list of its
      children and the list of ambiguous pointers (a number, as lists are
      compared by references, see AmbiguousRef::operator==).
    - Children are kept in an intrusive list (llvm::simple_ilist).  It is a list
      of locations here.  To remove a location which is not in the list is
      undefined behaviour: the result is [None].
    - Loops over parents have fuel, [None] means that it is exhausted. *)
From Coq Require Import Arith Bool List.
Import ListNotations.

Definition em := nat.
Record forest := Forest {
  fParent : em -> option em;
  fKids : em -> list em;
  fBase : em -> nat
}.
Definition upd {A} (f : em -> A) (x : em) (v : A) : em -> A :=
  fun y => if y =? x then v else f y.
Definition setParent (f : forest) (x : em) (p : option em) : forest :=
  Forest (upd (fParent f) x p) (fKids f) (fBase f).
Definition setKids (f : forest) (x : em) (l : list em) : forest :=
  Forest (fParent f) (upd (fKids f) x l) (fBase f).

(** llvm::simple_ilist: push_back, remove, insert before an element *)
Definition pushBack (f : forest) (x c : em) : forest := setKids f x (fKids f x ++ [c]).
Definition without (c : em) (l : list em) : list em := filter (fun y => negb (y =? c)) l.
Definition removeKid (f : forest) (x c : em) : option forest :=
  if existsb (Nat.eqb c) (fKids f x) then Some (setKids f x (without c (fKids f x)))
  else None.
Fixpoint insertBefore (l : list em) (k c : em) : list em :=
  match l with
  | [] => []
  | y :: l => if y =? k then c :: y :: l else y :: insertBefore l k c
  end.

(** EstimateMemory.h 496-498 *)
Definition isSameBase (f : forest) (x y : em) : bool := fBase f x =? fBase f y.

(** EstimateMemory.h 1274-1287 *)
Definition getNext (f : forest) (x : em) : option em :=
  match fParent f x with
  | Some p => if isSameBase f x p then Some p else None
  | None => None
  end.
Definition getPrev (f : forest) (x : em) : option em :=
  match fKids f x with
  | k :: _ => if isSameBase f x k then Some k else None
  | [] => None
  end.

Definition opt_eqb (a b : option em) : bool :=
  match a, b with
  | Some x, Some y => x =? y
  | None, None => true
  | _, _ => false
  end.
(* remove a location from the list of its parent if it has a parent *)
Definition leave (f : forest) (x : em) : option forest :=
  match fParent f x with Some p => removeKid f p x | None => Some f end.

(** EstimateMemory.h 1290-1308.  The assertion 'a node must not follow itself'
    is the first condition. *)
Definition spliceNext (f : forest) (c : em) (n : option em) : option forest :=
  if opt_eqb n (Some c) then None
  else if opt_eqb (fParent f c) n then Some f
  else
    match leave f c with
    | None => None
    | Some f =>
      match n with
      | None => Some (setParent f c None)
      | Some n =>
        match leave f n with
        | None => None
        | Some f =>
          let f := setParent f n (fParent f c) in
          let f := match fParent f c with Some p => pushBack f p n | None => f end in
          let f := pushBack f n c in
          Some (setParent f c (Some n))
        end
      end
    end.

(** EstimateMemory.h 1310-1323 *)
Definition mergeNext (f : forest) (c : em) (n : option em) : option forest :=
  if opt_eqb n (Some c) then None
  else if opt_eqb (fParent f c) n then Some f
  else
    match leave f c with
    | None => None
    | Some f =>
      let f := match n with Some n => pushBack f n c | None => f end in
      Some (setParent f c n)
    end.

(** EstimateMemory.h 1325-1352 *)
Definition splicePrev (f : forest) (c : em) (p : option em) : option forest :=
  if opt_eqb p (Some c) then None
  else
    match p with
    | None => Some f
    | Some p =>
      if opt_eqb (fParent f p) (Some c) then Some f
      else
        match leave f p with
        | None => None
        | Some f =>
          let f := setParent f p (Some c) in
          let f := fold_left (fun f k => setParent f k None) (fKids f p) f in
          let f := setKids f p [] in
          match find (fun i => isSameBase f i p) (fKids f c) with
          | Some k =>
            let f := setParent f k (Some p) in
            let f := setKids f c (insertBefore (fKids f c) k p) in
            match removeKid f c k with
            | None => None
            | Some f => Some (pushBack f p k)
            end
          | None => Some (pushBack f c p)
          end
        end
    end.

(** EstimateMemory.h 1354-1366 *)
Definition mergePrev (f : forest) (c : em) (p : option em) : option forest :=
  if opt_eqb p (Some c) then None
  else
    match p with
    | None => Some f
    | Some p =>
      if opt_eqb (fParent f p) (Some c) then Some f
      else
        match leave f p with
        | None => None
        | Some f =>
          let f := setParent f p (Some c) in
          Some (pushBack f c p)
        end
    end.

(** The loop 'for (auto EM = x; EM; EM = EM->getParent()) if (EM == y) ...':
    whether it meets y. *)
Fixpoint meets (fuel : nat) (f : forest) (x y : em) : option bool :=
  match fuel with
  | O => None
  | S fuel =>
    if x =? y then Some true
    else match fParent f x with
         | Some p => meets fuel f p y
         | None => Some false
         end
  end.
(** EstimateMemory.cpp 353-362 *)
Definition ancestor (fuel : nat) (f : forest) (l r : em) : option (option em) :=
  match meets fuel f l r with
  | None => None
  | Some true => Some (Some r)
  | Some false =>
    match meets fuel f r l with
    | None => None
    | Some true => Some (Some l)
    | Some false => Some None
    end
  end.
(** EstimateMemory.h 222-232 *)
Definition descendant (fuel : nat) (f : forest) (l r : em) : option em :=
  match ancestor fuel f l r with
  | None => None
  | Some a => Some (if opt_eqb (Some l) a then r else l)
  end.
(** EstimateMemory.h 534-565 *)
Definition isAncestorOf (fuel : nat) (f : forest) (x y : em) : option bool := meets fuel f y x.
Definition isDescendantOf (fuel : nat) (f : forest) (x y : em) : option bool := meets fuel f x y.
Definition isUnreachable (fuel : nat) (f : forest) (x y : em) : option bool :=
  match isAncestorOf fuel f x y with
  | None => None
  | Some true => Some false
  | Some false => option_map negb (isDescendantOf fuel f x y)
  end.
(** EstimateMemory.h 506-517 *)
Fixpoint getTopLevelParent (fuel : nat) (f : forest) (x : em) : option em :=
  match fuel with
  | O => None
  | S fuel =>
    match fParent f x with
    | Some p => getTopLevelParent fuel f p
    | None => Some x
    end
  end.
