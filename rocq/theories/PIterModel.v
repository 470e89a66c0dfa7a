(** Model of persistent iterators:
    /repo/include/tsar/ADT/PersistentIterator.h.

    Iterators and buckets are numbered; an absent object is not constructed or
    already destroyed, and an access to it is the outcome [None].  A bucket stands for PersistentBucket together with
    its PersistentValueWrapper, its element is not modelled. *)
From Coq Require Import Bool List Arith.
Import ListNotations.

(** What mPrev may point to: mNext of an iterator or the list head of a bucket. *)
Inductive loc := LNext (i : nat) | LHead (b : nat).
Definition loc_eqb (x y : loc) : bool :=
  match x, y with
  | LNext i, LNext j => i =? j
  | LHead b, LHead c => b =? c
  | _, _ => false
  end.
(** PersistentIterator.h 241 (mPtr), 268-269 (mNext, mPrev) *)
Record iter := mkIter { mPtr : option nat; mNext : option nat; mPrev : loc }.
(** [hHead]: PersistentIterator.h 377, mPersistentList *)
Record heap := mkHeap { hIter : nat -> option iter; hHead : nat -> option (option nat) }.
Definition emptyHeap : heap := mkHeap (fun _ => None) (fun _ => None).

Definition setIter (h : heap) (i : nat) (v : option iter) : heap :=
  mkHeap (fun j => if j =? i then v else hIter h j) (hHead h).
Definition setHead (h : heap) (b : nat) (v : option (option nat)) : heap :=
  mkHeap (hIter h) (fun c => if c =? b then v else hHead h c).
(* *P = V for P of type PersistentIteratorC ** *)
Definition store (h : heap) (p : loc) (v : option nat) : option heap :=
  match p with
  | LNext i => match hIter h i with
               | Some c => Some (setIter h i (Some (mkIter (mPtr c) v (mPrev c))))
               | None => None
               end
  | LHead b => match hHead h b with
               | Some _ => Some (setHead h b (Some v))
               | None => None
               end
  end.
Definition setPrev (h : heap) (i : nat) (p : loc) : option heap :=
  match hIter h i with
  | Some c => Some (setIter h i (Some (mkIter (mPtr c) (mNext c) p)))
  | None => None
  end.

(** PersistentIterator.h 237-238, isValid *)
Definition validIter (i : nat) (c : iter) : bool := negb (loc_eqb (mPrev c) (LNext i)).
Definition isValid (h : heap) (i : nat) : option bool := option_map (validIter i) (hIter h i).
(** PersistentIterator.h 229-231, operator== *)
Definition samePtr (a b : iter) : bool :=
  match mPtr a, mPtr b with
  | Some x, Some y => x =? y
  | None, None => true
  | _, _ => false
  end.

(** PersistentIterator.h 246-256, addToList; a null mPtr is the outcome [None]. *)
Definition addToList (h : heap) (i : nat) : option heap :=
  match hIter h i with
  | None => None
  | Some c =>
    match mPtr c with
    | None => None
    | Some b =>
      match hHead h b with
      | None => None
      | Some l =>
        let h1 := setIter (setHead h b (Some (Some i))) i (Some (mkIter (mPtr c) l (LHead b))) in
        match l with
        | None => Some h1
        | Some n => setPrev h1 n (LNext i)
        end
      end
    end
  end.
(** PersistentIterator.h 244 and 258-266, invalidate and removeFromList *)
Definition invalidate (h : heap) (i : nat) : option heap := setPrev h i (LNext i).
Definition removeFromList (h : heap) (i : nat) : option heap :=
  match hIter h i with
  | None => None
  | Some c =>
    match store h (mPrev c) (mNext c) with
    | None => None
    | Some h1 =>
      match mNext c with
      | None => invalidate h1 i
      | Some n =>
        match setPrev h1 n (mPrev c) with
        | None => None
        | Some h2 => invalidate h2 i
        end
      end
    end
  end.

(** PersistentIterator.h 131-135, default constructor *)
Definition newIter (h : heap) (i : nat) : option heap :=
  Some (setIter h i (Some (mkIter None None (LNext i)))).
(** 137-145, destructor *)
Definition destroyIter (h : heap) (i : nat) : option heap :=
  match hIter h i with
  | None => None
  | Some c =>
    match (if validIter i c then removeFromList h i else Some h) with
    | None => None
    | Some h1 => Some (setIter h1 i None)
    end
  end.
(** 147-153, copy constructor; mNext is not initialized if the source is invalid,
    it is not read before it is written (null here). *)
Definition copyIter (h : heap) (i j : nat) : option heap :=
  match hIter h j with
  | None => None
  | Some c =>
    let h1 := setIter h i (Some (mkIter (mPtr c) None (LNext i))) in
    if validIter j c then addToList h1 i else Some h1
  end.
(** 155-162, move constructor *)
Definition moveIter (h : heap) (i j : nat) : option heap :=
  match hIter h j with
  | None => None
  | Some c =>
    let h1 := setIter h i (Some (mkIter (mPtr c) None (LNext i))) in
    if validIter j c then
      match addToList h1 i with
      | None => None
      | Some h2 => removeFromList h2 j
      end
    else Some h1
  end.
(** 164-171, construction from an iterator which is not persistent *)
Definition iterTo (h : heap) (i b : nat) : option heap :=
  addToList (setIter h i (Some (mkIter (Some b) None (LNext i)))) i.
Definition setPtr (h : heap) (i : nat) (p : option nat) : option heap :=
  match hIter h i with
  | Some c => Some (setIter h i (Some (mkIter p (mNext c) (mPrev c))))
  | None => None
  end.
(** 173-189, copy assignment *)
Definition assignIter (h : heap) (i j : nat) : option heap :=
  match hIter h i, hIter h j with
  | Some a, Some c =>
    if validIter j c then
      if samePtr a c then Some h
      else match setPtr h i (mPtr c) with
           | None => None
           | Some h1 => addToList h1 i
           end
    else
      match setPtr h i (mPtr c) with
      | None => None
      | Some h1 => if validIter i a then removeFromList h1 i else invalidate h1 i
      end
  | _, _ => None
  end.
(** 191-208, move assignment *)
Definition moveAssignIter (h : heap) (i j : nat) : option heap :=
  match hIter h i, hIter h j with
  | Some a, Some c =>
    if validIter j c then
      match (if samePtr a c then Some h
             else match setPtr h i (mPtr c) with
                  | None => None
                  | Some h1 => addToList h1 i
                  end) with
      | None => None
      | Some h2 => removeFromList h2 j
      end
    else
      match setPtr h i (mPtr c) with
      | None => None
      | Some h1 => if validIter i a then removeFromList h1 i else invalidate h1 i
      end
  | _, _ => None
  end.
(** 210-220, assignment of an iterator which is not persistent *)
Definition assignTo (h : heap) (i b : nat) : option heap :=
  match hIter h i with
  | None => None
  | Some a =>
    match (if validIter i a then removeFromList h i else Some h) with
    | None => None
    | Some h1 => match setPtr h1 i (Some b) with
                 | None => None
                 | Some h2 => addToList h2 i
                 end
    end
  end.

(** PersistentIterator.h 327, default constructor of PersistentValueWrapper *)
Definition newBucket (h : heap) (b : nat) : option heap := Some (setHead h b (Some None)).
(** 330-333, destructor; [None] if out of fuel *)
Fixpoint unlinkAll (fuel : nat) (h : heap) (b : nat) : option heap :=
  match fuel with
  | O => None
  | S f =>
    match hHead h b with
    | None => None
    | Some None => Some h
    | Some (Some i) =>
      match removeFromList h i with
      | None => None
      | Some h1 => unlinkAll f h1 b
      end
    end
  end.
Definition destroyBucket (fuel : nat) (h : heap) (b : nat) : option heap :=
  option_map (fun h => setHead h b None) (unlinkAll fuel h b).
(** 339 and 357-358, copy construction and copy assignment (defaulted) *)
Definition copyBucket (h : heap) (c b : nat) : option heap :=
  match hHead h b with None => None | Some l => Some (setHead h c (Some l)) end.
(* the loop 349-350: *)
Fixpoint retarget (fuel : nat) (h : heap) (curr : option nat) (b : nat) : option heap :=
  match fuel with
  | O => None
  | S f =>
    match curr with
    | None => Some h
    | Some i =>
      match hIter h i with
      | None => None
      | Some c => retarget f (setIter h i (Some (mkIter (Some b) (mNext c) (mPrev c)))) (mNext c) b
      end
    end
  end.
(** 342-351, move constructor, and 361-371, move assignment: the list of [c] is
    overwritten *)
Definition moveBucket (fuel : nat) (h : heap) (c b : nat) : option heap :=
  match hHead h b with
  | None => None
  | Some l =>
    let h1 := setHead (setHead h c (Some l)) b (Some None) in
    match l with
    | None => Some h1
    | Some i =>
      match setPrev h1 i (LHead c) with
      | None => None
      | Some h2 =>
        match hIter h2 i with
        | None => None
        | Some x => retarget fuel (setIter h2 i (Some (mkIter (Some c) (mNext x) (mPrev x)))) (mNext x) c
        end
      end
    end
  end.
