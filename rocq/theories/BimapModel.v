(** Model of bidirectional maps:
    /repo/include/tsar/ADT/Bimap.h and /repo/include/tsar/ADT/ListBimap.h.

    Nodes live in a heap; an address which is not in the heap is a null, freed
    or foreign one, and an access to it is the outcome [None].  Addresses are
    not reused.  Keys are numbers.  Copying, assignment and swap are not
    modelled: they do not compile if instantiated (an iterator of the list is
    inserted into a set of pointers, a data member is called). *)
From Coq Require Import Bool List Arith.
Import ListNotations.

Definition addr := nat.
Fixpoint deref {V} (h : list (addr * V)) (a : addr) : option V :=
  match h with
  | [] => None
  | (b, v) :: h => if a =? b then Some v else deref h a
  end.
Definition release {V} (h : list (addr * V)) (a : addr) : list (addr * V) :=
  filter (fun p => negb (fst p =? a)) h.
Definition drop (l : list addr) (a : addr) : list addr :=
  filter (fun b => negb (b =? a)) l.

(** ** Bimap *)
Section Bimap.
(** The order in which nodes of a hash set are compared with a key is
    unspecified. *)
Variable probe : nat -> list addr -> list addr.

(** Bimap.h 558-560, mColl, mFirstToSecond, mSecondToFirst. *)
Record bimap := mkBM {
  bHeap : list (addr * (nat * nat)); bNext : addr;
  bColl : list addr; bFirst : list addr; bSecond : list addr }.
Definition emptyBimap : bimap := mkBM [] 0 [] [] [].

(** llvm::DenseSet::find_as with Bimap.h 44-84 and 178-197: the key is read from
    the node.  [Some None] is end(). *)
Fixpoint findAs (h : list (addr * (nat * nat))) (key : nat * nat -> nat)
    (k : nat) (s : list addr) : option (option addr) :=
  match s with
  | [] => Some None
  | a :: s =>
    match deref h a with
    | None => None
    | Some n => if key n =? k then Some (Some a) else findAs h key k s
    end
  end.
(** Bimap.h 430-433 and 436-439 *)
Definition find_first (b : bimap) (k : nat) : option (option addr) :=
  findAs (bHeap b) fst k (probe k (bFirst b)).
Definition find_second (b : bimap) (k : nat) : option (option addr) :=
  findAs (bHeap b) snd k (probe k (bSecond b)).
(** Bimap.h 519-527, lookup *)
Definition lookup (b : bimap) (v : nat * nat) : option (option addr * bool) :=
  match find_first b (fst v) with
  | None => None
  | Some (Some a) => Some (Some a, false)
  | Some None =>
    match find_second b (snd v) with
    | None => None
    | Some (Some a) => Some (Some a, false)
    | Some None => Some (None, true)
    end
  end.
(** Bimap.h 531-536, insertNode *)
Definition insertNode (b : bimap) (v : nat * nat) : bimap * (option addr * bool) :=
  let a := bNext b in
  (mkBM ((a, v) :: bHeap b) (S a) (bColl b ++ [a]) (bFirst b ++ [a]) (bSecond b ++ [a]),
   (Some a, true)).
(** Bimap.h 398-403, insert, and 420-427, emplace: a node which is not
    inserted is deleted, so only the address is lost. *)
Definition insert (b : bimap) (v : nat * nat) : option (bimap * (option addr * bool)) :=
  match lookup b v with
  | None => None
  | Some (p, false) => Some (b, (p, false))
  | Some (_, true) => Some (insertNode b v)
  end.
(** Bimap.h 454-460, erase of the element an iterator refers to; the result of
    the function is not modelled. *)
Definition erase (b : bimap) (a : addr) : option bimap :=
  match deref (bHeap b) a with
  | None => None
  | Some _ => Some (mkBM (release (bHeap b) a) (bNext b) (drop (bColl b) a)
                         (drop (bFirst b) a) (drop (bSecond b) a))
  end.
(** The iterator after an iterator (ilist_iterator::operator++): the link is
    stored in the node.  [Some None] is end(). *)
Fixpoint after (l : list addr) (a : addr) : option addr :=
  match l with
  | [] => None
  | b :: l => if a =? b then hd_error l else after l a
  end.
Definition increment (b : bimap) (i : option addr) : option (option addr) :=
  match i with
  | None => None
  | Some a => match deref (bHeap b) a with None => None | Some _ => Some (after (bColl b) a) end
  end.
(** Bimap.h 466-470, erase of a range; [fuel] bounds the loop, its exhaustion is
    [None] too. *)
Fixpoint eraseRange (fuel : nat) (b : bimap) (i e : option addr) : option bimap :=
  match fuel with
  | O => None
  | S f =>
    if match i, e with
       | None, None => true | Some x, Some y => x =? y | _, _ => false end
    then Some b
    else match i with
         | None => None
         | Some a =>
           match erase b a with
           | None => None
           | Some b' =>
             match increment b' i with
             | None => None
             | Some i' => eraseRange f b' i' e
             end
           end
         end
  end.
(** Bimap.h 476-484 and 490-498, erase by a key *)
Definition erase_first (b : bimap) (k : nat) : option (bimap * bool) :=
  match find_first b k with
  | None => None
  | Some None => Some (b, false)
  | Some (Some a) =>
    Some (mkBM (release (bHeap b) a) (bNext b) (drop (bColl b) a)
               (drop (bFirst b) a) (bSecond b), true)
  end.
Definition erase_second (b : bimap) (k : nat) : option (bimap * bool) :=
  match find_second b k with
  | None => None
  | Some None => Some (b, false)
  | Some (Some a) =>
    Some (mkBM (release (bHeap b) a) (bNext b) (drop (bColl b) a)
               (bFirst b) (drop (bSecond b) a), true)
  end.
(** Bimap.h 376-380, clear *)
Definition clear (b : bimap) : bimap := mkBM [] (bNext b) [] [] [].
End Bimap.

(** ** ListBimap *)

(** Keys of nodes are lists; indexes are maps from a key to a node
    (ListBimap.h 137-140, 509-511). *)
Definition lnode := (list nat * list nat)%type.
Record lbimap := mkLB {
  lHeap : list (addr * lnode); lNext : addr;
  lColl : list addr; lFirst : list (nat * addr); lSecond : list (nat * addr) }.
Definition emptyLBimap : lbimap := mkLB [] 0 [] [] [].
(** llvm::DenseMap::find, try_emplace, erase *)
Definition mfind (m : list (nat * addr)) (k : nat) : option addr := deref m k.
Definition try_emplace (m : list (nat * addr)) (k : nat) (a : addr) : list (nat * addr) :=
  match mfind m k with Some _ => m | None => (k, a) :: m end.
Definition merase (m : list (nat * addr)) (k : nat) : list (nat * addr) := release m k.
(** ListBimap.h 373-376 and 379-382 *)
Definition lfind_first (b : lbimap) (k : nat) : option addr := mfind (lFirst b) k.
Definition lfind_second (b : lbimap) (k : nat) : option addr := mfind (lSecond b) k.
(** ListBimap.h 464-476, lookup *)
Fixpoint firstFound (find : nat -> option addr) (ks : list nat) : option addr :=
  match ks with
  | [] => None
  | k :: ks => match find k with Some a => Some a | None => firstFound find ks end
  end.
Definition llookup (b : lbimap) (v : lnode) : option addr * bool :=
  match firstFound (lfind_first b) (fst v) with
  | Some a => (Some a, false)
  | None =>
    match firstFound (lfind_second b) (snd v) with
    | Some a => (Some a, false)
    | None => (None, true)
    end
  end.
(** ListBimap.h 480-487, insertNode *)
Definition linsertNode (b : lbimap) (v : lnode) : lbimap * (option addr * bool) :=
  let a := lNext b in
  (mkLB ((a, v) :: lHeap b) (S a) (lColl b ++ [a])
        (fold_left (fun m k => try_emplace m k a) (fst v) (lFirst b))
        (fold_left (fun m k => try_emplace m k a) (snd v) (lSecond b)),
   (Some a, true)).
(** ListBimap.h 341-346, insert, and 363-370, emplace *)
Definition linsert (b : lbimap) (v : lnode) : lbimap * (option addr * bool) :=
  let '(p, absent) := llookup b v in
  if absent then linsertNode b v else (b, (p, false)).
(** ListBimap.h 397-405, erase of the element an iterator refers to *)
Definition lerase (b : lbimap) (a : addr) : option lbimap :=
  match deref (lHeap b) a with
  | None => None
  | Some v => Some (mkLB (release (lHeap b) a) (lNext b) (drop (lColl b) a)
                         (fold_left merase (fst v) (lFirst b))
                         (fold_left merase (snd v) (lSecond b)))
  end.
(** ListBimap.h 421-429, erase_first.  The code converts an element of the map
    to an iterator, which does not compile if instantiated; the mapped node is
    meant. *)
Definition lerase_first (b : lbimap) (k : nat) : lbimap * bool :=
  match lfind_first b k with
  | None => (b, false)
  | Some a => (mkLB (release (lHeap b) a) (lNext b) (drop (lColl b) a)
                    (merase (lFirst b) k) (lSecond b), true)
  end.
(** ListBimap.h 319-323, clear *)
Definition lclear (b : lbimap) : lbimap := mkLB [] (lNext b) [] [] [].
