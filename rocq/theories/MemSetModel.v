(** Model of /repo/include/tsar/Analysis/Memory/MemorySet.h for
    MemoryLocationRange.

    The DenseMap from base pointers to lists of locations is an association
    list; iteration visits it in the order of the list (the order of a DenseMap
    is arbitrary, the theorems hold for every order).  The tombstone and empty
    keys of AAMDNodes are [TTomb] and [TEmpty]. *)
From Coq Require Import ZArith Bool List Lia.
From Verif Require Import RangeModel.
Import ListNotations.
Open Scope Z_scope.

Definition mset := list (option nat * list range).
Fixpoint mfind (p : option nat) (s : mset) : option (list range) :=
  match s with
  | [] => None
  | (q, l) :: s => if ptr_eqb p q then Some l else mfind p s
  end.
Fixpoint mreplace (p : option nat) (l : list range) (s : mset) : mset :=
  match s with
  | [] => []
  | (q, x) :: s => if ptr_eqb p q then (q, l) :: s else (q, x) :: mreplace p l s
  end.

(** MemorySet.h 307-315: the update of alias tags when locations are joined. *)
Definition joinTags (Curr Loc : range) : range :=
  if negb (tags_eqb (rTags Curr) (rTags Loc)) then
    match rTags Curr with
    | TEmpty => setTags Curr (rTags Loc)
    | _ => setTags Curr TTomb
    end
  else Curr.

Fixpoint insertNth (i : nat) (x : range) (l : list range) : list range :=
  match i, l with
  | S i, y :: l => y :: insertNth i x l
  | _, _ => x :: l
  end.
(** MemorySet.h 302-331, the search for a joinable location.  [done] was
    already visited; [ins] is InsertItr.  Result: the new list, the flag, the
    position the returned iterator refers to. *)
Fixpoint insLoop (Loc : range) (done rest : list range) (ins : nat)
    : list range * bool * nat :=
  match rest with
  | [] =>
      let ins := match rDims Loc with [] => ins | _ => length done end in
      (insertNth ins Loc done, true, length done)
  | Curr :: rest' =>
      if areJoinable Curr Loc then
        let '(c, ch) := joinRanges Loc (joinTags Curr Loc) in
        (done ++ c :: rest', ch, length done)
      else
        let step := match rDims Loc, nth_error (done ++ rest) ins with
                    | [], Some x => match rDims x with
                                    | [] => sizecmp (rLo x) (rLo Loc) <=? 0
                                    | _ => false end
                    | _, _ => false end in
        insLoop Loc (done ++ [Curr]) rest' (if step then S ins else ins)
  end.
(** MemorySet.h 294-331, insert: the new set, the flag, the position of the
    returned iterator in the list of the base pointer. *)
Definition minsert (s : mset) (Loc : range) : mset * bool * nat :=
  match mfind (rPtr Loc) s with
  | None => (s ++ [(rPtr Loc, [Loc])], true, O)
  | Some l =>
      let '(l', ch, i) := insLoop Loc [] l O in
      (mreplace (rPtr Loc) l' s, ch, i)
  end.
Definition msInsert (s : mset) (Loc : range) : mset := fst (fst (minsert s Loc)).
Definition msInsertFlag (s : mset) (Loc : range) : bool := snd (fst (minsert s Loc)).
(** MemorySet.h 335-342, insertion of a range of locations. *)
Fixpoint minsertAll (s : mset) (ls : list range) : mset * bool :=
  match ls with
  | [] => (s, false)
  | x :: ls =>
      let '(s1, c1, _) := minsert s x in
      let '(s2, c2) := minsertAll s1 ls in (s2, c1 || c2)
  end.

Section Dio.
Variable dio : Z -> Z -> Z -> option (Z * Z * Z * Z).
(* the default value of Threshold, MemoryLocationRange.h 215 *)
Definition Threshold : Z := 10.
Definition inter (L R : range) : ires := fst (fst (intersectRanges dio L R false false Threshold)).
(* the intersection with the complement of the second operand *)
Definition interR (L R : range) : ires * list range :=
  let '(res, _, RC) := intersectRanges dio L R false true Threshold in (res, RC).

(** One location of the set against the remaining tails, MemorySet.h 174-181
    and 259-267. *)
Fixpoint tailStep (Curr : range) (Tails : list range) : list range * bool :=
  match Tails with
  | [] => ([], false)
  | T :: Tails =>
      let '(rest, hit) := tailStep Curr Tails in
      match interR Curr T with
      | (IExact _, RC) => (RC ++ rest, true)
      | (_, RC) => (RC ++ T :: rest, hit)
      end
  end.
(** MemorySet.h 162-186, findContaining (the result only; the number of
    intersected tails decides how often a location is listed). *)
Fixpoint containLoop (l Tails : list range) : bool :=
  match Tails with
  | [] => true
  | _ => match l with
         | [] => false
         | c :: l => containLoop l (fst (tailStep c Tails))
         end
  end.
Definition contain (s : mset) (Loc : range) : bool :=
  match mfind (rPtr Loc) s with
  | None => false
  | Some l => containLoop l [Loc]
  end.

(** MemorySet.h 196-217, findCoveredBy and cover. *)
Definition coveredList (l : list range) (Loc : range) : list range :=
  flat_map (fun c => match inter c Loc with IExact r => [r] | _ => [] end) l.
Definition findCoveredBy (s : mset) (Loc : range) : bool * list range :=
  match mfind (rPtr Loc) s with
  | None => (false, [])
  | Some l => (existsb (fun c => match inter c Loc with INone => false | _ => true end) l,
               coveredList l Loc)
  end.
Definition cover (s : mset) (Loc : range) : bool := fst (findCoveredBy s Loc).

(** MemorySet.h 220-246 and 275-277, findOverlappedWith and overlap. *)
Definition overlap (s : mset) (Loc : range) : bool :=
  match mfind (rPtr Loc) s with
  | None => false
  | Some l => existsb (fun c => match inter c Loc with INone => false | _ => true end) l
  end.

(** MemorySet.h 248-271, subtractFrom.  [None]: the output list is not
    touched (line 253). *)
Fixpoint subLoop (l Tails : list range) : list range * bool :=
  match l with
  | [] => (Tails, false)
  | c :: l =>
      let '(t1, h1) := tailStep c Tails in
      let '(t2, h2) := subLoop l t1 in (t2, h1 || h2)
  end.
Definition subtractFrom (s : mset) (Loc : range) : bool * option (list range) :=
  match mfind (rPtr Loc) s with
  | None => (false, None)
  | Some l => let '(t, h) := subLoop l [Loc] in (h, Some t)
  end.

(** MemorySet.h 345-364, intersect. *)
Definition interOne (With : mset) (acc : mset * bool) (Loc : range) : mset * bool :=
  let '(s, ch) := acc in
  if contain With Loc then (msInsert s Loc, ch)
  else match snd (findCoveredBy With Loc) with
       | [] => (s, ch)
       | ls => let '(s', c) := minsertAll s ls in (s', ch || c)
       end.
Definition allLocs (s : mset) : list range := flat_map snd s.
Definition mintersect (s With : mset) : mset * bool :=
  fold_left (interOne With) (allLocs s) ([], false).

(** MemorySet.h 367-375, merge. *)
Definition mmerge (s With : mset) : mset * bool := minsertAll s (allLocs With).

(** MemorySet.h 67-77, difference; the result set is another MemorySet. *)
Definition mdifference (ls : list range) (s Result : mset) : mset :=
  match s with
  | [] => fst (minsertAll Result ls)
  | _ => fst (minsertAll Result (filter (fun x => negb (overlap s x)) ls))
  end.

(** MemorySet.h 384-407, clarify. *)
Definition exactHit (s : mset) (Other : range) : bool :=
  match mfind (rPtr Other) s with
  | None => false
  | Some l => existsb (fun c => match inter c Other with IExact _ => true | _ => false end) l
  end.
Definition clarify (s : mset) (From : list (range * range)) : mset :=
  fst (minsertAll s
    (map (fun pr => setNonCollapsable (fst pr))
         (filter (fun pr => negb (exactHit s (snd pr))) From))).
End Dio.

(** MemorySet.h 415-454, operator==.  [sanitize] starts with a copy of the
    first location and then visits all locations, the first one again. *)
Definition smin (L R : lsize) : lsize := if sizecmp L R >? 0 then R else L.
Definition smax (L R : lsize) : lsize := if sizecmp L R <? 0 then R else L.
(* [acc] in reverse order: its head is Locs.back() *)
Definition sanStep (acc : list range) (x : range) : list range :=
  match acc with
  | [] => [x]
  | b :: acc' =>
      if (sizecmp (rHi b) (rLo x) >? 0) && (sizecmp (rLo b) (rHi x) <? 0)
      then setBounds b (smin (rLo x) (rLo b)) (smax (rHi x) (rHi b)) :: acc'
      else x :: b :: acc'
  end.
Definition sanitize (l : list range) : list range :=
  match l with
  | [] => []     (* lists of the map are never empty *)
  | x :: _ => rev (fold_left sanStep l [x])
  end.
Fixpoint ranges_eqb (a b : list range) : bool :=
  match a, b with
  | [], [] => true
  | x :: a, y :: b => range_eqb x y && ranges_eqb a b
  | _, _ => false
  end.
Definition mset_eqb (a b : mset) : bool :=
  Nat.eqb (length a) (length b) &&
  forallb (fun pr => match mfind (fst pr) b with
                     | None => false
                     | Some l => ranges_eqb (sanitize (snd pr)) (sanitize l)
                     end) a.
