(** Model of /repo/include/tsar/Analysis/Memory/DFMemoryLocation.h 44-258 and
    /repo/lib/Analysis/Memory/DFMemoryLocation.cpp 36-59: a data-flow value is
    a memory set or the full value.  The value that was destroyed
    (INVALID_KIND) is not modelled. *)
From Coq Require Import ZArith Bool List.
From Verif Require Import RangeModel MemSetModel.
Import ListNotations.
Open Scope Z_scope.

Inductive dfval := DFull | DMask (s : mset).

Section Dio.
Variable dio : Z -> Z -> Z -> option (Z * Z * Z * Z).
(** DFMemoryLocation.h 146-149 *)
Definition dfContain (x : dfval) (L : range) : bool :=
  match x with DFull => true | DMask s => contain dio s L end.
(** 153-156 *)
Definition dfOverlap (x : dfval) (L : range) : bool :=
  match x with DFull => true | DMask s => overlap dio s L end.
(** 160-166; what is appended to Compl *)
Definition dfSubtract (x : dfval) (L : range) : bool * option (list range) :=
  match x with DFull => (false, None) | DMask s => subtractFrom dio s L end.
(** 170-173 *)
Definition dfCover (x : dfval) (L : range) : bool :=
  match x with DFull => false | DMask s => cover dio s L end.
(** 177-184 *)
Definition dfFindCoveredBy (x : dfval) (L : range) : list range :=
  match x with DFull => [L] | DMask s => snd (findCoveredBy dio s L) end.
(** 84-97, difference; lines 91-92 do not return, the locations are then
    inserted again *)
Definition dfDifference (ls : list range) (x : dfval) (R : mset) : mset :=
  match x with
  | DFull => R
  | DMask s =>
      match ls with
      | [] => R
      | _ => let R1 := match s with [] => fst (minsertAll R ls) | _ => R end in
             fst (minsertAll R1 (filter (fun l => negb (overlap dio s l)) ls))
      end
  end.
(** DFMemoryLocation.cpp 36-46 *)
Definition dfIntersect (x y : dfval) : dfval * bool :=
  match y, x with
  | DFull, _ => (x, false)
  | DMask t, DFull => (DMask (fst (minsertAll [] (allLocs t))), true)
  | DMask t, DMask s => let '(r, c) := mintersect dio s t in (DMask r, c)
  end.
End Dio.
(** 187-190 *)
Definition dfEmpty (x : dfval) : bool := match x with DMask [] => true | _ => false end.
(** 204-209 *)
Definition dfInsert (x : dfval) (L : range) : dfval * bool :=
  match x with
  | DFull => (DFull, true)
  | DMask s => (DMask (msInsert s L), msInsertFlag s L)
  end.
(** 213-220 *)
Definition dfInsertAll (x : dfval) (ls : list range) : dfval * bool :=
  match x with
  | DFull => (DFull, false)
  | DMask s => let '(r, c) := minsertAll s ls in (DMask r, c)
  end.
(** DFMemoryLocation.cpp 48-59 *)
Definition dfMerge (x y : dfval) : dfval * bool :=
  match x, y with
  | DFull, _ => (DFull, false)
  | DMask _, DFull => (DFull, true)
  | DMask s, DMask t => let '(r, c) := mmerge s t in (DMask r, c)
  end.
(** 229-237 *)
Definition dfEqb (x y : dfval) : bool :=
  match x, y with
  | DFull, DFull => true
  | DMask s, DMask t => mset_eqb s t
  | _, _ => false
  end.
