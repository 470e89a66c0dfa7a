(** Model of relations between memory locations:
    /repo/lib/Analysis/Memory/EstimateMemory.cpp 267-351 and 364-404,
    /repo/include/tsar/Analysis/Memory/EstimateMemory.h 60-205,
    /repo/include/tsar/Analysis/Memory/MemorySetInfo.h 106-120.

    Simplifications.
    - A pointer (llvm::Value) is a number.  Results of alias analysis
      (llvm::AAResults::alias) and of llvm::GetPointerBaseWithConstantOffset are
      arguments of the model.
    - A size is precise, an upper bound, or one of two unknown sizes of
      llvm::LocationSize; sizes of scalable vectors and special keys of
      llvm::DenseMap are absent.
    - Metadata of a location is a number, absent or marked as corrupted
      (the state which EstimateMemory::updateAAInfo() sets on a conflict).
    - bcl::TraitDescriptor is outside of the repository.  A descriptor is one of
      four main traits and the additional ones which are allowed together with
      PartialAlias and MustAlias.  A descriptor without a main trait (the
      default value) is never read by the modelled functions. *)
From Coq Require Import ZArith Bool List Lia.
Import ListNotations.
Open Scope Z_scope.

Definition ptr := nat.

(** llvm::LocationSize *)
Inductive size := SPrecise (n : Z) | SUpper (n : Z) | SAfter | SBeforeOrAfter.
Definition size_eqb (a b : size) : bool :=
  match a, b with
  | SPrecise n, SPrecise m | SUpper n, SUpper m => n =? m
  | SAfter, SAfter | SBeforeOrAfter, SBeforeOrAfter => true
  | _, _ => false
  end.
Definition isPrecise (s : size) : bool :=
  match s with SPrecise _ => true | _ => false end.
Definition hasValue (s : size) : bool :=
  match s with SPrecise _ | SUpper _ => true | _ => false end.
(* llvm::LocationSize::getValue() asserts hasValue() *)
Definition getValue (s : size) : Z :=
  match s with SPrecise n | SUpper n => n | _ => 0 end.

(** MemorySetInfo.h 106-120 *)
Definition sizecmp (l r : size) : Z :=
  if size_eqb l r then 0
  else if negb (hasValue l) && negb (hasValue r) then
    match l with SBeforeOrAfter => 1 | _ => -1 end
  else if negb (hasValue l) then 1
  else if negb (hasValue r) then -1
  else if getValue l <? getValue r then -1
  else if getValue l =? getValue r then 0 else 1.

(** llvm::AAMDNodes and the states of it in EstimateMemory.h 469-476 *)
Inductive tags := TagNone | Tag (n : nat) | TagCorrupted.
(** llvm::MemoryLocation *)
Record location := Loc { lPtr : ptr; lSize : size; lTags : tags }.
Definition withoutTags (l : location) : location := Loc (lPtr l) (lSize l) TagNone.
(** isAAInfoCorrupted and sanitizeAAInfo *)
Definition corrupted (t : tags) : bool :=
  match t with TagCorrupted => true | _ => false end.
Definition sanitize (t : tags) : tags := if corrupted t then TagNone else t.

(** llvm::AliasResult *)
Inductive aliasResult := ARNo | ARMay | ARPartial | ARMust.

(** EstimateMemory.h 161-165 *)
Inductive main := MNo | MMay | MPartial | MMust.
Inductive side := SideNone | SideContained | SideCover.
Record descriptor := Descr { dMain : main; dCoincide : bool; dSide : side }.
Definition main_eqb (a b : main) : bool :=
  match a, b with
  | MNo, MNo | MMay, MMay | MPartial, MPartial | MMust, MMust => true
  | _, _ => false
  end.
Definition side_eqb (a b : side) : bool :=
  match a, b with
  | SideNone, SideNone | SideContained, SideContained | SideCover, SideCover => true
  | _, _ => false
  end.
Definition descr_eqb (a b : descriptor) : bool :=
  main_eqb (dMain a) (dMain b) && Bool.eqb (dCoincide a) (dCoincide b) &&
  side_eqb (dSide a) (dSide b).
Definition plain (m : main) : descriptor := Descr m false SideNone.
Definition setCoincide (d : descriptor) := Descr (dMain d) true (dSide d).
Definition setCover (d : descriptor) := Descr (dMain d) (dCoincide d) SideCover.
Definition setContained (d : descriptor) := Descr (dMain d) (dCoincide d) SideContained.
Definition unsetRelation (d : descriptor) := Descr (dMain d) false SideNone.
Definition isMay (d : descriptor) : bool := main_eqb (dMain d) MMay.
Definition isPartial (d : descriptor) : bool := main_eqb (dMain d) MPartial.
Definition isMust (d : descriptor) : bool := main_eqb (dMain d) MMust.
Definition isContained (d : descriptor) : bool := side_eqb (dSide d) SideContained.
Definition isCover (d : descriptor) : bool := side_eqb (dSide d) SideCover.

(** The sum of an int64_t offset and an uint64_t size is computed as
    uint64_t. *)
Definition uadd (o s : Z) : Z := (o + s) mod 2 ^ 64.

Section Relation.
(* AAResults::alias *)
Variable alias : location -> location -> aliasResult.
(* GetPointerBaseWithConstantOffset: the base pointer and the offset *)
Variable base : ptr -> ptr * Z.

(** EstimateMemory.cpp 267-334 *)
Definition aliasRelation (l r : location) : descriptor :=
  let l' := if corrupted (lTags l) then withoutTags l else l in
  let r' := if corrupted (lTags r) then withoutTags r else r in
  match alias l' r' with
  | ARNo => plain MNo
  | ARMay => plain MMay
  | ARPartial =>
    let d := plain MPartial in
    if size_eqb (lSize l) (lSize r) || negb (isPrecise (lSize l)) ||
       negb (isPrecise (lSize r)) then d
    else
      let '(baseL, offL) := base (lPtr l) in
      let '(baseR, offR) := base (lPtr r) in
      if (offL =? 0) && (offR =? 0) then d
      else
        match alias (Loc baseL SAfter TagNone) (Loc baseR SAfter TagNone) with
        | ARMust =>
          if (offL <? offR) &&
             (uadd offR (getValue (lSize r)) <=? uadd offL (getValue (lSize l)))
          then setCover d
          else if (offR <? offL) &&
             (uadd offL (getValue (lSize l)) <=? uadd offR (getValue (lSize r)))
          then setContained d
          else d
        | _ => d
        end
  | ARMust =>
    let d := plain MMust in
    if negb (isPrecise (lSize l)) || negb (isPrecise (lSize r)) then
      let '(baseL, offL) := base (lPtr l) in
      let '(baseR, offR) := base (lPtr r) in
      if (offL =? offR) && Nat.eqb baseL baseR then
        let cmp := sizecmp (lSize l) (lSize r) in
        if cmp =? 0 then setCoincide d
        else if 0 <? cmp then setCover d
        else setContained d
      else d
    else if size_eqb (lSize l) (lSize r) then setCoincide d
    else if getValue (lSize r) <? getValue (lSize l) then setCover d
    else setContained d
  end.

(** EstimateMemory.cpp 364-404 *)
Definition mergeAliasRelation (l r : descriptor) : descriptor :=
  if descr_eqb l r then l
  else
    let al := unsetRelation l in
    let ar := unsetRelation r in
    let opposite := (isContained l && isCover r) || (isCover l && isContained r) in
    if descr_eqb al ar then
      let al := if dCoincide l || dCoincide r then setCoincide al else al in
      if opposite then unsetRelation al else al
    else if (isPartial l && isMust r) || (isMust l && isPartial r) then
      let d := plain MPartial in
      let d := if dCoincide l || dCoincide r then setCoincide d else d in
      if opposite then unsetRelation d else d
    else plain MMay.

(** EstimateMemory.h 361-617: the size, the metadata and ambiguous pointers of an
    estimate memory location.  The list of pointers is not empty. *)
Record estimate := EM { eFront : ptr; eRest : list ptr; eSize : size; eTags : tags }.
Definition ePtrs (e : estimate) : list ptr := eFront e :: eRest e.
(* MemoryLocation(Ptr, EM.getSize(), EM.getAAInfo()) *)
Definition eLoc (e : estimate) (p : ptr) : location := Loc p (eSize e) (sanitize (eTags e)).

(** EstimateMemory.cpp 336-351, a loop which stops at MayAlias *)
Fixpoint mergeAll (d : descriptor) (rs : list descriptor) : descriptor :=
  match rs with
  | [] => d
  | r :: rs =>
    let d := mergeAliasRelation d r in
    if isMay d then d else mergeAll d rs
  end.
Definition aliasRelationEM (l r : estimate) : descriptor :=
  let d := aliasRelation (eLoc l (eFront l)) (eLoc r (eFront r)) in
  if isMay d then d
  else mergeAll d (flat_map (fun p => map (fun q =>
         aliasRelation (eLoc l p) (eLoc r q)) (ePtrs r)) (ePtrs l)).

(** EstimateMemory.h 184-205: a not empty range of estimate locations *)
Definition aliasRelationRange (l : estimate) (r : estimate) (rs : list estimate)
    : descriptor :=
  let d := aliasRelationEM l r in
  if isMay d then d else mergeAll d (map (aliasRelationEM l) rs).
End Relation.
