(** Model of the update of existing traits of a memory location with traits
    found by a repeated analysis,
    /repo/lib/Analysis/Memory/DIDependenceAnalysis.cpp 130-148 and 302-385.

    Simplifications.
    - A set of traits is a descriptor (TraitModel.v) with descriptions attached
      to the traits Flow, Anti and Output.  Descriptions of other traits and
      causes of dependences are not modelled.
    - Only distances of the outermost loop are modelled: getDistance(0).
    - The library bcl is outside of the repository.  bcl::trait::update(From, To)
      makes each trait of To the same as in From; a description is accessible
      while its trait is set; set() without a value keeps the description. *)
From Coq Require Import ZArith Bool List.
From Verif Require Import TraitModel.
Import ListNotations.

(** TraitDescriptor::unset<Tag>() of the library. *)
Definition dUnset (d : descr) (t : trait) : descr :=
  fun x => negb (trait_eqb x t) && d x.
Definition setIf (b : bool) (t : trait) (d : descr) : descr :=
  if b then dSet d t else d.
Definition unsetIf (b : bool) (t : trait) (d : descr) : descr :=
  if b then dUnset d t else d.
(** is_any<Tags...>() of the library. *)
Definition isAny (d : descr) (ts : list trait) : bool := existsb d ts.

(** 310-329: changes of the new traits [f] according to existing ones [d]. *)
Definition prepare (f d : descr) : descr :=
  let f := setIf (d TNoPromotedScalar) TNoPromotedScalar f in
  let f := unsetIf (negb (d THeaderAccess)) THeaderAccess f in
  let f := setIf (d TAddressAccess) TAddressAccess f in
  let f := setIf (d TUseAfterLoop) TUseAfterLoop f in
  let f := setIf (d TDirectAccess) TDirectAccess f in
  let f := setIf (d TIndirectAccess) TIndirectAccess f in
  let f := setIf (d TExplicitAccess) TExplicitAccess f in
  let f := unsetIf (negb (d TFlow)) TFlow f in
  let f := unsetIf (negb (d TAnti)) TAnti f in
  unsetIf (negb (d TOutput)) TOutput f.

(** 309-372, clarifyDescriptor: the new value of DIMTrait and the returned value;
    [f] is FromDIMTrait after lines 310-329. *)
Definition clarifyPrepared (f d : descr) : descr * bool :=
  (* 330-331 *)
  if isAny d [TNoAccess; TReadonly] then (d, false)
  (* 332-334 *)
  else if d TShared && negb (isAny f [TNoAccess; TReadonly]) then (d, false)
  (* 335-338 *)
  else if isAny d [TPrivate; TInduction; TReduction]
          && negb (isAny f [TNoAccess; TReadonly; TShared]) then (d, false)
  (* 341-349 *)
  else if d TSecondToLastPrivate && f TLastPrivate then
    if f TShared && negb (d TShared) then (dSet d TShared, true) else (d, false)
  else
    (* 350-356 *)
    let drop := negb (f TFirstPrivate) && d TFirstPrivate in
    let d := if drop then dUnset d TFirstPrivate else d in
    (* 357-360 *)
    if isAny d [TSecondToLastPrivate; TLastPrivate]
       && negb (isAny f [TNoAccess; TReadonly; TShared; TPrivate]) then (d, drop)
    (* 361-365 *)
    else if d TDynamicPrivate
            && negb (isAny f [TNoAccess; TReadonly; TShared; TPrivate;
                              TSecondToLastPrivate; TLastPrivate]) then (d, drop)
    (* 367-371 *)
    else (f, true).
Definition clarifyDescriptor (f d : descr) : descr * bool :=
  clarifyPrepared (prepare f d) d.

Inductive kind := KFlow | KAnti | KOutput.
Definition tagOf (k : kind) : trait :=
  match k with KFlow => TFlow | KAnti => TAnti | KOutput => TOutput end.

(** DIMemoryTrait.h 47-112, DIDependence: distances of the outermost loop; a bound may be
    unknown. *)
Record dep := Dep { dLo : option Z; dHi : option Z }.
(** MemoryTrait.h 152 and DIMemoryTrait.h 71-76: isKnownDistance(). *)
Definition isKnownDistance (x : dep) : bool :=
  match dLo x, dHi x with Some _, Some _ => true | _, _ => false end.

(** DIMemoryTrait.h 192-250, DIMemoryTrait. *)
Record traits := Traits { tDescr : descr; tDep : kind -> option dep }.
(** get<Tag>() of the library. *)
Definition getDep (T : traits) (k : kind) : option dep :=
  if tDescr T (tagOf k) then tDep T k else None.

(** 130-148, moveIf: the description of DIMTrait after the call. *)
Definition moveIf (F D : traits) (k : kind) : option dep :=
  if negb (tDescr D (tagOf k)) then getDep D k
  else match getDep F k with
       | None => getDep D k
       | Some x =>
           match getDep D k with
           | Some y => if isKnownDistance y then Some y else Some x
           | None => Some x
           end
       end.

(** 378-385, clarify(FromDIMTrait, DIMTrait): the new value of DIMTrait. *)
Definition clarify (F D : traits) : traits :=
  let f := prepare (tDescr F) (tDescr D) in
  let (d, changed) := clarifyDescriptor (tDescr F) (tDescr D) in
  (* descriptions of traits which are unset are lost *)
  let D' := Traits d (fun k => if d (tagOf k) then getDep D k else None) in
  let F' := Traits f (fun k => if f (tagOf k) then getDep F k else None) in
  if changed then Traits d (moveIf F' D') else D'.
