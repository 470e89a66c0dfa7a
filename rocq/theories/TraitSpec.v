(** What the traits of a memory location mean for the parallelization of a
    loop; independent of the bitwise representation. *)
From Coq Require Import NArith Bool List.
From Verif Require Import TraitModel.
Import ListNotations.

(** Ways to treat a location in a parallel version of a loop. *)
Inductive treatment :=
| Ignore               (* there is nothing to do: no access *)
| Share                (* one copy shared by all iterations *)
| MakePrivate          (* a copy per thread, neither copy-in nor copy-out *)
| CopyIn               (* a private copy with the initial value *)
| CopyOutLast          (* a private copy; the last iteration stores the result *)
| CopyOutSecondToLast  (* ... the second to last iteration stores the result *)
| CopyOutDynamic       (* ... the iteration found at run time stores it *)
| CopyInOutLast | CopyInOutSecondToLast | CopyInOutDynamic
| Reduce | Induct      (* per thread partial results / closed form *)
| Serialize.           (* iterations are executed one by one *)

(* the treatments each classification permits *)
Definition classAllows (d : descr) (t : treatment) : bool :=
  let no := d TNoAccess in
  let ro := d TReadonly in
  let pr := d TPrivate in
  let fi := d TFirstPrivate in
  let la := d TLastPrivate in
  let se := d TSecondToLastPrivate in
  let dy := d TDynamicPrivate in
  (* a shared location without any other class *)
  let sh := d TShared && negb (pr || fi || la || se || dy) in
  let anyPrivate := pr || fi || la || se || dy in
  match t with
  | Ignore => no
  | Share => no || ro || d TShared
  | MakePrivate => no || pr
  | CopyIn => no || ro || pr || (fi && negb (la || se || dy))
  | CopyOutLast => no || pr || (la && negb fi)
  | CopyOutSecondToLast => no || pr || (se && negb fi)
  | CopyOutDynamic => no || pr || ((la || se || dy) && negb fi)
  | CopyInOutLast => no || ro || pr || ((fi || la) && negb (se || dy))
  | CopyInOutSecondToLast => no || ro || pr || ((fi || se) && negb (la || dy))
  | CopyInOutDynamic => no || ro || sh || anyPrivate
  | Reduce => no || d TReduction
  | Induct => no || d TInduction
  | Serialize => true
  end.

(** A descriptor is well-formed if the traits, except independent flags, belong
    to one alternative (MemoryTrait.h 267-277). *)
Definition wellFormed (d : descr) : Prop :=
  exists alt, In alt alternatives /\
    forall t, d t = true -> In t unitTraits \/ In t alt.

(** Elementary traits which the analysis combines: a class, an optional mark of
    absence of a dependence, independent flags. *)
Inductive class :=
| KNoAccess | KReadonly | KShared | KDependency | KReduction | KInduction
| KPrivate (shared : bool) | KFirst (shared : bool) | KLast (shared : bool)
| KSecond (shared : bool) | KDynamic (shared : bool).
Definition markShared (b : bool) (w : N) : N :=
  if b then tOr w SharedJoin else w.
Definition classId (c : class) : N :=
  match c with
  | KNoAccess => NoAccess | KReadonly => Readonly | KShared => Shared
  | KDependency => Dependency | KReduction => Reduction
  | KInduction => Induction
  | KPrivate s => markShared s Private
  | KFirst s => markShared s FirstPrivate
  | KLast s => markShared s LastPrivate
  | KSecond s => markShared s SecondToLastPrivate
  | KDynamic s => markShared s DynamicPrivate
  end.
(* the constant of the enumeration for an independent flag *)
Definition flagId (t : trait) : N :=
  match t with
  | TAddressAccess => AddressAccess | TExplicitAccess => ExplicitAccess
  | THeaderAccess => HeaderAccess | TLock => Lock | TRedundant => Redundant
  | TNoRedundant => NoRedundant | TNoPromotedScalar => NoPromotedScalar
  | TDirectAccess => DirectAccess | TIndirectAccess => IndirectAccess
  | TUseAfterLoop => UseAfterLoop
  | _ => NoAccess
  end.
Inductive elementary := Class (c : class) | Flag (t : trait).
Definition elementId (e : elementary) : N :=
  match e with Class c => classId c | Flag t => flagId t end.

(** Any way to combine traits with operator&: a binary tree. *)
Inductive combination := Leaf (e : elementary) | Both (a b : combination).
Fixpoint combine (c : combination) : N :=
  match c with Leaf e => elementId e | Both a b => tAnd (combine a) (combine b) end.
Fixpoint parts (c : combination) : list elementary :=
  match c with Leaf e => [e] | Both a b => parts a ++ parts b end.

(* what one elementary trait says, without the bitwise representation *)
Definition elementAllows (e : elementary) (t : treatment) : bool :=
  match e with
  | Flag _ => true
  | Class c =>
    match c, t with
    | _, Serialize => true
    | KNoAccess, _ => true
    | (KReadonly | KShared | KPrivate true | KFirst true | KLast true
       | KSecond true | KDynamic true), Share => true
    | KReadonly, (CopyIn | CopyInOutLast | CopyInOutSecondToLast
                  | CopyInOutDynamic) => true
    | KShared, CopyInOutDynamic => true
    | KReduction, Reduce => true
    | KInduction, Induct => true
    | KPrivate _, (MakePrivate | CopyIn | CopyOutLast | CopyOutSecondToLast
                   | CopyOutDynamic | CopyInOutLast | CopyInOutSecondToLast
                   | CopyInOutDynamic) => true
    | KFirst _, (CopyIn | CopyInOutLast | CopyInOutSecondToLast
                 | CopyInOutDynamic) => true
    | KLast _, (CopyOutLast | CopyOutDynamic | CopyInOutLast
                | CopyInOutDynamic) => true
    | KSecond _, (CopyOutSecondToLast | CopyOutDynamic
                  | CopyInOutSecondToLast | CopyInOutDynamic) => true
    | KDynamic _, (CopyOutDynamic | CopyInOutDynamic) => true
    | _, _ => false
    end
  end.
