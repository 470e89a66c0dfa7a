(** Model of traits of memory locations:
    /repo/lib/Analysis/Memory/BitMemoryTrait.h,
    /repo/lib/Analysis/Memory/BitMemoryTrait.cpp,
    /repo/include/tsar/Analysis/Memory/MemoryTrait.h.

    Simplifications.
    - unsigned long long values are numbers of N; all operations on them are
      bitwise.
    - bcl::TraitDescriptor is outside of the repository.  A descriptor is the
      set of traits it has.  The method set() of the library also unsets traits
      which are not compatible with the new one; here it only adds traits.
      Theorem C15_description_total proves that the traits of each description
      are compatible, so there is nothing to unset.
    - llvm::Statistic counters are unbounded. *)
From Coq Require Import NArith Bool List.
Import ListNotations.
Open Scope N_scope.

(** MemoryTrait.h 56-80 and 180-196: traits of MemoryDescriptor (267-277). *)
Inductive trait :=
| TAddressAccess | TExplicitAccess | THeaderAccess | TLock | TRedundant
| TNoRedundant | TNoPromotedScalar | TDirectAccess | TIndirectAccess
| TUseAfterLoop
| TNoAccess | TReadonly | TReduction | TInduction | TFlow | TAnti | TOutput
| TPrivate | TShared | TLastPrivate | TFirstPrivate | TSecondToLastPrivate
| TDynamicPrivate.
Definition trait_eqb (a b : trait) : bool :=
  match a, b with
  | TAddressAccess, TAddressAccess | TExplicitAccess, TExplicitAccess
  | THeaderAccess, THeaderAccess | TLock, TLock | TRedundant, TRedundant
  | TNoRedundant, TNoRedundant | TNoPromotedScalar, TNoPromotedScalar
  | TDirectAccess, TDirectAccess | TIndirectAccess, TIndirectAccess
  | TUseAfterLoop, TUseAfterLoop | TNoAccess, TNoAccess
  | TReadonly, TReadonly | TReduction, TReduction | TInduction, TInduction
  | TFlow, TFlow | TAnti, TAnti | TOutput, TOutput | TPrivate, TPrivate
  | TShared, TShared | TLastPrivate, TLastPrivate
  | TFirstPrivate, TFirstPrivate
  | TSecondToLastPrivate, TSecondToLastPrivate
  | TDynamicPrivate, TDynamicPrivate => true
  | _, _ => false
  end.

(** MemoryTrait.h 267-277, the list of traits of a MemoryDescriptor. *)
Definition unitTraits : list trait :=
  [TAddressAccess; TExplicitAccess; THeaderAccess; TLock; TRedundant;
   TNoRedundant; TNoPromotedScalar; TDirectAccess; TIndirectAccess;
   TUseAfterLoop].
(* bcl::TraitAlternative: at most one of these sets is allowed *)
Definition alternatives : list (list trait) :=
  [[TNoAccess]; [TReadonly]; [TReduction]; [TInduction];
   [TFlow; TAnti; TOutput]; [TPrivate; TShared];
   [TLastPrivate; TFirstPrivate; TShared];
   [TSecondToLastPrivate; TFirstPrivate; TShared];
   [TDynamicPrivate; TFirstPrivate; TShared]].

Definition descr := trait -> bool.
Definition dNone : descr := fun _ => false.
Definition dSet (d : descr) (t : trait) : descr :=
  fun x => trait_eqb x t || d x.

(** BitMemoryTrait.h 60-84, enum Id. *)
Definition NoAccess : N :=            1*262144 + 262143.
Definition bitsOf (cls units : N) : N := cls * 1024 + units.
(* the ten least significant bits of Id *)
Definition units : N := 1023.
Definition Readonly : N :=            bitsOf 317 units. (* 100111101 *)
Definition SharedJoin : N :=          bitsOf 1 units.   (* 000000001 *)
Definition Shared : N :=              bitsOf 261 units. (* 100000101 *)
Definition Private : N :=             bitsOf 30 units.  (* 000011110 *)
Definition FirstPrivate : N :=        bitsOf 28 units.  (* 000011100 *)
Definition SecondToLastPrivate : N := bitsOf 22 units.  (* 000010110 *)
Definition LastPrivate : N :=         bitsOf 14 units.  (* 000001110 *)
Definition DynamicPrivate : N :=      bitsOf 6 units.   (* 000000110 *)
Definition Dependency : N :=          bitsOf 0 units.   (* 000000000 *)
Definition Reduction : N :=           bitsOf 64 units.  (* 001000000 *)
Definition Induction : N :=           bitsOf 128 units. (* 010000000 *)
Definition AddressAccess : N :=       bitsOf 511 511.   (* 0111111111 *)
Definition HeaderAccess : N :=        bitsOf 511 767.   (* 1011111111 *)
Definition ExplicitAccess : N :=      bitsOf 511 895.   (* 1101111111 *)
Definition Lock : N :=                bitsOf 511 959.   (* 1110111111 *)
Definition Redundant : N :=           bitsOf 511 991.   (* 1111011111 *)
Definition NoRedundant : N :=         bitsOf 511 1007.  (* 1111101111 *)
Definition NoPromotedScalar : N :=    bitsOf 511 1015.  (* 1111110111 *)
Definition DirectAccess : N :=        bitsOf 511 1019.  (* 1111111011 *)
Definition IndirectAccess : N :=      bitsOf 511 1021.  (* 1111111101 *)
Definition UseAfterLoop : N :=        bitsOf 511 1022.  (* 1111111110 *)
Definition AllUnitFlags : N :=        bitsOf 511 0.

(** BitMemoryTrait.h 102-120 and 133-146, operators &, &=, |, |=. *)
Definition tAnd : N -> N -> N := N.land.
Definition tOr : N -> N -> N := N.lor.
(** BitMemoryTrait.h 147-154, operator~. *)
Definition tNot (w : N) : N := N.ldiff NoAccess w.
(** BitMemoryTrait.h 157-160. *)
Definition dropUnitFlag (w : N) : N := tOr w (tNot AllUnitFlags).
(** BitMemoryTrait.h 163-166. *)
Definition dropSharedFlag (w : N) : N := tAnd w (dropUnitFlag (tNot SharedJoin)).
(** BitMemoryTrait.h 169-171. *)
Definition hasSharedJoin (w : N) : bool :=
  negb (tAnd (tAnd w SharedJoin) AllUnitFlags =? 0).

Definition onlyIf (b : bool) (id w : N) : N := if b then tAnd w id else w.

(** BitMemoryTrait.cpp 30-81, BitMemoryTrait(const MemoryDescriptor &). *)
Definition encode (d : descr) : N :=
  let w := NoAccess in
  let w := onlyIf (d TAddressAccess) AddressAccess w in
  let w := onlyIf (d TUseAfterLoop) UseAfterLoop w in
  let w := onlyIf (d THeaderAccess) HeaderAccess w in
  let w := onlyIf (d TNoPromotedScalar) NoPromotedScalar w in
  let w := onlyIf (d TExplicitAccess) ExplicitAccess w in
  let w := onlyIf (d TRedundant) Redundant w in
  let w := onlyIf (d TNoRedundant) NoRedundant w in
  let w := onlyIf (d TDirectAccess) DirectAccess w in
  let w := onlyIf (d TIndirectAccess) IndirectAccess w in
  let w := onlyIf (d TLock) Lock w in
  if d TNoAccess then w
  else if d TFlow || d TAnti || d TOutput then tAnd w Dependency
  else if d TReduction then tAnd w Reduction
  else if d TInduction then tAnd w Induction
  else if d TReadonly then tAnd w Readonly
  else
    let SharedFlag := if d TShared then SharedJoin else tNot NoAccess in
    let SharedTrait := if d TShared then Shared else Dependency in
    if d TPrivate then tAnd w (tOr Private SharedFlag)
    else
      let w := onlyIf (d TFirstPrivate) (tOr FirstPrivate SharedFlag) w in
      if d TLastPrivate then tAnd w (tOr LastPrivate SharedFlag)
      else if d TSecondToLastPrivate
           then tAnd w (tOr SecondToLastPrivate SharedFlag)
      else if d TDynamicPrivate then tAnd w (tOr DynamicPrivate SharedFlag)
      else if negb (d TFirstPrivate) then tAnd w SharedTrait
      else w.

(** BitMemoryTrait.cpp 83-189, toDescriptor.  Every trait is stored together
    with an increment of the counter accessed by the same tag, so the model
    returns the list of traits in the order of set() calls; NoAccess is the
    only one which is not counted (line 134).  [None]: llvm_unreachable. *)
Definition flagTrait (w id : N) (t : trait) : list trait :=
  if tAnd w (tNot id) =? 0 then [t] else [].
Definition unitPart (w : N) : list trait :=
  flagTrait w UseAfterLoop TUseAfterLoop ++
  flagTrait w AddressAccess TAddressAccess ++
  flagTrait w HeaderAccess THeaderAccess ++
  flagTrait w Lock TLock ++
  flagTrait w NoPromotedScalar TNoPromotedScalar ++
  flagTrait w ExplicitAccess TExplicitAccess ++
  flagTrait w Redundant TRedundant ++
  flagTrait w NoRedundant TNoRedundant ++
  flagTrait w DirectAccess TDirectAccess ++
  flagTrait w IndirectAccess TIndirectAccess.
Definition classPart (w : N) : option (list trait) :=
  let c := dropUnitFlag w in
  if c =? Readonly then Some [TReadonly]
  else if c =? NoAccess then Some [TNoAccess]
  else if c =? Shared then Some [TShared]
  else
    let sh := if hasSharedJoin w then [TShared] else [] in
    let c := dropUnitFlag (dropSharedFlag w) in
    if c =? Private then Some (sh ++ [TPrivate])
    else if c =? FirstPrivate then Some (sh ++ [TFirstPrivate])
    else if c =? tAnd FirstPrivate LastPrivate
         then Some (sh ++ [TFirstPrivate; TLastPrivate])
    else if c =? LastPrivate then Some (sh ++ [TLastPrivate])
    else if c =? tAnd FirstPrivate SecondToLastPrivate
         then Some (sh ++ [TFirstPrivate; TSecondToLastPrivate])
    else if c =? SecondToLastPrivate then Some (sh ++ [TSecondToLastPrivate])
    else if c =? tAnd FirstPrivate DynamicPrivate
         then Some (sh ++ [TFirstPrivate; TDynamicPrivate])
    else if c =? DynamicPrivate then Some (sh ++ [TDynamicPrivate])
    else if c =? Dependency then Some (sh ++ [TFlow; TAnti; TOutput])
    else if c =? Reduction then Some (sh ++ [TReduction])
    else if c =? Induction then Some (sh ++ [TInduction])
    else None.
Definition traitsOf (w : N) : option (list trait) :=
  match classPart w with
  | None => None
  | Some c => Some (unitPart w ++ c)
  end.

(** MemoryTrait.h 301-323, MemoryStatistic: a tuple of references to counters;
    tags of its elements. *)
Definition statTags : list trait :=
  [TAddressAccess; TExplicitAccess; THeaderAccess; TReadonly; TShared;
   TPrivate; TFirstPrivate; TSecondToLastPrivate; TLastPrivate;
   TDynamicPrivate; TReduction; TInduction; TFlow; TAnti; TOutput; TLock;
   TRedundant; TNoRedundant; TNoPromotedScalar; TDirectAccess;
   TIndirectAccess; TUseAfterLoop].
(** MemoryTrait.h 353-362: variables the macro MEMORY_TRAIT_STATISTIC
    initializes the tuple with (VARNAME##AddressAccess is TAddressAccess). *)
Definition statInit : list trait :=
  [TAddressAccess; THeaderAccess; TExplicitAccess; TReadonly; TShared;
   TPrivate; TFirstPrivate; TSecondToLastPrivate; TLastPrivate;
   TDynamicPrivate; TReduction; TInduction; TFlow; TAnti; TOutput; TLock;
   TRedundant; TNoRedundant; TNoPromotedScalar; TDirectAccess;
   TIndirectAccess; TUseAfterLoop].

(* Stat.get<Tag>(): the variable the reference is bound to. *)
Fixpoint boundIn (tags vars : list trait) (t : trait) : option trait :=
  match tags, vars with
  | g :: tags, v :: vars => if trait_eqb g t then Some v else boundIn tags vars t
  | _, _ => None
  end.
Definition statVar (t : trait) : option trait := boundIn statTags statInit t.

Definition counters := trait -> N.
(* Stat.get<Tag>() += TraitNumber *)
Definition bump (k : N) (c : counters) (t : trait) : counters :=
  match statVar t with
  | None => c
  | Some v => fun x => if trait_eqb x v then c x + k else c x
  end.

(** BitMemoryTrait.cpp 83-189: the descriptor and the updated counters. *)
Definition toDescriptor (w k : N) (c : counters) : option (descr * counters) :=
  match traitsOf w with
  | None => None
  | Some ts =>
      Some (fold_left dSet ts dNone, fold_left (bump k) ts c)
  end.
