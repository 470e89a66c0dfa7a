(** Model of the combination of traits of memory locations with attached descriptions of
    dependences, /repo/lib/Analysis/Memory/DIDependenceAnalysis.cpp 150-300, 476-504 and
    2612-2642.

    Simplifications.
    - The library bcl is outside of the repository.  Method set() of a descriptor unsets
      traits which are incompatible with the new one (other alternatives of MemoryDescriptor);
      updates of traits at 1680-1760, such as set<trait::Reduction>() for a variable with
      dependences, rely on this.  A description is accessible while its trait is set.
    - A cause of a dependence is a number.
    - Search for traits of IR-level memory (445-475) is not modelled.
    - Statistics are not modelled. *)
From Coq Require Import ZArith NArith Bool List.
From Verif Require Import TraitModel ClarifyModel.
Import ListNotations.

(** llvm::APInt and llvm::APSInt: width, bits as a non-negative number, signedness. *)
Record apint := AP { aWidth : Z; aBits : Z }.
Record apsint := APS { sInt : apint; sUnsigned : bool }.
Definition signedValue (a : apint) : Z :=
  if (aBits a <? 2 ^ (aWidth a - 1))%Z then aBits a else (aBits a - 2 ^ aWidth a)%Z.
Definition valueOf (a : apsint) : Z :=
  if sUnsigned a then aBits (sInt a) else signedValue (sInt a).
(** APSInt comparison; [None]: assertions on equal signedness and equal widths. *)
Definition leAPS (a b : apsint) : option bool :=
  if Bool.eqb (sUnsigned a) (sUnsigned b) && (aWidth (sInt a) =? aWidth (sInt b))%Z
  then Some (valueOf a <=? valueOf b)%Z else None.

(** MemoryTrait.h 88-109, flags except UnknownDistance which follows from distances. *)
Record flags := Flags { fMay : bool; fLoadStore : bool; fCall : bool; fUnknown : bool;
  fConfused : bool }.
Definition orFlags (a b : flags) : flags :=
  Flags (fMay a || fMay b) (fLoadStore a || fLoadStore b) (fCall a || fCall b)
    (fUnknown a || fUnknown b) (fConfused a || fConfused b).
(* F &= ~May *)
Definition noMay (a : flags) : flags :=
  Flags false (fLoadStore a) (fCall a) (fUnknown a) (fConfused a).
(* F | UnknownCause *)
Definition addUnknown (a : flags) : flags :=
  Flags (fMay a) (fLoadStore a) (fCall a) true (fConfused a).

(** DIMemoryTrait.h 47-112, DIDependence: flags, a range of distances for each level, causes. *)
Definition range := (option apsint * option apsint)%type.
Record dep := Dep { dFlags : flags; dDist : list range; dCauses : list nat }.
(** IR-level description, IRMemoryTrait.h: constant bounds of distances; other bounds are
    [None].  A cause is a pair of a number and whether its location in a source code is
    known. *)
Record irDep := IRDep { rFlags : flags; rDist : list (option apint * option apint);
  rCauses : list (nat * bool) }.

(** Sets of traits with descriptions. *)
Record traits := Traits { tDescr : descr; tDep : kind -> option dep }.
Record irTraits := IRTraits { rDescr : descr; rDep : kind -> option irDep }.
Definition getDep (T : traits) (k : kind) : option dep :=
  if tDescr T (tagOf k) then tDep T k else None.
Definition getIRDep (T : irTraits) (k : kind) : option irDep :=
  if rDescr T (tagOf k) then rDep T k else None.

(** MemoryTrait.h 280-298. *)
Definition hasNoDep (d : descr) : bool := isAny d [TNoAccess; TReadonly; TShared].
Definition hasSpuriousDep (d : descr) : bool :=
  negb (hasNoDep d) && negb (isAny d [TFlow; TAnti; TOutput])
  || isAny d [TPrivate; TLastPrivate; TFirstPrivate; TSecondToLastPrivate; TDynamicPrivate].

Definition kind_eqb (a b : kind) : bool :=
  match a, b with
  | KFlow, KFlow | KAnti, KAnti | KOutput, KOutput => true
  | _, _ => false
  end.
(** set<Tag>(new DIDependence(...)) of the library. *)
Definition setDep (T : traits) (k : kind) (x : dep) : traits :=
  Traits
    (fun t =>
       if existsb (trait_eqb t) unitTraits then tDescr T t
       else if isAny (trait_eqb t) [TFlow; TAnti; TOutput]
            then trait_eqb t (tagOf k) || tDescr T t
       else false)
    (fun q => if kind_eqb q k then Some x else getDep T q).

Definition mergeLo (a b : option apsint) : option (option apsint) :=
  match a, b with
  | Some x, Some y =>
      match leAPS x y with Some l => Some (Some (if l then x else y)) | None => None end
  | _, _ => Some None
  end.
Definition mergeHi (a b : option apsint) : option (option apsint) :=
  match a, b with
  | Some x, Some y =>
      match leAPS y x with Some g => Some (Some (if g then x else y)) | None => None end
  | _, _ => Some None
  end.
Definition mergeRange (a b : range) : option range :=
  match mergeLo (fst a) (fst b) with
  | None => None
  | Some l => match mergeHi (snd a) (snd b) with None => None | Some h => Some (l, h) end
  end.
(** 270-283: levels known in both descriptions. *)
Fixpoint mergeDI (a b : list range) : option (list range) :=
  match a, b with
  | x :: a, y :: b =>
      match mergeRange x y with
      | None => None
      | Some r => match mergeDI a b with None => None | Some rs => Some (r :: rs) end
      end
  | _, _ => Some []
  end.
(** 209-224: levels of the IR-level description [a]; getDistance(I) of the metadata-level one
    fails if there is no such level (DIMemoryTrait.h 92-95), it is called for constants only. *)
Fixpoint mergeIR (a b : list range) : option (list range) :=
  match a with
  | [] => Some []
  | x :: a =>
      let (y, b) := match b with [] => (None, []) | y :: b => (Some y, b) end in
      match
        match y with
        | Some y => mergeRange x y
        | None => match fst x, snd x with None, None => Some (None, None) | _, _ => None end
        end
      with
      | None => None
      | Some r => match mergeIR a b with None => None | Some rs => Some (r :: rs) end
      end
  end.
(** 191-196, 225-230 and 284-289: unknown levels at the end are removed. *)
Fixpoint trim (a : list range) : list range :=
  match a with
  | [] => []
  | (l, h) :: a =>
      match l, h, trim a with
      | None, None, [] => []
      | _, _, a => (l, h) :: a
      end
  end.

(** 183-190: constants of the first level are unsigned. *)
Definition toAPS (isFirst : bool) (a : option apint) : option apsint :=
  match a with Some x => Some (APS x isFirst) | None => None end.
Definition toRange (isFirst : bool) (r : option apint * option apint) : range :=
  (toAPS isFirst (fst r), toAPS isFirst (snd r)).
Definition toRanges (rs : list (option apint * option apint)) : list range :=
  match rs with
  | [] => []
  | r :: rs => toRange true r :: map (toRange false) rs
  end.
(** 165-180: known causes. *)
Definition knownCauses (cs : list (nat * bool)) : list nat := map fst (filter snd cs).

(** 246-300, combineIf for two metadata-level descriptions; [None]: a failed assertion. *)
Definition combineDI (k : kind) (From : traits) (DI : traits) : option traits :=
  match getDep From k with
  | Some x =>
      match getDep DI k with
      | None =>
          if negb (hasSpuriousDep (tDescr DI)) && negb (tDescr DI (tagOf k))
          then Some (setDep DI k x)
          else Some (setDep DI k (Dep (noMay (addUnknown (dFlags x))) [] (dCauses x)))
      | Some y =>
          let F := orFlags (dFlags x) (dFlags y) in
          let F := if negb (fMay (dFlags x)) || negb (fMay (dFlags y)) then noMay F else F in
          match mergeDI (dDist x) (dDist y) with
          | None => None
          | Some rs => Some (setDep DI k (Dep F (trim rs) (dCauses x)))
          end
      end
  | None =>
      match getDep DI k with
      | Some y =>
          if hasSpuriousDep (tDescr From) || tDescr From (tagOf k)
          then Some (setDep DI k (Dep (noMay (addUnknown (dFlags y))) [] []))
          else Some DI
      | None => Some DI
      end
  end.

(** 155-240, combineIf for IR-level and metadata-level descriptions. *)
Definition combineIR (k : kind) (IR : irTraits) (DI : traits) : option traits :=
  match getIRDep IR k with
  | Some x =>
      let Causes := knownCauses (rCauses x) in
      match getDep DI k with
      | None =>
          if negb (hasSpuriousDep (tDescr DI)) && negb (tDescr DI (tagOf k))
          then Some (setDep DI k (Dep (rFlags x) (trim (toRanges (rDist x))) Causes))
          else Some (setDep DI k (Dep (noMay (addUnknown (rFlags x))) [] Causes))
      | Some y =>
          let F := orFlags (rFlags x) (dFlags y) in
          let F := if negb (fMay (rFlags x)) || negb (fMay (dFlags y)) then noMay F else F in
          match mergeIR (toRanges (rDist x)) (dDist y) with
          | None => None
          | Some rs => Some (setDep DI k (Dep F (trim rs) Causes))
          end
      end
  | None =>
      match getDep DI k with
      | Some y =>
          if hasSpuriousDep (rDescr IR) || rDescr IR (tagOf k)
          then Some (setDep DI k (Dep (noMay (addUnknown (dFlags y))) [] []))
          else Some DI
      | None => Some DI
      end
  end.

(** 484-486 and 2625-2627: all kinds of dependences, one after another. *)
Definition combineKinds (step : kind -> traits -> option traits) (DI : traits) : option traits :=
  match step KFlow DI with
  | None => None
  | Some T => match step KAnti T with None => None | Some T => step KOutput T end
  end.

(** 476-497 and 2616-2637: the new value of the existing set of traits.  [f] is the descriptor
    of the other set; [unknown]: HasSpuriousDep.  [None] of toDescriptor is llvm_unreachable. *)
Definition finish (f d0 : descr) (T : traits) : option traits :=
  let unknown := hasSpuriousDep f || hasSpuriousDep d0 in
  match traitsOf (tAnd (encode (tDescr T)) (encode f)) with
  | None => None
  | Some ts =>
      let c := fold_left dSet ts dNone in
      let c :=
        fun t => if isAny (trait_eqb t) [TFlow; TAnti; TOutput] && negb unknown
                 then f t || d0 t else c t in
      let c := unsetIf (c TNoRedundant) TRedundant c in
      Some (Traits c (fun k => if c (tagOf k) then getDep T k else None))
  end.

(** 2612-2642, DIMemoryTraitHandle::allUsesReplacedWith: traits [Old] of a location which is
    merged with a location with traits [DI]. *)
Definition merge (Old DI : traits) : option traits :=
  match combineKinds (fun k => combineDI k Old) DI with
  | None => None
  | Some T => finish (tDescr Old) (tDescr DI) T
  end.
(** 476-504, combineWith: traits [DI] are combined with IR-level traits. *)
Definition combineWith (IR : irTraits) (DI : traits) : option traits :=
  match combineKinds (fun k => combineIR k IR) DI with
  | None => None
  | Some T =>
      match finish (rDescr IR) (tDescr DI) T with
      | None => None
      | Some R =>
          let c := unsetIf (tDescr R TDirectAccess) TIndirectAccess (tDescr R) in
          Some (Traits c (fun k => if c (tagOf k) then getDep R k else None))
      end
  end.
