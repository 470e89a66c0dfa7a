(** Model of the combination of traits of memory locations into traits of a node of a metadata-level
    alias tree, /repo/lib/Analysis/Memory/DIDependenceAnalysis.cpp 719-855 (combineTraits).

    Simplifications.
    - The library bcl is outside of the repository: set<trait::NoAccess>() unsets other classes,
      update(From, To) makes each trait of From the same in To.
    - Statistics are not modelled. *)
From Coq Require Import NArith PeanoNat Bool List.
From Verif Require Import TraitModel ClarifyModel CombineModel.
Import ListNotations.

(** A location attached to a node: [mOwn] is DIATrait.getNode() == getMemory()->getAliasNode(),
    otherwise it is from a nested node; [mCovers] is a list attached to trait::IndirectAccess. *)
Record mem := Mem { mId : nat; mOwn : bool; mDescr : descr; mCovers : list nat }.
Definition has (m : mem) (t : trait) : bool := mDescr m t.
(* assertions at 730-735 and 782-787 *)
Definition consistent (m : mem) : bool := xorb (has m TRedundant) (has m TNoRedundant).

(* set<trait::NoAccess>() *)
Definition setNoAccess (d : descr) : descr :=
  fun t => if existsb (trait_eqb t) unitTraits then d t else trait_eqb t TNoAccess.
(** 722-761 *)
Definition single (ignore : bool) (m : mem) : descr :=
  let d := mDescr m in
  let d := unsetIf (negb (has m TExplicitAccess && negb (has m TNoAccess) && mOwn m)) TExplicitAccess d in
  let d := unsetIf (negb (has m TRedundant && mOwn m)) TRedundant d in
  let d := unsetIf (negb (has m TNoRedundant && mOwn m)) TNoRedundant d in
  let d :=
    if ignore && has m TRedundant
    then dUnset (dUnset (dUnset (setNoAccess d) THeaderAccess) TAddressAccess) TUseAfterLoop
    else d in
  let d := unsetIf (negb (has m TNoPromotedScalar && mOwn m)) TNoPromotedScalar d in
  let d := unsetIf (negb (has m TDirectAccess && mOwn m)) TDirectAccess d in
  unsetIf (negb (has m TIndirectAccess && mOwn m)) TIndirectAccess d.

(** 762-768 *)
Record cstate := CState { cTrait : N; cExplicit : bool; cRedundant : bool; cNoRedundant : bool;
  cNoPromoted : bool; cDirect : bool; cIndirect : bool; cNumber : nat; cDep : descr; cSpurious : bool }.
Definition cInit : cstate := CState NoAccess false false false false false false 0 dNone false.
(* DIATrait.find(MH) *)
Definition findMem (ms : list mem) (i : nat) : option mem := find (fun m => Nat.eqb (mId m) i) ms.
(** 800-812: Ignore *)
Definition isCovered (ignore : bool) (ms : list mem) (m : mem) : bool :=
  forallb (fun i => match findMem ms i with
                    | None => false
                    | Some c => negb (ignore && has c TRedundant)
                    end) (mCovers m).
(** 769-817: one location. *)
Definition step (ignore : bool) (ms : list mem) (s : cstate) (m : mem) : cstate :=
  let e := cExplicit s || has m TExplicitAccess && negb (has m TNoAccess) && mOwn m in
  let p := cNoPromoted s || has m TNoPromotedScalar && mOwn m in
  let d := cDirect s || has m TDirectAccess && mOwn m in
  let i := cIndirect s || has m TIndirectAccess && mOwn m in
  let r := cRedundant s || has m TRedundant && mOwn m in
  let w := if has m TRedundant && mOwn m then tAnd (cTrait s) Redundant else cTrait s in
  let n := cNoRedundant s || negb (has m TRedundant) && mOwn m in
  if has m TRedundant && ignore then CState w e r n p d i (cNumber s) (cDep s) (cSpurious s)
  else if has m TIndirectAccess && negb (has m TDirectAccess) && isCovered ignore ms m
       then CState w e r n p d i (cNumber s) (cDep s) (cSpurious s)
  else
    CState (tAnd w (encode (mDescr m))) e r n p d i
      (if has m TNoAccess then cNumber s else S (cNumber s))
      (fun t => cDep s t || isAny (trait_eqb t) [TFlow; TAnti; TOutput] && has m t)
      (cSpurious s || hasSpuriousDep (mDescr m)).
(** 818-831 *)
Definition summary (s : cstate) : N :=
  let w := cTrait s in
  if Nat.ltb 1 (cNumber s)
  then tAnd (tOr w AllUnitFlags)
         (if N.eqb (dropUnitFlag w) NoAccess then NoAccess
          else if N.eqb (dropUnitFlag w) Readonly then Readonly
          else if hasSharedJoin w then Shared else Dependency)
  else w.
(** 832-852; [None]: llvm_unreachable *)
Definition finishNode (s : cstate) : option descr :=
  match traitsOf (summary s) with
  | None => None
  | Some ts =>
      let d := fold_left dSet ts dNone in
      let d : descr := fun t => if isAny (trait_eqb t) [TFlow; TAnti; TOutput] && negb (cSpurious s)
                        then cDep s t else d t in
      let d := unsetIf (negb (cExplicit s)) TExplicitAccess d in
      let d := unsetIf (negb (cNoPromoted s)) TNoPromotedScalar d in
      let d := unsetIf (negb (cRedundant s)) TRedundant d in
      let d := unsetIf (negb (cNoRedundant s)) TNoRedundant d in
      let d := unsetIf (negb (cDirect s)) TDirectAccess d in
      Some (unsetIf (negb (cIndirect s)) TIndirectAccess d)
  end.
(** 719-855; [None] is also a failed assertion. *)
Definition combineTraits (ignore : bool) (ms : list mem) : option descr :=
  if negb (forallb consistent ms) then None
  else
    match ms with
    | [] => None
    | [m] => Some (single ignore m)
    | _ => finishNode (fold_left (step ignore ms) ms cInit)
    end.
