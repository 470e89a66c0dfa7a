(** Model of loading and storing of results of analysis of loops,
    /repo/lib/Analysis/Reader/AnalysisReader.cpp:94-130, 175-315, 318-510 and
    /repo/lib/Analysis/Reader/AnalysisWriter.cpp:60-225.

    Simplifications.  Positions of loops and of variables (a file, a line, a column and a name) are natural
    numbers, an unknown file is [None].  Traits which are not alternatives of each other and which are not changed by
    the pass (address access, explicit access and so on), functions with side effects, descriptions of inductions
    and parsing of files are not modelled.  Kinds of reductions are natural numbers. *)
From Coq Require Import List Bool Arith ZArith.
Import ListNotations.

(** Bounds of distances, /repo/include/tsar/Analysis/Memory/DIMemoryTrait.h:49-53 *)
Definition range := (option Z * option Z)%type.
(** A description of a dependence, DIMemoryTrait.h:47-110; the flag of an unknown distance is computed by a
    constructor from the first range, so it is not stored *)
Record dep := Dep { dMay : bool; dCauses : list nat; dLv : list range }.
Definition knownDist (d : dep) : bool := match dLv d with (Some _, Some _) :: _ => true | _ => false end.

(** Traits of a variable in a loop, /repo/include/tsar/Analysis/Memory/MemoryTrait.h:267-276.  A dependence may be
    set without a description. *)
Record desc := Desc {
  noAcc : bool; ro : bool; red : option nat; ind : bool;
  flowD : option (option dep); antiD : option (option dep); outD : option (option dep);
  priv : bool; shared : bool; lastP : bool; firstP : bool; secondP : bool; dynP : bool;
  ual : bool }.
Definition isSome {A : Type} (o : option A) : bool := match o with Some _ => true | None => false end.
(** Setting of a trait removes traits which are not in a common union with it, MemoryTrait.h:271-276 *)
Definition setReadonly (d : desc) : desc := Desc false true None false None None None false false false false false false (ual d).
Definition setShared (d : desc) : desc :=
  Desc false false None false None None None (priv d) true (lastP d) (firstP d) (secondP d) (dynP d) (ual d).
Definition setPrivate (d : desc) : desc := Desc false false None false None None None true (shared d) false false false false (ual d).
Definition setDynamic (d : desc) : desc := Desc false false None false None None None false (shared d) false (firstP d) false true (ual d).
Definition setReduction (k : nat) (d : desc) : desc := Desc false false (Some k) false None None None false false false false false false (ual d).
Definition setDeps (f a o : option (option dep)) (d : desc) : desc :=
  Desc (noAcc d) (ro d) (red d) (ind d) f a o (priv d) (shared d) (lastP d) (firstP d) (secondP d) (dynP d) (ual d).
Definition unsetLast (d : desc) : desc :=
  Desc (noAcc d) (ro d) (red d) (ind d) (flowD d) (antiD d) (outD d) (priv d) (shared d) false (firstP d) false false (ual d).
Definition setUal (u : bool) (d : desc) : desc :=
  Desc (noAcc d) (ro d) (red d) (ind d) (flowD d) (antiD d) (outD d) (priv d) (shared d) (lastP d) (firstP d) (secondP d) (dynP d) u.
Definition anyDep (d : desc) : bool := isSome (flowD d) || isSome (antiD d) || isSome (outD d).

(** Traits of a variable from a file, 75-105 *)
Record entry := Entry { eRed : option nat; ePriv : bool; eUal : bool; eW : bool; eR : bool; eOut : bool; eAnti : option range; eFlow : option range }.
(** isOnlyAnyOf<UseAfterLoop, WriteOccurred, ReadOccurred>, 119-148 *)
Definition onlyAccess (e : entry) : bool :=
  negb (isSome (eRed e)) && negb (ePriv e) && negb (eOut e) && negb (isSome (eAnti e)) && negb (isSome (eFlow e)).

(** An outcome of the pass: a missed description of a dependence is dereferenced *)
Inductive outcome (A : Type) := Ok (a : A) | Crash.
Arguments Ok {A} _.
Arguments Crash {A}.
Definition bindO {A B : Type} (o : outcome A) (f : A -> outcome B) : outcome B := match o with Ok a => f a | Crash => Crash end.

(** updateAntiFlowDep, 305-340.  Flags of a new description are always empty: they are taken from an old description
    only if the variable F which is initialized with an empty set is not empty. *)
Definition updateAntiFlow (e : option range) (t : option (option dep)) : outcome (option (option dep)) :=
  match e, t with
  | Some r, Some (Some d) => Ok (Some (Some (Dep false [] (r :: tl (dLv d)))))
  | Some _, Some None => Crash
  | _, _ => Ok t
  end.
(** updateOutputDep, 344-357 *)
Definition updateOutput (e : bool) (t : option (option dep)) : outcome (option (option dep)) :=
  match e, t with
  | true, Some (Some d) => Ok (Some (Some (Dep false [] (dLv d))))
  | true, Some None => Crash
  | _, _ => Ok t
  end.
(** Update of traits, 444-504 *)
Definition skipped (d : desc) : bool := noAcc d || ro d || isSome (red d) || ind d.
Definition updateDeps (e : entry) (d : desc) : outcome desc :=
  bindO (updateAntiFlow (eAnti e) (antiD d)) (fun a =>
  bindO (updateAntiFlow (eFlow e) (flowD d)) (fun f =>
  bindO (updateOutput (eOut e) (outD d)) (fun o =>
  Ok (setDeps (if isSome (eFlow e) then f else None) (if isSome (eAnti e) then a else None) (if eOut e then o else None) d)))).
Definition updateAlt (e : entry) (d : desc) : outcome desc :=
  if onlyAccess e then Ok (if eW e then setShared d else setReadonly d)
  else if ePriv e then
    let d1 := if negb (eUal e) then setPrivate d else if anyDep d then setDynamic d else d in
    Ok (if negb (isSome (eFlow e)) && negb (isSome (eAnti e)) && negb (eOut e) then setShared d1 else d1)
  else if firstP d then Ok (if negb (eUal e) then unsetLast d else d)
  else match eRed e with
       | Some k => Ok (setReduction k d)
       | None => updateDeps e d
       end.
Definition update (e : entry) (d : desc) : outcome desc :=
  if skipped d then Ok d else bindO (updateAlt e d) (fun d1 => Ok (if negb (eUal e) then setUal false d1 else d1)).
(** Several files are loaded one after another, 376-383; a file may contain no traits of a variable *)
Fixpoint loadAll (es : list (option entry)) (d : desc) : outcome desc :=
  match es with
  | [] => Ok d
  | Some e :: es => bindO (update e d) (loadAll es)
  | None :: es => loadAll es d
  end.

(** ** A file *)
(** Traits of a loop refer to variables by their indexes *)
Record loopRec := LoopRec { lLoc : option nat; lRed : list (nat * nat); lPriv : list nat; lUal : list nat; lW : list nat; lR : list nat;
  lOut : list nat; lAnti : list (nat * range); lFlow : list (nat * range) }.
Record info := Info { vars : list (option nat); loops : list loopRec }.
(** createVar, 208-225: an empty variable is ignored *)
Definition varKey (vs : list (option nat)) (i : nat) : option nat := match nth_error vs i with Some k => k | None => None end.
Definition isKey (vs : list (option nat)) (k i : nat) : bool := match varKey vs i with Some k2 => k2 =? k | None => false end.
(** addToCache, 240-250: the last index of a variable overwrites previous ones *)
Definition lookupS (vs : list (option nat)) (k : nat) (l : list nat) : bool := existsb (isKey vs k) l.
Definition lookupM {A : Type} (vs : list (option nat)) (k : nat) (l : list (nat * A)) : option A :=
  fold_left (fun r p => if isKey vs k (fst p) then Some (snd p) else r) l None.
(** buildTraitCache, 254-265, and a search in the cache, 462-467 *)
Definition lookup (vs : list (option nat)) (L : loopRec) (k : nat) : option entry :=
  let e := Entry (lookupM vs k (lRed L)) (lookupS vs k (lPriv L)) (lookupS vs k (lUal L)) (lookupS vs k (lW L)) (lookupS vs k (lR L))
                 (lookupS vs k (lOut L)) (lookupM vs k (lAnti L)) (lookupM vs k (lFlow L)) in
  if isSome (eRed e) || ePriv e || eUal e || eW e || eR e || eOut e || isSome (eAnti e) || isSome (eFlow e) then Some e else None.
(** buildLoopCache and findLoop, 190-205, 286-303: emplace does not change a known loop *)
Definition findLoop (I : info) (loc : nat) : option loopRec :=
  find (fun L => match lLoc L with Some l => l =? loc | None => false end) (loops I).
Definition external (I : info) (loc k : nat) : option entry :=
  match findLoop I loc with Some L => lookup (vars I) L k | None => None end.

(** ** Writing, AnalysisWriter.cpp:60-225 *)
(** A value is stored if it has no more significant bits than std::optional<int>, which takes 64 bits; then it is
    truncated to int, 178-195 *)
Definition wrap32 (z : Z) : Z := ((z + 2 ^ 31) mod 2 ^ 32 - 2 ^ 31)%Z.
Definition store (z : option Z) : option Z :=
  match z with Some z => if (Z.leb (- 2 ^ 63) z && Z.ltb z (2 ^ 63))%bool then Some (wrap32 z) else None | None => None end.
Definition storeRange (d : option (option dep)) : range :=
  match d with Some (Some d) => match dLv d with r :: _ => (store (fst r), store (snd r)) | [] => (None, None) end | _ => (None, None) end.
(** Traits which are written for a variable, 108-213.  Distances of an anti-dependence are taken from a
    flow-dependence, 201-205. *)
Definition write (d : desc) : option entry :=
  if noAcc d then None
  else if ro d then Some (Entry None false (ual d) false true false None None)
  else match red d with
       | Some k => Some (Entry (Some k) false (ual d) true true false None None)
       | None =>
         if ind d then Some (Entry None false (ual d) true true false None None)
         else if priv d || dynP d || secondP d then Some (Entry None true (ual d) true true false None None)
         else if firstP d then Some (Entry None true (ual d) true true false None None)
         else if shared d then Some (Entry None false (ual d) true true false None None)
         else if anyDep d then
           Some (Entry None false (ual d) true true (isSome (outD d)) (if isSome (antiD d) then Some (storeRange (flowD d)) else None)
                       (if isSome (flowD d) then Some (storeRange (flowD d)) else None))
         else Some (Entry None false (ual d) true true true (Some (None, None)) (Some (None, None)))
       end.
(** Results of analysis are written and loaded again *)
Definition roundTrip (d : desc) : outcome desc := loadAll [write d] d.
