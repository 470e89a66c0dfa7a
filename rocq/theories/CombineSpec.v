(** What traits of a memory location say about dependences it may cause, and what is
    expected from traits of two combined locations. *)
From Coq Require Import ZArith Bool List.
From Verif Require Import TraitModel TraitSpec ClarifyModel CombineModel.
Import ListNotations.

(** Distances of a dependence: one for each level of a loop nest. *)
Definition distances := nat -> Z.

Definition inRange (lo hi : option Z) (v : Z) : Prop :=
  (forall l, lo = Some l -> (l <= v)%Z) /\ (forall h, hi = Some h -> (v <= h)%Z).
Definition num {A : Type} (value : A -> Z) (a : option A) : option Z :=
  match a with Some x => Some (value x) | None => None end.

(** Whether a loop may have a dependence of a kind [k] with distances [v] caused by a
    location.  If dependences are listed among traits then only listed ones are possible, with
    distances in described ranges.  There are no dependences if the location is not accessed,
    is read only or is shared.  Otherwise (private variables, reductions and so on)
    everything is possible. *)
Definition possible (d : descr) (k : kind) (described : Prop) : Prop :=
  if d TFlow || d TAnti || d TOutput then d (tagOf k) = true /\ described
  else d TNoAccess = false /\ d TReadonly = false /\ d TShared = false.
Definition mayCause (T : traits) (k : kind) (v : distances) : Prop :=
  possible (tDescr T) k
    (forall x, getDep T k = Some x -> forall i r, nth_error (dDist x) i = Some r ->
       inRange (num valueOf (fst r)) (num valueOf (snd r)) (v i)).
(* distances are signed *)
Definition mayCauseIR (T : irTraits) (k : kind) (v : distances) : Prop :=
  possible (rDescr T) k
    (forall x, getIRDep T k = Some x -> forall i r, nth_error (rDist x) i = Some r ->
       inRange (num signedValue (fst r)) (num signedValue (snd r)) (v i)).

(* traits which say that arbitrary dependences are possible *)
Definition vague (d : descr) : Prop :=
  forall k described, possible d k described.

(** Traits of combined locations cover dependences of each of them.
    [gOne]: if the traits of a target are vague then at most one kind of dependences of the
    other location has a description. *)
Definition oneDescribed {A : Type} (get : kind -> option A) : Prop :=
  forall k q, get k <> None -> get q <> None -> k = q.
Definition C76_cover_claim (gOne : bool) : Prop :=
  forall Old DI R : traits,
    wellFormed (tDescr Old) -> wellFormed (tDescr DI) ->
    (gOne = true -> vague (tDescr DI) -> oneDescribed (getDep Old)) ->
    merge Old DI = Some R ->
    forall k v, mayCause Old k v \/ mayCause DI k v -> mayCause R k v.

(** The same for results of the analysis of IR.  [gSign]: bounds of distances of the outermost
    loop are not negative. *)
Definition nonNegative (a : option apint) : Prop :=
  match a with Some x => (0 <= aBits x < 2 ^ (aWidth x - 1))%Z | None => True end.
Definition firstNonNegative (T : irTraits) : Prop :=
  forall k x r rs, getIRDep T k = Some x -> rDist x = r :: rs ->
    nonNegative (fst r) /\ nonNegative (snd r).
Definition C76_coverIR_claim (gOne gSign : bool) : Prop :=
  forall (IR : irTraits) (DI R : traits),
    wellFormed (rDescr IR) -> wellFormed (tDescr DI) ->
    (gOne = true -> vague (tDescr DI) -> oneDescribed (getIRDep IR)) ->
    (gSign = true -> firstNonNegative IR) ->
    combineWith IR DI = Some R ->
    forall k v, mayCauseIR IR k v \/ mayCause DI k v -> mayCause R k v.

(** Combination finishes.  [gSame]: bounds of distances of the same level have the same width
    and signedness. *)
Definition sameType (a b : option apsint) : Prop :=
  forall x y, a = Some x -> b = Some y ->
    aWidth (sInt x) = aWidth (sInt y) /\ sUnsigned x = sUnsigned y.
Definition sameTypes (A B : traits) : Prop :=
  forall k x y i r s, getDep A k = Some x -> getDep B k = Some y ->
    nth_error (dDist x) i = Some r -> nth_error (dDist y) i = Some s ->
    sameType (fst r) (fst s) /\ sameType (snd r) (snd s).
Definition C76_total_claim (gSame : bool) : Prop :=
  forall Old DI : traits,
    wellFormed (tDescr Old) -> wellFormed (tDescr DI) ->
    (gSame = true -> sameTypes Old DI) ->
    exists R, merge Old DI = Some R.
(** [gLevels]: each level with a constant bound is described in the existing traits. *)
Definition sameTypesIR (A : irTraits) (B : traits) : Prop :=
  forall k x y i r s, getIRDep A k = Some x -> getDep B k = Some y ->
    nth_error (rDist x) i = Some r -> nth_error (dDist y) i = Some s ->
    let t := fun a => match a with Some c => Some (APS c (Nat.eqb i 0)) | None => None end in
    sameType (t (fst r)) (fst s) /\ sameType (t (snd r)) (snd s).
Definition levelsExist (A : irTraits) (B : traits) : Prop :=
  forall k x y i r, getIRDep A k = Some x -> getDep B k = Some y ->
    nth_error (rDist x) i = Some r -> r <> (None, None) -> (i < length (dDist y))%nat.
Definition C76_totalIR_claim (gSame gLevels : bool) : Prop :=
  forall (IR : irTraits) (DI : traits),
    wellFormed (rDescr IR) -> wellFormed (tDescr DI) ->
    (gSame = true -> sameTypesIR IR DI) -> (gLevels = true -> levelsExist IR DI) ->
    exists R, combineWith IR DI = Some R.

(** A definite dependence stays definite. *)
Definition definite (T : traits) (k : kind) : Prop :=
  exists x, getDep T k = Some x /\ fMay (dFlags x) = false.
Definition C76_definite_claim : Prop :=
  forall (Old DI R : traits) k,
    wellFormed (tDescr Old) -> wellFormed (tDescr DI) -> merge Old DI = Some R ->
    definite Old k \/ definite DI k -> definite R k.
(** ... and a definite dependence is definite for one of locations.  [gBoth]: both locations
    have descriptions of dependences of this kind, or one of them does not cause them: it causes
    dependences of other kinds only or it is never written. *)
Definition excludes (d : descr) (k : kind) : Prop :=
  (d TFlow || d TAnti || d TOutput = true /\ d (tagOf k) = false) \/
  d TNoAccess = true \/ d TReadonly = true.
Definition C76_may_claim (gBoth : bool) : Prop :=
  forall (Old DI R : traits) k,
    wellFormed (tDescr Old) -> wellFormed (tDescr DI) -> merge Old DI = Some R ->
    (gBoth = true ->
       (getDep Old k <> None /\ getDep DI k <> None) \/
       excludes (tDescr Old) k \/ excludes (tDescr DI) k) ->
    definite R k -> definite Old k \/ definite DI k.

(** Kinds of causes are not lost. *)
Definition causeFlags : list (flags -> bool) := [fLoadStore; fCall; fUnknown; fConfused].
Definition C76_kinds_claim : Prop :=
  forall (Old DI R : traits) k x c,
    wellFormed (tDescr Old) -> wellFormed (tDescr DI) -> merge Old DI = Some R ->
    getDep Old k = Some x \/ getDep DI k = Some x -> In c causeFlags ->
    c (dFlags x) = true -> exists y, getDep R k = Some y /\ c (dFlags y) = true.
(** Causes are not lost.  [gOld]: causes of the location which is replaced. *)
Definition C76_causes_claim (gOld : bool) : Prop :=
  forall (Old DI R : traits) k x c,
    wellFormed (tDescr Old) -> wellFormed (tDescr DI) -> merge Old DI = Some R ->
    getDep Old k = Some x \/ (gOld = false /\ getDep DI k = Some x) -> In c (dCauses x) ->
    exists y, getDep R k = Some y /\ In c (dCauses y).
