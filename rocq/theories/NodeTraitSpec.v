(** What traits of a node of an alias tree say about memory locations attached to the node. *)
From Coq Require Import Bool List.
From Verif Require Import TraitModel TraitSpec ClarifyModel CombineModel CombineSpec NodeTraitModel.
Import ListNotations.

(** Traits of each location are compatible, a location is either redundant or not, locations have
    different identifiers. *)
Definition locations (ms : list mem) : Prop :=
  ms <> [] /\ NoDup (map mId ms) /\
  forall m, In m ms -> wellFormed (mDescr m) /\ (has m TRedundant = true <-> has m TNoRedundant = false).

(** A location which a user asks to ignore. *)
Definition ignored (ignore : bool) (m : mem) : Prop := ignore = true /\ has m TRedundant = true.
(** A location which is accessed only through other ones, all these locations are attached to
    the node and are not ignored. *)
Definition covered (ignore : bool) (ms : list mem) (m : mem) : Prop :=
  has m TIndirectAccess = true /\ has m TDirectAccess = false /\
  forall i, In i (mCovers m) -> exists c, In c ms /\ mId c = i /\ ~ ignored ignore c.
(** Locations which determine traits of a node. *)
Definition relevant (ignore : bool) (ms : list mem) (m : mem) : Prop :=
  In m ms /\ ~ ignored ignore m /\ ((exists m', m' <> m /\ In m' ms) -> ~ covered ignore ms m).

(** Dependences of a kind [k] are possible according to traits. *)
Definition may (d : descr) (k : kind) : Prop := possible d k True.

(** Traits of a node cover dependences of each location which is not ignored.  A dependence caused by
    a location which is accessed through other ones is also known for one of them.
    [gDirect]: these locations are accessed directly. *)
Definition C89_cover_claim (gDirect : bool) : Prop :=
  forall ignore ms R m k, locations ms -> combineTraits ignore ms = Some R ->
    (forall m k, In m ms -> has m TIndirectAccess = true -> has m TDirectAccess = false -> may (mDescr m) k ->
       exists i, In i (mCovers m) /\ forall c, In c ms -> mId c = i -> may (mDescr c) k) ->
    (gDirect = true -> forall m c, In m ms -> In c ms -> In (mId c) (mCovers m) -> has c TDirectAccess = true) ->
    In m ms -> ~ ignored ignore m -> may (mDescr m) k -> may R k.
(** Each dependence of a node is caused by one of locations.  [gShared]: there are no private variables
    which are also known to be shared. *)
Definition privates : list trait := [TPrivate; TFirstPrivate; TLastPrivate; TSecondToLastPrivate; TDynamicPrivate].
Definition C89_precise_claim (gShared : bool) : Prop :=
  forall ignore ms R k, locations ms -> combineTraits ignore ms = Some R ->
    (gShared = true -> forall m t, In m ms -> In t privates -> has m t = true -> has m TShared = false) ->
    may R k -> exists m, relevant ignore ms m /\ may (mDescr m) k.
(** Other classes of a node are true for all relevant locations. *)
Definition C89_class_claim : Prop :=
  forall ignore ms R, locations ms -> combineTraits ignore ms = Some R ->
    (R TNoAccess = true -> forall m, relevant ignore ms m -> has m TNoAccess = true) /\
    (R TReadonly = true -> forall m, relevant ignore ms m -> has m TNoAccess = true \/ has m TReadonly = true) /\
    (R TShared = true -> forall m, relevant ignore ms m ->
       has m TNoAccess = true \/ has m TReadonly = true \/ has m TShared = true) /\
    (forall t, In t (TReduction :: TInduction :: privates) -> R t = true ->
       exists m, relevant ignore ms m /\ has m t = true /\
         forall m', relevant ignore ms m' -> mId m' = mId m \/ has m' TNoAccess = true).
(** ... and memory which is never written is known to be never written. *)
Definition C89_read_claim : Prop :=
  forall ignore ms R, locations ms -> combineTraits ignore ms = Some R ->
    ((forall m, relevant ignore ms m -> has m TNoAccess = true) -> R TNoAccess = true) /\
    ((forall m, relevant ignore ms m -> has m TNoAccess = true \/ has m TReadonly = true) ->
       R TNoAccess = true \/ R TReadonly = true).
(** Flags of a node are known for memory of the node (without nested nodes). *)
Definition nodeFlags : list trait :=
  [TExplicitAccess; TRedundant; TNoRedundant; TNoPromotedScalar; TDirectAccess; TIndirectAccess].
Definition C89_flags_claim : Prop :=
  forall ignore ms R t, locations ms -> combineTraits ignore ms = Some R -> In t nodeFlags -> R t = true ->
    exists m, In m ms /\ mOwn m = true /\ has m t = true /\ (t = TExplicitAccess -> has m TNoAccess = false).
(** ... and flags of locations are not lost.  [gRelevant]: for relevant locations only. *)
Definition C89_kept_claim (gRelevant : bool) : Prop :=
  forall ignore ms R m t, locations ms -> combineTraits ignore ms = Some R -> In m ms -> ~ ignored ignore m ->
    (gRelevant = true -> relevant ignore ms m) ->
    has m t = true ->
    (In t nodeFlags /\ mOwn m = true /\ (t = TExplicitAccess -> has m TNoAccess = false)) \/
    In t [TAddressAccess; THeaderAccess; TUseAfterLoop; TLock] ->
    R t = true.
(** Analysis of a node finishes. *)
Definition C89_total_claim : Prop :=
  forall ignore ms, locations ms -> exists R, combineTraits ignore ms = Some R.
