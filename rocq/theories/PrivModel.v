(** Classification of memory locations accessed in a loop and the report entry
    for several locations: lib/Analysis/Memory/PrivateAnalysis.cpp. *)
From Coq Require Import NArith Bool List.
From Verif Require Import TraitModel.
Import ListNotations.
Open Scope N_scope.

(** What the other analyses say about one explicitly accessed location [Loc] of
    a loop (PrivateAnalysis.cpp 747-766, 790-799, 801-803, 820-822). *)
Record locFacts := mkFacts {
  fUse : bool;        (* DefUse.hasUse(Loc) *)
  fDef : bool;        (* DefUse.hasDef(Loc) *)
  fMayDef : bool;     (* DefUse.hasMayDef(Loc) *)
  fLiveOut : bool;    (* LS.getOut().overlap(Loc) *)
  fLiveAggr : bool;   (* isLiveAggregate(Loc) *)
  fInvariant : bool;  (* isLoopInvariant of the address of Loc *)
  fExitMust : bool;   (* ExitingDefs.MustReach.contain(Loc) *)
  fLatchMust : bool;  (* LatchDefs.MustReach.contain(Loc) *)
  fExitMay : bool     (* ExitingDefs.MayReach.overlap(Loc) *)
}.

(** PrivateAnalysis.cpp 778-836, the body of the loop over explicit accesses:
    [dep] is Deps.count(Base), [w] is the word CurrTraits refers to. *)
Definition resolveLoc (dep : bool) (w : N) (f : locFacts) : N :=
  let SharedTrait := if dep then tNot NoAccess else SharedJoin in
  let DefTrait := if dep then Dependency else Shared in
  let live := fLiveOut f || fLiveAggr f in
  if negb (fUse f) then
    if negb (fLiveOut f) && negb (fLiveAggr f)
    then tAnd w (tOr Private SharedTrait)
    else
      let w :=
        if fInvariant f && fExitMust f
        then tAnd w (tOr LastPrivate SharedTrait)
        else if fInvariant f && fLatchMust f && negb (fExitMay f)
        then tAnd w (tOr (tAnd SecondToLastPrivate FirstPrivate) SharedTrait)
        else tAnd w (tOr (tAnd DynamicPrivate FirstPrivate) SharedTrait) in
      tAnd w UseAfterLoop
  else if fMayDef f || fDef f then
    let w := tAnd w DefTrait in
    if live then tAnd w UseAfterLoop else w
  else
    let w := tAnd w Readonly in
    if live then tAnd w UseAfterLoop else w.

(** PrivateAnalysis.cpp 765-777 and the loop: all explicit accesses which have
    the same estimate memory location Base update the same word, which is
    created with NoRedundant. *)
Definition resolveBase (dep : bool) (fs : list locFacts) : N :=
  fold_left (resolveLoc dep) fs NoRedundant.

(** PrivateAnalysis.cpp 838-853: an instruction which accesses unknown memory;
    [ro]: it is a call which only reads memory. *)
Definition resolveUnknown (ro : bool) : N :=
  tAnd (if ro then Readonly else Dependency) NoRedundant.

(** PrivateAnalysis.cpp 856-901, resolvePointers for one location: [None], the
    underlying object is not loaded from memory; [Some None], the pointer has
    been dereferenced outside the loop; [Some (Some p)], traits of the memory
    the pointer is loaded from. *)
Definition resolvePointer (ptr : option (option N)) (w : N) : N :=
  match ptr with
  | None => w
  | Some p =>
      if (dropSharedFlag (dropUnitFlag w) =? Private) ||
         (dropUnitFlag w =? Readonly) || (dropUnitFlag w =? Shared)
      then w
      else match p with
           | None => w
           | Some pw => if dropUnitFlag pw =? Readonly then w else tAnd w Dependency
           end
  end.

(* all explicit accesses with one estimate memory location *)
Record base := mkBase {
  bDep : bool;                  (* Deps.count(Base) *)
  bLocs : list locFacts;
  bPtr : option (option N)      (* see resolvePointer *)
}.
Definition baseWord (b : base) : N :=
  resolvePointer (bPtr b) (resolveBase (bDep b) (bLocs b)).
(* conjunction of words; BitMemoryTrait() is NoAccess *)
Definition conjunction (ws : list N) : N := fold_left tAnd ws NoAccess.
(** The word of a location is the conjunction of words of all explicitly accessed
    locations which it covers (propagateTraits 1053-1068, removeRedundant
    1249-1270), with flags added by resolveAddresses and collectHeaderAccesses
    (976, 997, 498). *)
Definition memoryWord (bs : list base) (flags : list N) : N :=
  fold_left tAnd flags (conjunction (map baseWord bs)).

(** ** Report entries *)

(** An element of the list of traits attached to an alias node. *)
Record emItem := mkItem {
  iTrait : N;           (* the word of traits *)
  iCovered : bool;      (* the result of cover() in checkFirstPrivate, 1206 *)
  iExplicit : bool;     (* explicitly accessed, in this node (1316-1318) *)
  iKinds : trait -> bool (* kinds of dependences recorded for it in Deps *)
}.
Record unItem := mkUn { uTrait : N; uExplicit : bool }.

(* bcl::trait::unset<DependenceImp::Descriptor> and set() with the kinds of
   dependences; the library is not a part of the repository, the operations are
   modelled by what their names say *)
Definition isKind (t : trait) : bool :=
  match t with TFlow | TAnti | TOutput => true | _ => false end.
Definition dUnsetKinds (d : descr) : descr := fun t => negb (isKind t) && d t.
Definition dSetKinds (ks d : descr) : descr := fun t => (isKind t && ks t) || d t.

(** PrivateAnalysis.cpp 1149-1213, checkFirstPrivate: the updated descriptor.
    The update of the word (1208-1212) is visible in enclosing nodes only, it
    is returned as well. *)
Definition checkFirstPrivate (i : emItem) (d : descr) : N * descr :=
  if d TFirstPrivate || (negb (d TLastPrivate) && negb (d TSecondToLastPrivate))
  then (iTrait i, d)
  else if iCovered i then (iTrait i, d)
  else ((if hasSharedJoin (iTrait i)
         then tAnd (iTrait i) (tOr FirstPrivate SharedJoin)
         else tAnd (iTrait i) FirstPrivate),
        dSet d TFirstPrivate).

Definition zero : counters := fun _ => 0.
(* the descriptor of a word; the statistic is a subject of C16 *)
Definition descrOf (w : N) : option descr :=
  match toDescriptor w 0 zero with None => None | Some (d, _) => Some d end.

Definition isDependency (w : N) : bool := dropUnitFlag w =? Dependency.
Definition noAccess (w : N) : bool := dropUnitFlag w =? NoAccess.
Definition withExplicit (b : bool) (d : descr) : descr :=
  if b then dSet d TExplicitAccess else d.

(** PrivateAnalysis.cpp 1345-1362: the descriptor stored for one location of an
    entry with several locations, and for the only location (1312-1329). *)
Definition emDescr (i : emItem) : option descr :=
  match descrOf (iTrait i) with
  | None => None
  | Some d =>
      let '(w, d) := checkFirstPrivate i d in
      let d := dUnsetKinds (withExplicit (iExplicit i) d) in
      (* 1326-1327 and 1359-1361 test the word after checkFirstPrivate *)
      Some (if isDependency w then dSetKinds (iKinds i) d else d)
  end.
(** PrivateAnalysis.cpp 1366-1381. *)
Definition unDescr (u : unItem) : option descr :=
  match descrOf (uTrait u) with
  | None => None
  | Some d => Some (withExplicit (uExplicit u) d)
  end.

Fixpoint optMap {A B : Type} (f : A -> option B) (l : list A) : option (list B) :=
  match l with
  | [] => Some []
  | a :: l => match f a, optMap f l with
              | Some b, Some bs => Some (b :: bs)
              | _, _ => None
              end
  end.

(** PrivateAnalysis.cpp 1342-1394: the conjunction (1343, 1367) is replaced if
    there are several accessed locations. *)
Definition combinedTrait (ws : list N) : N :=
  let c := conjunction ws in
  if Nat.ltb 1 (length (filter (fun w => negb (noAccess w)) ws)) then
    tAnd (tOr c AllUnitFlags)
         (if dropUnitFlag c =? NoAccess then NoAccess
          else if dropUnitFlag c =? Readonly then Readonly
          else if hasSharedJoin c then Shared else Dependency)
  else c.
(* the kinds of dependences in CombinedDepDptr: 1359-1362 and 1378-1379 *)
Definition combinedKinds (is : list emItem) (us : list unItem) : descr :=
  fun t => isKind t &&
    (existsb (fun i =>
       match descrOf (iTrait i) with
       | None => false
       | Some d => isDependency (fst (checkFirstPrivate i d)) && iKinds i t
       end) is ||
     existsb (fun u => isDependency (uTrait u)) us).

(** PrivateAnalysis.cpp 1275-1408, storeResults: the descriptor of the entry,
    descriptors of locations and of unknown accesses.  [None]: an unreachable
    combination of bits; [Some None]: there is nothing to store. *)
Definition storeResults (is : list emItem) (us : list unItem)
    : option (option (descr * list descr * list descr)) :=
  match is, us with
  | [], [] => Some None
  | [i], [] =>
      match emDescr i with
      | None => None
      | Some d => Some (Some (d, [d], []))
      end
  | _, _ =>
      match optMap emDescr is, optMap unDescr us,
            descrOf (combinedTrait (map iTrait is ++ map uTrait us)) with
      | Some ds, Some us', Some d =>
          let ex := existsb iExplicit is || existsb uExplicit us in
          Some (Some (withExplicit ex
                        (dSetKinds (combinedKinds is us) (dUnsetKinds d)),
                      ds, us'))
      | _, _, _ => None
      end
  end.
