(** What traits of a memory location say about a loop; independent of the way
    they are updated. *)
From Coq Require Import ZArith Bool List Lia.
From Verif Require Import TraitModel TraitSpec ClarifyModel.
Import ListNotations.

Section S.
Variable V : Type.

(** Accesses to the location in one iteration. *)
Inductive event := Rd | Wr (v : V).
Definition iteration := list event.

(* values read by an iteration which starts with the value [s] *)
Fixpoint reads (s : V) (it : iteration) : list V :=
  match it with
  | [] => []
  | Rd :: it => s :: reads s it
  | Wr v :: it => reads v it
  end.
(* the value after an iteration *)
Fixpoint after (s : V) (it : iteration) : V :=
  match it with
  | [] => s
  | Rd :: it => after s it
  | Wr v :: it => after v it
  end.

(** One execution of a loop: the initial value of the location, iterations, and whether
    the final value is used after the loop. *)
Record behaviour := Beh { bInit : V; bIters : list iteration; bLive : bool }.

(* the value at the beginning of the iteration number [i] of the sequential execution *)
Definition seqAt (b : behaviour) (i : nat) : V :=
  fold_left after (firstn i (bIters b)) (bInit b).
Definition seqFinal (b : behaviour) : V := seqAt b (length (bIters b)).

Definition writesIn (it : iteration) : Prop := exists v, In (Wr v) it.
Definition readsIn (it : iteration) : Prop := In Rd it.
(* a read of a value from outside the iteration *)
Definition exposedIn (it : iteration) : Prop := exists r, it = Rd :: r.

(** A loop-carried dependence from the iteration [i] to a later iteration [j]. *)
Definition dependence (b : behaviour) (k : kind) (i j : nat) : Prop :=
  (i < j)%nat /\ exists x y,
    nth_error (bIters b) i = Some x /\ nth_error (bIters b) j = Some y /\
    match k with
    | KFlow => writesIn x /\ exposedIn y
    | KAnti => readsIn x /\ writesIn y
    | KOutput => writesIn x /\ writesIn y
    end.

(** A parallel execution with a private copy of the location for each iteration.  A copy
    starts with the initial value ([copyIn]) or with garbage.  After the loop the location
    gets the copy of some iteration. *)
Inductive copyOut := ONone | OLast | OSecond | ODynamic.
Definition start (b : behaviour) (copyIn : bool) (garbage : V) : V :=
  if copyIn then bInit b else garbage.
(* the copy of the iteration number [i]; the location is not changed without it *)
Definition copyOf (b : behaviour) (copyIn : bool) (garbage : V) (i : nat) : V :=
  match nth_error (bIters b) i with
  | Some it => after (start b copyIn garbage) it
  | None => bInit b
  end.
Definition privateOk (b : behaviour) (copyIn : bool) (o : copyOut) : Prop :=
  (* each iteration reads the same values *)
  (forall garbage i it, nth_error (bIters b) i = Some it ->
     reads (start b copyIn garbage) it = reads (seqAt b i) it) /\
  (* the final value is the same if it is used *)
  (bLive b = true ->
   let n := length (bIters b) in
   match o with
   | ONone => bInit b = seqFinal b
   | OLast => forall g,
       (if (n <? 1)%nat then bInit b else copyOf b copyIn g (n - 1)) = seqFinal b
   | OSecond => forall g,
       (if (n <? 2)%nat then bInit b else copyOf b copyIn g (n - 2)) = seqFinal b
   | ODynamic => exists i, forall g, copyOf b copyIn g i = seqFinal b
   end).

(* properties of reductions and inductions are not specified *)
Variables isReduction isInduction : behaviour -> Prop.

(** What a set of traits says about a loop. *)
Record classHolds (d : descr) (b : behaviour) : Prop := ClassHolds {
  hNoAccess : d TNoAccess = true -> Forall (fun it => it = []) (bIters b);
  hReadonly : d TReadonly = true -> Forall (fun it => ~ writesIn it) (bIters b);
  hShared : d TShared = true -> forall k i j, ~ dependence b k i j;
  hPrivate : d TPrivate = true -> privateOk b false ONone;
  hFirst : d TFirstPrivate = true -> d TLastPrivate = false ->
    d TSecondToLastPrivate = false -> d TDynamicPrivate = false ->
    privateOk b true ONone;
  hLast : d TLastPrivate = true -> privateOk b (d TFirstPrivate) OLast;
  hSecond : d TSecondToLastPrivate = true -> privateOk b (d TFirstPrivate) OSecond;
  hDynamic : d TDynamicPrivate = true -> privateOk b (d TFirstPrivate) ODynamic;
  hReduction : d TReduction = true -> isReduction b;
  hInduction : d TInduction = true -> isInduction b;
  hDep : (d TFlow = true \/ d TAnti = true \/ d TOutput = true) ->
    forall k, d (tagOf k) = false -> forall i j, ~ dependence b k i j }.

Definition within (x : dep) (n : Z) : Prop :=
  (forall l, dLo x = Some l -> (l <= n)%Z) /\ (forall h, dHi x = Some h -> (n <= h)%Z).
(** ... together with descriptions of dependences. *)
Definition holds (T : traits) (b : behaviour) : Prop :=
  classHolds (tDescr T) b /\
  forall k x, getDep T k = Some x ->
    forall i j, dependence b k i j -> within x (Z.of_nat j - Z.of_nat i).

(** Two sets of traits of a location are true for each execution, so is the updated set.
    [guard]: a mark 'first private' with a copy-out is discarded only by traits which say
    that the location is not accessed, is read only, is shared, is private or has the same
    (for 'dynamic private': a more accurate) copy-out. *)
Definition dropsSafely (f d : descr) : Prop :=
  d TFirstPrivate = true -> f TFirstPrivate = false ->
  f TNoAccess = true \/ f TReadonly = true \/ f TShared = true \/ f TPrivate = true \/
  ((d TLastPrivate = true -> f TLastPrivate = true) /\
   (d TSecondToLastPrivate = true -> f TSecondToLastPrivate = true) /\
   (d TDynamicPrivate = true -> f TDynamicPrivate = true \/ f TLastPrivate = true \/
                                f TSecondToLastPrivate = true)).
End S.

Definition C75_true_claim (guard : bool) : Prop :=
  forall (V : Type) (isRed isInd : behaviour V -> Prop) (F D : traits) (b : behaviour V),
    (guard = true -> dropsSafely (tDescr F) (tDescr D)) ->
    holds V isRed isInd F b -> holds V isRed isInd D b ->
    holds V isRed isInd (clarify F D) b.

(** A location which can be treated in parallel is not made a serial one.
    [guard]: ... if it is 'first private' only then the new traits also admit some parallel
    treatment. *)
Definition parallel (d : descr) : Prop :=
  exists t, t <> Serialize /\ classAllows d t = true.
Definition C75_parallel_claim (guard : bool) : Prop :=
  forall F D : traits,
    (guard = true -> parallel (tDescr F) \/ tDescr D TFirstPrivate = false \/
       tDescr D TShared = true \/ tDescr D TLastPrivate = true \/
       tDescr D TSecondToLastPrivate = true \/ tDescr D TDynamicPrivate = true) ->
    parallel (tDescr D) -> parallel (tDescr (clarify F D)).

(** Marks of accesses are never lost, a mark of an access in a header never appears. *)
Definition C75_marks_claim : Prop :=
  forall F D : traits,
    (forall t, In t [TNoPromotedScalar; TAddressAccess; TUseAfterLoop; TDirectAccess;
                     TIndirectAccess; TExplicitAccess] ->
       tDescr D t = true -> tDescr (clarify F D) t = true) /\
    (tDescr (clarify F D) THeaderAccess = true -> tDescr D THeaderAccess = true) /\
    (forall k, tDescr (clarify F D) (tagOf k) = true -> tDescr D (tagOf k) = true).

(** Known distances are not lost. *)
Definition C75_distance_claim : Prop :=
  forall (F D : traits) (k : kind) (x : dep),
    wellFormed (tDescr D) ->
    tDescr (clarify F D) (tagOf k) = true ->
    getDep F k = Some x \/ getDep D k = Some x -> isKnownDistance x = true ->
    exists y, getDep (clarify F D) k = Some y /\ isKnownDistance y = true.
