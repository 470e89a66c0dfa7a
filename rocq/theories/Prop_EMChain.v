(** C48: locations which start at the same point form a chain which is ordered by
    sizes, and an added location is found. *)
From Coq Require Import ZArith Bool List Lia.
From Verif Require Import AliasRelModel EMForestModel EMForestSpec EMChainModel EMChainSpec EMChainProof.
Import ListNotations.

(** ** A program for examples
    0 is a pointer variable, 1, 2 and 3 are its values at different points, 4 is
    an array of 24 bytes and 5 is its second element.  The values 1 and 2 point
    to different objects, 3 is unknown. *)
Definition exBase (a b : ptr) : bool :=
  Nat.eqb a b || (Nat.leb 1 a && Nat.leb a 3 && Nat.leb 1 b && Nat.leb b 3).
Definition exAlias (a b : ptr) : aliasResult :=
  if Nat.eqb a b then ARMust
  else if Nat.eqb a 3 || Nat.eqb b 3 then ARMay else ARNo.
Definition exStrip (a : ptr) : ptr :=
  if Nat.leb 1 a && Nat.leb a 3 then 0 else if Nat.eqb a 5 then 4 else a.
Definition exLevel (l : mloc) : option mloc :=
  if Nat.eqb (mPtr l) 5 then
    Some (MLoc 4 (match mSize l with SPrecise _ | SUpper _ => SPrecise 24 | s => s end))
  else None.
Definition exBuilt := built exBase exAlias exStrip (fun l => l) exLevel (fun l => l).
Definition exAdd fuel T l :=
  match T with
  | Some T => add exBase exAlias exStrip (fun l => l) exLevel (fun l => l) fuel T l
  | None => None
  end.
Fixpoint exTree (h : list mloc) : option tree :=
  match h with [] => Some emptyTree | l :: h => exAdd 5 (exTree h) l end.
Lemma exTree_built h T : exTree h = Some T -> exBuilt h T.
Proof.
  revert T. induction h as [|l h IH]; cbn; intro T; [intros [= <-]; constructor|].
  unfold exAdd. destruct (exTree h) as [U|]; [|discriminate]. intro A.
  exact (builtAdd _ _ _ _ _ _ h U 5 l T (IH U eq_refl) A).
Qed.
(* an element, the same element of unknown size, two locations in the array *)
Definition exHistory := [MLoc 4 (SPrecise 2); MLoc 5 SAfter; MLoc 5 (SPrecise 8)].

Section C48.
Variable sameBase : ptr -> ptr -> bool.
Variable alias : ptr -> ptr -> aliasResult.
Variable stripPointer : ptr -> ptr.
Variable stripToBase : mloc -> mloc.
Variable stripMemoryLevel : mloc -> option mloc.
Variable clarify : mloc -> mloc.
Hypothesis aliasRefl : forall p, alias p p = ARMust.
Hypothesis baseRefl : forall p, sameBase p p = true.
Notation built := (built sameBase alias stripPointer stripToBase stripMemoryLevel clarify).
Notation add := (add sameBase alias stripPointer stripToBase stripMemoryLevel clarify).
Notation lookUp := (lookUp sameBase alias stripPointer stripMemoryLevel).
Notation findMem := (findMem sameBase alias stripPointer stripToBase stripMemoryLevel clarify).
Notation served := (served sameBase alias stripPointer stripToBase stripMemoryLevel clarify).
Notation baseOf := (baseOf stripToBase clarify).

(** The next location of a chain starts at the same point and is greater, it is
    the next one for a single location. *)
Theorem C48_chains_ascend h T : built h T ->
  forall x y, next T x = Some y ->
    sameChain T x y /\ lessSize (tSize T x) (tSize T y) /\
    forall z, next T z = Some y -> z = x.
Proof.
  intros B x y N. destruct (built_spec _ _ _ _ _ _ aliasRefl baseRefl h T B) as (I & _).
  destruct (next_alloc T x y I N) as (X & Y).
  split; [|split; [exact (iAsc T I x y N)|intros z Z; exact (iUniq T I z x y Z N)]].
  split; [exact X|]. split; [exact Y|]. exact (reach_base T x y (reach_one T x y N)).
Qed.

(** Locations which start at the same point are in one chain, a smaller one is
    before a greater one, and there are no two locations of the same size. *)
Theorem C48_one_chain h T : built h T ->
  forall x y, sameChain T x y ->
    (reach T x y <-> x = y \/ lessSize (tSize T x) (tSize T y)) /\
    (equalSize (tSize T x) (tSize T y) -> x = y).
Proof.
  intros B x y S. destruct (built_spec _ _ _ _ _ _ aliasRefl baseRefl h T B) as (I & _).
  assert (K : lessSize (tSize T x) (tSize T y) -> ~ lessSize (tSize T y) (tSize T x)).
  { intros A A'. exact (less_irrefl _ (less_trans _ _ _ A A')). }
  destruct (same_chain T x y I S) as [R|R].
  - pose proof (reach_strict T x y I R) as Q. split; [tauto|]. intros (E & _). tauto.
  - pose proof (reach_strict T y x I R) as Q. split.
    + split; [intro; now apply reach_strict|]. intros [->|L]; [constructor|].
      destruct Q as [->|L']; [constructor|]. exfalso. exact (K L L').
    + intros (_ & E). destruct Q as [->|L]; [reflexivity|tauto].
Qed.

(** An addition keeps locations, their sizes, pointers to their beginnings and
    the order in chains. *)
Theorem C48_add_keeps h T fuel l T' : built h T -> add fuel T l = Some T' ->
  forall x, exists_in T x -> exists_in T' x /\ tSize T' x = tSize T x /\
    (forall p, pointsTo alias T p x -> pointsTo alias T' p x) /\
    (tExpl T x = true -> tExpl T' x = true) /\
    forall y, reach T x y -> reach T' x y.
Proof.
  intros B A x X. destruct (built_spec _ _ _ _ _ _ aliasRefl baseRefl h T B) as (I & _).
  destruct (addLevels_spec _ _ _ _ _ aliasRefl baseRefl fuel T _ None T' I ltac:(discriminate) A) as (I' & E & _).
  split; [pose proof (eCount T T' E); unfold exists_in in *; lia|].
  split; [exact (eSize T T' E x X)|]. split; [|split; [exact (eExpl T T' E x X)|]].
  - intros p (q & Q & M). exists q. split; [|exact M].
    destruct (ePtrs T T' E x X) as (t & ->). apply in_or_app. auto.
  - intros y R. exact (ext_reach T T' x y I I' E X R).
Qed.

(** The previous location is an inverse of the next one if it is known. *)
Theorem C48_prev_partial h T : built h T -> forall x y, prev T y = Some x -> next T x = Some y.
Proof.
  intros B x y. destruct (built_spec _ _ _ _ _ _ aliasRefl baseRefl h T B) as (I & _).
  unfold prev, next, getPrev, getNext. destruct (fKids (tForest T) y) as [|k t] eqn:K; [discriminate|].
  destruct (isSameBase (tForest T) y k) eqn:S; [|discriminate]. intros [= <-].
  assert (P : fParent (tForest T) k = Some y) by (apply (iLinks T I); rewrite K; left; reflexivity).
  rewrite P. unfold isSameBase in *. rewrite Nat.eqb_sym in S. now rewrite S.
Qed.

(** A location is explicit if and only if it is made for an added location. *)
Theorem C48_explicit h T : built h T ->
  (forall l, In l h -> exists e, represents alias T (stripToBase (baseOf l)) e /\ tExpl T e = true) /\
  (forall e, exists_in T e -> tExpl T e = true ->
     exists l, In l h /\ represents alias T (stripToBase (baseOf l)) e).
Proof.
  intro B. destruct (built_spec _ _ _ _ _ _ aliasRefl baseRefl h T B) as (I & P & X).
  split; [|exact X]. intros l L. destruct (P l L) as (e & PE & XE). exists e.
  split; [exact (placed_represents _ _ T _ _ _ I PE)|exact XE].
Qed.

(** An added location is found if it is certain which chains contain it: the
    answer is the smallest location of its chain which contains the added one. *)
Theorem C48_find_partial h T l fuel : built h T -> In l h ->
  stripToBase (baseOf l) = baseOf l ->
  strip sameBase stripMemoryLevel fuel (baseOf l) (baseOf l) <> None ->
  decided sameBase alias T (mPtr (baseOf l)) ->
  exists e c, findMem fuel T [] l = Some (Some e, c) /\ smallest alias T (baseOf l) e /\
    sameBase (front T e) (mPtr (baseOf l)) = true.
Proof.
  intros B L S F D. destruct (find_spec _ _ _ _ _ _ aliasRefl baseRefl h T l fuel B L S F D) as (r & E & M).
  exists r, [(baseOf l, Some r)]. split; [|exact M].
  unfold EMChainModel.findMem. cbn. unfold EMChainSpec.baseOf in *. now rewrite E.
Qed.

(** If the beginning of the location is in one chain only, then the answer is
    this location itself. *)
Theorem C48_find_exact_partial h T l fuel : built h T -> In l h ->
  stripToBase (baseOf l) = baseOf l ->
  strip sameBase stripMemoryLevel fuel (baseOf l) (baseOf l) <> None ->
  decided sameBase alias T (mPtr (baseOf l)) ->
  (forall x y, exists_in T x -> exists_in T y -> pointsTo alias T (mPtr (baseOf l)) x ->
     pointsTo alias T (mPtr (baseOf l)) y -> sameChain T x y) ->
  exists e c, findMem fuel T [] l = Some (Some e, c) /\ represents alias T (baseOf l) e /\
    tExpl T e = true.
Proof.
  intros B L S F D U. destruct (C48_find_partial h T l fuel B L S F D) as (r & c & E & (X & P & NL & M) & _).
  destruct (proj1 (C48_explicit h T B) l L) as (e & (XE & (E1 & E2) & PE) & XP). rewrite S in E1, E2, PE.
  pose proof (U e r XE X PE P) as SC.
  assert (e = r) as ->; [|exists r, c; split; [exact E|]; split; [|exact XP]; split; [exact X|split; [split; assumption|exact P]]].
  apply (C48_one_chain h T B e r SC). split; [exact (M e SC E2)|].
  intro LT. destruct (less_cotrans _ (mSize (baseOf l)) _ LT); contradiction.
Qed.

(** Answers do not depend on previous requests since the last addition. *)
Theorem C48_cache h T c : served h T c ->
  forall fuel l a c', findMem fuel T c l = Some (a, c') ->
    exists fuel', lookUp fuel' T (baseOf l) = Some a /\
    forall f a', lookUp f T (baseOf l) = Some a' -> a' = a.
Proof.
  intros S fuel l a c' F. destruct (served_spec _ _ _ _ _ _ h T c S) as (_ & C).
  assert (K : exists fuel', lookUp fuel' T (baseOf l) = Some a).
  { unfold EMChainModel.findMem, EMChainSpec.baseOf in *.
    destruct (cached c (clarify (stripToBase l))) as [r|] eqn:Q.
    - injection F as <- <-. exact (C _ _ Q).
    - destruct (lookUp fuel T (clarify (stripToBase l))) as [r|] eqn:Q'; [|discriminate].
      injection F as <- <-. eauto. }
  destruct K as (f' & K). exists f'. split; [exact K|]. intros f a' H.
  exact (lookUp_det _ _ _ _ _ _ _ _ _ _ H K).
Qed.
End C48.
Print Assumptions C48_chains_ascend.
Print Assumptions C48_one_chain.
Print Assumptions C48_add_keeps.
Print Assumptions C48_prev_partial.
Print Assumptions C48_explicit.
Print Assumptions C48_find_partial.
Print Assumptions C48_find_exact_partial.
Print Assumptions C48_cache.

(** ** Examples *)
Lemma exAliasRefl p : exAlias p p = ARMust.
Proof. unfold exAlias. now rewrite Nat.eqb_refl. Qed.
Lemma exBaseRefl p : exBase p p = true.
Proof. unfold exBase. now rewrite Nat.eqb_refl. Qed.

(* the element, its array and the part of the array are in the forest: the chain
   of the array is 4 (2 bytes), 1 (24 bytes), 3 (unknown size) *)
Example C48_nonvacuous : exists T, exTree exHistory = Some T /\ exBuilt exHistory T /\
  tCount T = 5 /\ next T 4 = Some 1 /\ next T 1 = Some 3 /\ next T 3 = None /\
  tSize T 4 = SPrecise 2 /\ tSize T 1 = SPrecise 24 /\ tSize T 3 = SAfter /\
  fParent (tForest T) 0 = Some 1 /\ sameChain T 4 3 /\ reach T 4 3 /\
  tExpl T 4 = true /\ tExpl T 1 = false.
Proof.
  destruct (exTree exHistory) as [T|] eqn:E; [|vm_compute in E; discriminate].
  exists T. split; [reflexivity|]. split; [exact (exTree_built _ _ E)|].
  vm_compute in E. injection E as <-. unfold sameChain, exists_in.
  repeat (split; [vm_compute; first [reflexivity|lia]|]).
  split; [|split; reflexivity]. apply reachNext with 1; [reflexivity|]. apply reachNext with 3; [reflexivity|constructor].
Qed.

Lemma exDecided T : exTree exHistory = Some T -> forall p, p = 4 \/ p = 5 -> decided exBase exAlias T p.
Proof.
  intros E p HP. vm_compute in E. injection E as <-. intros e X S. unfold exists_in in X. cbn in X.
  right. intros q Q. unfold ptrs in Q. cbn in Q.
  do 5 (destruct e as [|e]; [cbn in Q; destruct Q as [<-|[]]; destruct HP as [-> | ->]; vm_compute; discriminate|]).
  exfalso. lia.
Qed.
Lemma exPoints T : exTree exHistory = Some T -> forall x, x < 5 -> pointsTo exAlias T 4 x ->
  x = 1 \/ x = 3 \/ x = 4.
Proof.
  intros E x X (q & Q & M). vm_compute in E. injection E as <-. unfold ptrs in Q. cbn in Q.
  do 5 (destruct x as [|x]; [cbn in Q; destruct Q as [<-|[]]; vm_compute in M; first [discriminate|lia]|]).
  lia.
Qed.
Example C48_find_nonvacuous : exists T c, exTree exHistory = Some T /\
  decided exBase exAlias T 4 /\
  strip exBase exLevel 5 (MLoc 4 (SPrecise 2)) (MLoc 4 (SPrecise 2)) <> None /\
  findMem exBase exAlias exStrip (fun l => l) exLevel (fun l => l) 5 T [] (MLoc 4 (SPrecise 2))
    = Some (Some 4, c) /\
  (forall x y, exists_in T x -> exists_in T y -> pointsTo exAlias T 4 x -> pointsTo exAlias T 4 y ->
     sameChain T x y).
Proof.
  destruct (exTree exHistory) as [T|] eqn:E; [|vm_compute in E; discriminate].
  pose proof (exDecided T E 4 (or_introl eq_refl)) as D. pose proof (exPoints T E) as K.
  exists T. vm_compute in E. injection E as <-. eexists. split; [reflexivity|]. split; [exact D|].
  split; [vm_compute; discriminate|]. split; [vm_compute; reflexivity|].
  intros x y X Y PX PY. unfold exists_in in *. cbn [tCount] in X, Y.
  apply K in PX; [|exact X]. apply K in PY; [|exact Y].
  unfold sameChain, exists_in. cbn [tCount]. split; [lia|]. split; [lia|].
  destruct PX as [-> |[-> | ->]], PY as [-> |[-> | ->]]; reflexivity.
Qed.

(** The previous location is not always known: the array has the child 0, which is
    its element, so the location of two bytes, which is added later, is not the
    first child. *)
Theorem C48_prev_refuted :
  exists h T x y, exBuilt h T /\ next T x = Some y /\ prev T y = None /\
    chainStart 9 T y = Some y.
Proof.
  destruct (exTree [MLoc 4 (SPrecise 2); MLoc 5 (SPrecise 8)]) as [T|] eqn:E; [|vm_compute in E; discriminate].
  exists [MLoc 4 (SPrecise 2); MLoc 5 (SPrecise 8)], T, 2, 1. split; [exact (exTree_built _ _ E)|].
  vm_compute in E. injection E as <-. split; [reflexivity|]. split; reflexivity.
Qed.
Print Assumptions C48_prev_refuted.

(** A search for an added location may stop the program: 1 and 2 are different,
    the unknown 3 is added to the chain of 1, and it is not certain for 2 whether
    it is in this chain. *)
Theorem C48_find_refuted :
  exists h T l, exBuilt h T /\ In l h /\
    forall fuel, findMem exBase exAlias exStrip (fun l => l) exLevel (fun l => l) fuel T [] l = None.
Proof.
  set (h := [MLoc 3 (SPrecise 4); MLoc 2 (SPrecise 4); MLoc 1 (SPrecise 4)]).
  destruct (exTree h) as [T|] eqn:E; [|vm_compute in E; discriminate].
  exists h, T, (MLoc 2 (SPrecise 4)). split; [exact (exTree_built _ _ E)|]. split; [right; left; reflexivity|].
  vm_compute in E. injection E as <-. intro fuel. reflexivity.
Qed.
Print Assumptions C48_find_refuted.

Example C48_cache_nonvacuous : exists T c,
  served exBase exAlias exStrip (fun l => l) exLevel (fun l => l)
    [RFind (MLoc 4 (SPrecise 2)); RAdd (MLoc 4 (SPrecise 2))] T c /\ length c = 1.
Proof.
  destruct (exTree [MLoc 4 (SPrecise 2)]) as [T|] eqn:E; [|vm_compute in E; discriminate].
  exists T. pose proof E as E'. vm_compute in E'. injection E' as <-. eexists. split.
  - eapply servedStep with (fuel := 5).
    + eapply servedStep with (fuel := 5) (c := []); [constructor|]. cbn [serve addMem].
      unfold addMem. cbn [exTree exAdd] in E. rewrite E. reflexivity.
    + vm_compute. reflexivity.
  - reflexivity.
Qed.
