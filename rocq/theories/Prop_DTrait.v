(** Properties C34 and C35: recorded loop-carried dependences. *)
From Coq Require Import ZArith Bool List Arith Lia.
From Verif Require Import DepModel DepSpec DepOracle DTraitModel DTraitSpec DTraitProof.
Import ListNotations.

(** C34.  [x] and [y] are iteration vectors of accesses to the same element which are
    separated by the loop at depth [k]; what the dependence analysis tells
    about them is true.  Then the kind of this dependence is recorded for the
    loop, whatever else is recorded or merged, if the direction is not
    "different". *)
Theorem C34_kind_recorded_partial : forall Env k (h : history Env) d e x y t,
  (1 <= k)%nat -> (forall d', recorded h d' -> (k <= pLevels _ d')%nat) ->
  recorded h d -> truthful (pConfusedLevels _ d) d e x y ->
  carriedBy k x y -> kindOf d k x y = Some t ->
  (pDirection _ d k <> dNE \/ t = Output) ->
  tIs _ (get _ (run _ k h) t) = true.
Proof.
  intros Env k h d e x y t K R RD T C KO NE.
  destruct (insert_sets d k e x y t) as (u & HU & US); auto.
  apply (g_is _ _ _ _ (run_good k h t K (inRange_all _ _ R)) d (uDist _ u) RD).
  exists u. auto.
Qed.
Print Assumptions C34_kind_recorded_partial.
(** If the insertion is ignored then there is no pair carried by the loop. *)
Theorem C34_ignored_partial : forall Env k (d : dep Env), (1 <= k <= pLevels _ d)%nat ->
  insertDependence _ d k = None ->
  forall e x y t, truthful (pConfusedLevels _ d) d e x y -> kindOf d k x y = Some t -> ~ carriedBy k x y.
Proof.
  intros Env k d K H e x y t T KO C.
  assert (D : pDirection _ d k <> dNE \/ pDirection _ d k = dNE).
  { destruct (dirsEqb (pDirection _ d k) dNE) eqn:E; [right; apply dirsEqb_eq; exact E|left].
    intro E2. apply dirsEqb_eq in E2. congruence. }
  destruct D as [D|D].
  - destruct (insert_sets d k e x y t) as (u & HU & _); auto. congruence.
  - destruct C as [C1 C2]. unfold insertDependence in H.
    destruct (pConfused _ d || (k <=? pConfusedLevels _ d)%nat) eqn:CF; [discriminate|].
    apply orb_false_iff in CF. destruct CF as [CF LC]. apply Nat.leb_gt in LC.
    destruct T as [T|T]; [congruence|]. cbv zeta in H.
    set (start := if (0 <? pConfusedLevels _ d)%nat then pConfusedLevels _ d else 1%nat) in H.
    assert (ST : (1 <= start <= k /\ pConfusedLevels _ d <= start)%nat).
    { unfold start. destruct (Nat.ltb_spec 0 (pConfusedLevels _ d)); lia. }
    assert (OK : outerOk _ d start (k - start) = true).
    { apply outerOk_eq. intros l L. destruct (T l ltac:(lia) ltac:(lia)) as [(_ & A & _) _].
      apply A. apply C1. lia. }
    rewrite OK, D in H. cbn in H. discriminate.
Qed.
Print Assumptions C34_ignored_partial.

(** The unrestricted claim is false.  A[i] = ...; ... = A[5 - i]: the dependence test
    gives the direction "different" (weakCrossingSIVtest), iteration 1 writes
    A[1] and iteration 4 reads it, but the flow dependence is not recorded. *)
Definition crossing : tres bool :=
  weakCrossingSIV _ boolOracle (scC _ 1) (scC _ 0) (scC _ 5) (Some (scC _ 9)) (dvInit _).
Definition crossingDep : dep bool :=
  mkDep _ Write Read false 0 1 (fun _ => dvDir _ (tDV _ crossing)) (fun _ => dvDist _ (tDV _ crossing)).
Definition at1 (a : Z) : nat -> Z := fun _ => a.
Theorem C34_different_directions_refuted :
  tIndep _ crossing = false /\ pDirection _ crossingDep 1 = dNE /\
  (* A[1] and A[5 - 4] *)
  (1 = 5 - 4)%Z /\ truthful 0 crossingDep true (at1 1) (at1 4) /\
  carriedBy 1 (at1 1) (at1 4) /\ kindOf crossingDep 1 (at1 1) (at1 4) = Some Flow /\
  tIs _ (get _ (run _ 1 (HInsert _ (HNew _) crossingDep)) Flow) = false.
Proof.
  split; [vm_compute; reflexivity|]. split; [vm_compute; reflexivity|]. split; [reflexivity|].
  split.
  { right. intros l L _. split.
    - assert (E : pDirection _ crossingDep l = dNE) by (vm_compute; reflexivity). rewrite E.
      unfold dirAdmits, at1; cbn. repeat split; intros; try reflexivity; lia.
    - assert (E : pDistance _ crossingDep l = None) by (vm_compute; reflexivity). rewrite E. discriminate. }
  split; [split; [intros l L; lia|unfold at1; lia]|].
  split; [reflexivity|]. vm_compute. reflexivity.
Qed.
Print Assumptions C34_different_directions_refuted.
(** The outermost levels which are confused are documented as invalid
    (DependenceAnalysis.h 184-191), but the direction of the last of them
    is consulted: a dependence carried by the next loop is ignored. *)
Definition confusedDep : dep bool :=
  mkDep _ Write Read false 1 2 (fun l => if (l =? 1)%nat then dLTonly else dALL) (fun _ => None).
Theorem C34_confused_level_refuted :
  truthful (pConfusedLevels _ confusedDep + 1) confusedDep true (at1 0) (fun l => if (l =? 2)%nat then 1 else 0)%Z /\
  carriedBy 2 (at1 0) (fun l => if (l =? 2)%nat then 1 else 0)%Z /\
  kindOf confusedDep 2 (at1 0) (fun l => if (l =? 2)%nat then 1 else 0)%Z = Some Flow /\
  insertDependence _ confusedDep 2 = None.
Proof.
  split.
  { right. intros l L G. cbn in L, G. assert (l = 2%nat) by lia. subst l. cbn.
    unfold dirAdmits; cbn. repeat split; auto; discriminate. }
  split; [split; [intros l L; assert (l = 1%nat) by lia; subst l; reflexivity|unfold at1; cbn; lia]|].
  split; reflexivity.
Qed.
Print Assumptions C34_confused_level_refuted.

(** C35.  Records which are not merged: bounds reported for a level enclose the number
    of iterations between any two accesses related by a recorded dependence
    of this kind; each of recorded dependences has a known distance at each
    reported level (of loops common for its accesses).  The first level is
    compared as unsigned words. *)
Theorem C35_bounds_partial : forall Env Bits, (0 <= Bits)%Z ->
  forall k (h : history Env), (1 <= k)%nat -> noMerge h ->
  (forall d', recorded h d' -> (k <= pLevels _ d')%nat) ->
  forall t b, summarize _ Bits (get _ (run _ k h) t) = Some (Some b) ->
  forall d e x y, recorded h d -> truthful (pConfusedLevels _ d) d e x y ->
  carriedBy k x y -> kindOf d k x y = Some t -> oneSided d k ->
  forall j lo hi, nth_error b j = Some (lo, hi) -> (k + j <= pLevels _ d)%nat ->
  (exists D, pDistance _ d (k + j) = Some D) /\
  (j = 0%nat -> (0 <= distanceOf k x y k < 2 ^ Bits)%Z ->
     (uword Bits (lo e) <= distanceOf k x y k <= uword Bits (hi e))%Z) /\
  (j <> 0%nat -> (lo e <= distanceOf k x y (k + j) <= hi e)%Z).
Proof.
  intros Env Bits B0 k h K NM R t b SB d e x y RD T C KO OS j lo hi HB J.
  apply (bounds_core Env Bits B0 k h K R t b SB d e x y RD T C KO OS j lo hi HB J).
  pose proof (run_good k h t K (inRange_all _ _ R)) as G.
  set (s := get _ (run _ k h) t) in *.
  unfold summarize in SB. destruct (tUnknown _ s) eqn:TU; [discriminate|].
  assert (LB : length b = length (tDists _ s)).
  { destruct (tDists _ s) as [|l ds] eqn:ED; [discriminate|].
    destruct (fold1 _ (scUMin _ Bits) l); [|discriminate]. destruct (fold1 _ (scUMax _ Bits) l); [|discriminate].
    destruct (summarizeRest _ ds) as [r|] eqn:E3; [|discriminate]. injection SB as <-. cbn.
    rewrite (summarizeRest_length _ _ E3). reflexivity. }
  assert (JL : (j < length (tDists _ s))%nat).
  { rewrite <- LB. apply nth_error_Some. congruence. }
  unfold below. destruct (tKnown _ s) as [m|] eqn:EK; [|exact I].
  pose proof (g_len _ _ _ _ G NM TU m EK). lia.
Qed.
Print Assumptions C35_bounds_partial.
(** The same for all histories, but for levels below the one which is known as
    the last level with distances (mKnownDistanceLevel). *)
Theorem C35_bounds_with_merges_partial : forall Env Bits, (0 <= Bits)%Z ->
  forall k (h : history Env), (1 <= k)%nat ->
  (forall d', recorded h d' -> (k <= pLevels _ d')%nat) ->
  forall t b, summarize _ Bits (get _ (run _ k h) t) = Some (Some b) ->
  forall d e x y, recorded h d -> truthful (pConfusedLevels _ d) d e x y ->
  carriedBy k x y -> kindOf d k x y = Some t -> oneSided d k ->
  forall j lo hi, nth_error b j = Some (lo, hi) -> (k + j <= pLevels _ d)%nat ->
  (forall m, tKnown _ (get _ (run _ k h) t) = Some m -> (j < m)%nat) ->
  (exists D, pDistance _ d (k + j) = Some D) /\
  (j = 0%nat -> (0 <= distanceOf k x y k < 2 ^ Bits)%Z ->
     (uword Bits (lo e) <= distanceOf k x y k <= uword Bits (hi e))%Z) /\
  (j <> 0%nat -> (lo e <= distanceOf k x y (k + j) <= hi e)%Z).
Proof.
  intros Env Bits B0 k h K R t b SB d e x y RD T C KO OS j lo hi HB J BK.
  apply (bounds_core Env Bits B0 k h K R t b SB d e x y RD T C KO OS j lo hi HB J).
  unfold below. destruct (tKnown _ (get _ (run _ k h) t)); auto.
Qed.
Print Assumptions C35_bounds_with_merges_partial.
(** Reading of the summary is defined for each history, including merges. *)
Theorem C35_summary_defined : forall Env Bits k (h : history Env), (1 <= k)%nat ->
  (forall d', recorded h d' -> (k <= pLevels _ d')%nat) ->
  forall t, tIs _ (get _ (run _ k h) t) = true -> exists r, summarize _ Bits (get _ (run _ k h) t) = Some r.
Proof.
  intros Env Bits k h K R t TI. eapply summarize_total; [|exact TI].
  apply run_good; [exact K|apply inRange_all; exact R].
Qed.
Print Assumptions C35_summary_defined.
(** A dependence which was assumed leaves no bounds, including merges. *)
Theorem C35_assumed_has_no_bounds : forall Env Bits k (h : history Env) t, assumed h ->
  tIs _ (get _ (run _ k h) t) = true /\ summarize _ Bits (get _ (run _ k h) t) = Some None.
Proof.
  intros Env Bits k h t A. destruct (assumed_unknown k h t A) as [A1 A2]. split; [exact A1|].
  unfold summarize. rewrite A2. reflexivity.
Qed.
Print Assumptions C35_assumed_has_no_bounds.

(** With merged records the claim is false: the second record has no distance at the
    second level, but bounds are still reported for it. *)
Definition twoLevels (second : option (scev bool)) : dep bool :=
  mkDep _ Write Read false 0 2 (fun _ => dALL) (fun l => if (l =? 1)%nat then Some (scC _ 1) else second).
Theorem C35_merge_refuted :
  exists b, summarize _ 64 (get _ (run _ 1
      (HMerge _ (HInsert _ (HNew _) (twoLevels (Some (scC _ 0)))) (HInsert _ (HNew _) (twoLevels None)))) Flow)
    = Some (Some b) /\ length b = 2%nat /\
  truthful 0 (twoLevels None) true (at1 0) (fun l => if (l =? 1)%nat then 1 else 7)%Z /\
  carriedBy 1 (at1 0) (fun l => if (l =? 1)%nat then 1 else 7)%Z /\
  forall lo hi, nth_error b 1 = Some (lo, hi) ->
    ~ (lo true <= distanceOf 1 (at1 0) (fun l => if (l =? 1)%nat then 1 else 7)%Z 2 <= hi true)%Z.
Proof.
  eexists. split; [reflexivity|]. split; [reflexivity|]. split.
  { right. intros l L _. split; [unfold dirAdmits; cbn; auto|].
    cbn. destruct (Nat.eqb_spec l 1); [|discriminate]. intros D E. injection E as <-. reflexivity. }
  split; [split; [intros; lia|cbn; unfold at1; lia]|].
  intros lo hi H. cbn in H. assert (E1 : lo true = 0%Z) by (injection H as <- _; reflexivity).
  assert (E2 : hi true = 0%Z) by (injection H as _ <-; reflexivity).
  rewrite E1, E2. unfold distanceOf, at1. cbn. lia.
Qed.
Print Assumptions C35_merge_refuted.
(** An output dependence with both directions: the symbolic distance is stored as it
    is, so it is wrong if the destination comes first. *)
Definition outputDep : dep bool :=
  mkDep _ Write Write false 0 1 (fun _ => dALL) (fun _ => Some (fun e : bool => if e then 3 else -3)%Z).
Theorem C35_output_distance_refuted :
  exists b lo hi, summarize _ 64 (get _ (run _ 1 (HInsert _ (HNew _) outputDep)) Output) = Some (Some b) /\
  nth_error b 0 = Some (lo, hi) /\
  truthful 0 outputDep false (at1 3) (at1 0) /\ carriedBy 1 (at1 3) (at1 0) /\
  distanceOf 1 (at1 3) (at1 0) 1 = 3%Z /\ lo false = (-3)%Z /\ hi false = (-3)%Z.
Proof.
  eexists. eexists. eexists. split; [reflexivity|]. split; [reflexivity|]. split.
  { right. intros l L _. split; [unfold dirAdmits; cbn; auto|]. intros D E. injection E as <-. reflexivity. }
  split; [split; [intros; lia|unfold at1; lia]|]. repeat split.
Qed.
Print Assumptions C35_output_distance_refuted.

(** ** Concrete cases: A[i][j] = A[i-1][j+2] (flow, distances 1 and -2) and
    A[i][j] = A[i-3][j] *)
Definition depA : dep bool :=
  mkDep _ Write Read false 0 2 (fun l => if (l =? 1)%nat then dLTonly else dALL)
        (fun l => Some (scC _ (if (l =? 1)%nat then 1 else -2)%Z)).
Definition depB : dep bool :=
  mkDep _ Write Read false 0 2 (fun l => if (l =? 1)%nat then dLTonly else dEQonly)
        (fun l => Some (scC _ (if (l =? 1)%nat then 3 else 0)%Z)).
Definition hAB := HInsert bool (HInsert bool (HNew bool) depA) depB.
Definition vec (a b : Z) : nat -> Z := fun l => if (l =? 1)%nat then a else b.
Example C34_C35_sample :
  truthful 0 depA true (vec 4 5) (vec 5 3) /\ carriedBy 1 (vec 4 5) (vec 5 3) /\
  kindOf depA 1 (vec 4 5) (vec 5 3) = Some Flow /\ oneSided depA 1 /\ noMerge hAB /\ recorded hAB depA /\
  exists b, summarize _ 64 (get _ (run _ 1 hAB) Flow) = Some (Some b) /\
    map (fun p => (fst p true, snd p true)) b = [(1, 3); (-2, 0)]%Z.
Proof.
  split.
  { right. intros l L _. assert (l = 1 \/ l = 2)%nat as [->| ->] by (cbn in L; lia).
    - split; [unfold dirAdmits; cbn; repeat split; intros; try reflexivity; lia|]. intros D E. injection E as <-. reflexivity.
    - split; [unfold dirAdmits; cbn; auto|]. intros D E. injection E as <-. reflexivity. }
  split; [split; [intros; lia|cbn; lia]|]. split; [reflexivity|].
  split; [split; discriminate|]. split; [exact I|]. split; [cbn; auto|].
  eexists. split; [reflexivity|]. vm_compute. reflexivity.
Qed.
