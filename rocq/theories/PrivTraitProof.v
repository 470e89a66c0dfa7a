(** The words computed for a loop in terms of elementary traits. *)
From Coq Require Import ZArith NArith List Permutation Lia PeanoNat Bool.
From Verif Require Import TraitModel TraitSpec Prop_Trait PrivModel PrivSpec PrivProof.
Import ListNotations.
Open Scope nat_scope.

(* elementary traits given to one location *)
Definition locElems (dep : bool) (f : locFacts) : list elementary :=
  let sh := negb dep in
  let live := fLiveOut f || fLiveAggr f in
  (if negb (fUse f) then
     if negb live then [Class (KPrivate sh)]
     else if fInvariant f && fExitMust f then [Class (KLast sh)]
     else if fInvariant f && fLatchMust f && negb (fExitMay f)
          then [Class (KSecond sh); Class (KFirst sh)]
          else [Class (KDynamic sh); Class (KFirst sh)]
   else if fMayDef f || fDef f then [Class (if dep then KDependency else KShared)]
   else [Class KReadonly]) ++
  (if live then [Flag TUseAfterLoop] else []).
Definition joinAll (l : list elementary) (w : N) : N :=
  fold_left tAnd (map elementId l) w.

Lemma and3 w a b c : N.land a b = c -> tAnd w c = tAnd (tAnd w a) b.
Proof. intros <-. unfold tAnd. now rewrite N.land_assoc. Qed.

Lemma resolveLoc_elems dep w f : resolveLoc dep w f = joinAll (locElems dep f) w.
Proof.
  unfold resolveLoc, joinAll, locElems. destruct f as [u df md lo la inv em lm ey].
  cbn [fUse fDef fMayDef fLiveOut fLiveAggr fInvariant fExitMust fLatchMust fExitMay].
  destruct dep, u, df, md, lo, la, inv, em, lm, ey;
    cbn [negb andb orb app map fold_left elementId classId markShared];
    try reflexivity;
    (f_equal; try reflexivity; apply and3; vm_compute; reflexivity).
Qed.

Lemma good_joinAll l : forall w, good w -> good (joinAll l w).
Proof.
  unfold joinAll. induction l as [|e l IH]; intros w G; [exact G|].
  cbn [map fold_left]. apply IH. apply good_and; [exact G|apply good_element].
Qed.
Lemma says_joinAll l t : forall w, good w ->
  says (joinAll l w) t = says w t && forallb (fun e => elementAllows e t) l.
Proof.
  unfold joinAll. induction l as [|e l IH]; intros w G; cbn [map fold_left forallb].
  - now rewrite andb_true_r.
  - rewrite IH by (apply good_and; [exact G|apply good_element]).
    rewrite says_and by (auto; apply good_element). now rewrite says_element, andb_assoc.
Qed.

Lemma good_noRedundant : good NoRedundant.
Proof. exact (good_flag TNoRedundant). Qed.
Lemma says_noRedundant t : says NoRedundant t = true.
Proof. exact (says_element (Flag TNoRedundant) t). Qed.

Lemma resolveBase_fold dep fs : forall w, good w ->
  good (fold_left (resolveLoc dep) fs w) /\
  forall t, says (fold_left (resolveLoc dep) fs w) t =
    says w t && forallb (fun f => forallb (fun e => elementAllows e t) (locElems dep f)) fs.
Proof.
  induction fs as [|f fs IH]; intros w G; cbn [fold_left forallb].
  - split; [exact G|]. intro t. now rewrite andb_true_r.
  - rewrite resolveLoc_elems. destruct (IH _ (good_joinAll (locElems dep f) w G)) as (A & B).
    split; [exact A|]. intro t. rewrite B, says_joinAll by exact G. now rewrite andb_assoc.
Qed.

Lemma good_dependency : good Dependency.
Proof. exact (good_class KDependency). Qed.
Lemma baseWord_says b : good (baseWord b) /\
  forall t, says (baseWord b) t = true ->
  forall f, In f (bLocs b) -> forall e, In e (locElems (bDep b) f) -> elementAllows e t = true.
Proof.
  unfold baseWord. destruct (resolveBase_fold (bDep b) (bLocs b) NoRedundant good_noRedundant)
    as (G & S).
  change (fold_left (resolveLoc (bDep b)) (bLocs b) NoRedundant)
    with (resolveBase (bDep b) (bLocs b)) in *.
  assert (X : resolvePointer (bPtr b) (resolveBase (bDep b) (bLocs b)) = resolveBase (bDep b) (bLocs b)
    \/ resolvePointer (bPtr b) (resolveBase (bDep b) (bLocs b)) = tAnd (resolveBase (bDep b) (bLocs b)) Dependency).
  { unfold resolvePointer. destruct (bPtr b) as [[p|]|]; auto;
      destruct (_ || _ || _)%bool; auto. destruct (_ =? _)%N; auto. }
  assert (Y : forall t, says (resolveBase (bDep b) (bLocs b)) t = true ->
    forall f, In f (bLocs b) -> forall e, In e (locElems (bDep b) f) -> elementAllows e t = true).
  { intros t H f I e J. rewrite S in H. apply andb_prop in H. destruct H as [_ H].
    rewrite forallb_forall in H. specialize (H f I). rewrite forallb_forall in H. now apply H. }
  destruct X as [-> | ->]; split; auto.
  - apply good_and; [exact G|apply good_dependency].
  - intros t H. rewrite says_and in H by (auto; apply good_dependency).
    apply andb_prop in H. apply Y. now apply H.
Qed.

Lemma conj_says ws : (forall w, In w ws -> good w) -> forall w0, good w0 ->
  good (fold_left tAnd ws w0) /\
  forall t, says (fold_left tAnd ws w0) t = says w0 t && forallb (fun w => says w t) ws.
Proof.
  induction ws as [|w ws IH]; intros H w0 G; cbn [fold_left forallb].
  - split; [exact G|]. intro t. now rewrite andb_true_r.
  - assert (Gw : good w) by (apply H; now left).
    destruct (IH (fun x I => H x (or_intror I)) (tAnd w0 w)) as (A & B).
    { now apply good_and. }
    split; [exact A|]. intro t. rewrite B, says_and by auto. now rewrite andb_assoc.
Qed.
Lemma good_noAccess : good NoAccess.
Proof. exact (good_class KNoAccess). Qed.
Lemma says_noAccess t : says NoAccess t = true.
Proof. etransitivity; [exact (says_element (Class KNoAccess) t)|]. destruct t; reflexivity. Qed.

Lemma conjunction_says ws : (forall w, In w ws -> good w) ->
  good (conjunction ws) /\
  forall t, says (conjunction ws) t = forallb (fun w => says w t) ws.
Proof.
  intro H. destruct (conj_says ws H NoAccess good_noAccess) as (A & B).
  split; [exact A|]. intro t. unfold conjunction. now rewrite B, says_noAccess.
Qed.

Lemma memoryWord_says bs flags :
  good (memoryWord bs (map flagId flags)) /\
  forall t, says (memoryWord bs (map flagId flags)) t = forallb (fun b => says (baseWord b) t) bs.
Proof.
  unfold memoryWord.
  destruct (conjunction_says (map baseWord bs)) as (A & B).
  { intros w I. apply in_map_iff in I. destruct I as (b & <- & _). apply baseWord_says. }
  destruct (conj_says (map flagId flags)) with (w0 := conjunction (map baseWord bs)) as (C & D).
  { intros w I. apply in_map_iff in I. destruct I as (f & <- & _). apply good_flag. }
  { exact A. }
  split; [exact C|]. intro t. rewrite D, B.
  assert (F : forallb (fun w => says w t) (map flagId flags) = true).
  { apply forallb_forall. intros w I. apply in_map_iff in I. destruct I as (f & <- & _).
    exact (says_element (Flag f) t). }
  rewrite F, andb_true_r. clear. induction bs as [|b bs IH]; [reflexivity|]. cbn. now rewrite IH.
Qed.

Lemma descrOf_says w d t : descrOf w = Some d -> classAllows d t = says w t.
Proof.
  unfold descrOf. destruct (toDescriptor w 0 zero) as [[d' c']|] eqn:E; [|discriminate].
  intro H. assert (d' = d) by congruence. subst d'.
  apply toDescriptor_inv in E. destruct E as (ts & T & -> & _). unfold says. now rewrite T.
Qed.
Lemma descrOf_total w : good w -> exists d, descrOf w = Some d.
Proof.
  intro G. destruct (classPart_total w G) as (ts & E).
  unfold descrOf, toDescriptor, traitsOf. rewrite E. eexists. reflexivity.
Qed.
Lemma descrOf_flags w d t : good w -> descrOf w = Some d -> In t unitTraits ->
  d t = flagSet w t.
Proof.
  intros G. unfold descrOf. destruct (toDescriptor w 0 zero) as [[d' c']|] eqn:E; [|discriminate].
  intros H U. assert (d' = d) by congruence. subst d'.
  apply toDescriptor_inv in E. destruct E as (ts & T & -> & _).
  unfold traitsOf in T. destruct (classPart w) as [cs|] eqn:C; [|discriminate].
  assert (ts = unitPart w ++ cs) by congruence. subst ts.
  rewrite fold_dSet. cbn [dNone orb]. rewrite member_app, unitPart_member.
  now rewrite (class_no_unit _ _ _ G C U), orb_false_r.
Qed.

(* independent of flags and of kinds of dependences *)
Lemma classAllows_core d e t :
  (forall x, ~ In x unitTraits -> isKind x = false -> d x = e x) ->
  classAllows d t = classAllows e t.
Proof.
  intro H.
  assert (X : forall x, In x [TNoAccess; TReadonly; TPrivate; TFirstPrivate;
      TLastPrivate; TSecondToLastPrivate; TDynamicPrivate; TShared; TReduction;
      TInduction] -> d x = e x).
  { intros x I. apply H.
    - intro J. cbn in I, J.
      decompose [or] I; subst; decompose [or] J; try discriminate; contradiction.
    - cbn in I. decompose [or] I; subst; try reflexivity; contradiction. }
  unfold classAllows. rewrite !X by (cbn; tauto). reflexivity.
Qed.
