(** C36 and C37: classification of accesses in a loop and combined reports. *)
From Coq Require Import ZArith NArith List Permutation Lia PeanoNat Bool.
From Verif Require Import TraitModel TraitSpec Prop_Trait PrivModel PrivSpec
  PrivProof PrivTraitProof.
Import ListNotations.
Open Scope nat_scope.

(** A location of a loop together with the cells it occupies and the presence of
    a recorded loop-carried dependence. *)
Definition described (bs : list base) (cellsOf : locFacts -> cell -> Prop) (c : cell) : Prop :=
  exists b f, In b bs /\ In f (bLocs b) /\ cellsOf f c.

(** Results of other analyses are true of the loop. *)
Definition inputsTrue (ps : list prog) (m0 : mem) (used : cell -> Prop)
    (bs : list base) (cellsOf : locFacts -> cell -> Prop) : Prop :=
  forall b f, In b bs -> In f (bLocs b) ->
    factsTrue ps m0 used f (cellsOf f) /\
    (bDep b = false -> forall c, cellsOf f c -> noCarried ps m0 c).

Section Proof.
Variables (ps : list prog) (m0 : mem) (used : cell -> Prop).
Variables (bs : list base) (cellsOf : locFacts -> cell -> Prop).
Hypothesis IT : inputsTrue ps m0 used bs cellsOf.
Hypothesis AD : forall i c, i < length ps -> touchesAt ps m0 i c -> described bs cellsOf c.

Lemma elem_good f c dep t : factsTrue ps m0 used f (cellsOf f) ->
  (dep = false -> noCarried ps m0 c) -> cellsOf f c ->
  (forall e, In e (locElems dep f) -> elementAllows e t = true) ->
  goodFor ps m0 used t c.
Proof.
  intros F D C E. destruct (F c C) as (F1 & F2 & F3 & F4 & F5 & F6).
  unfold locElems in E. destruct f as [u df md lo la inv em lm ey].
  cbn [fUse fDef fMayDef fLiveOut fLiveAggr fInvariant fExitMust fLatchMust fExitMay] in *.
  assert (NWC := neverWritten_noCarried ps m0 c).
  destruct u; cbn [negb] in E.
  - destruct (md || df)%bool eqn:W.
    + specialize (E _ (or_introl eq_refl)). destruct dep; cbn in E.
      * destruct t; try discriminate. exact I.
      * specialize (D eq_refl). destruct t; try discriminate; cbn [goodFor]; auto.
    + apply orb_false_elim in W. destruct W as [-> ->]. specialize (F2 eq_refl eq_refl).
      specialize (E _ (or_introl eq_refl)). destruct t; try discriminate; cbn [goodFor]; auto.
  - specialize (F1 eq_refl). destruct (lo || la)%bool eqn:L; cbn [negb] in E.
    + destruct inv; cbn [andb] in E.
      * destruct em.
        -- specialize (F4 eq_refl eq_refl).
           specialize (E _ (or_introl eq_refl)).
           destruct dep; destruct t; try discriminate; cbn [goodFor]; auto.
        -- destruct lm; cbn [andb] in E.
           ++ destruct ey; cbn [negb] in E.
              ** assert (E1 := E _ (or_introl eq_refl)).
                 assert (E2 := E _ (or_intror (or_introl eq_refl))).
                 destruct dep; destruct t; try discriminate; cbn [goodFor]; auto.
              ** specialize (F5 eq_refl eq_refl). specialize (F6 eq_refl eq_refl).
                 assert (E1 := E _ (or_introl eq_refl)).
                 assert (E2 := E _ (or_intror (or_introl eq_refl))).
                 destruct dep; destruct t; try discriminate; cbn [goodFor]; auto.
           ++ assert (E1 := E _ (or_introl eq_refl)).
              assert (E2 := E _ (or_intror (or_introl eq_refl))).
              destruct dep; destruct t; try discriminate; cbn [goodFor]; auto.
      * assert (E1 := E _ (or_introl eq_refl)).
        assert (E2 := E _ (or_intror (or_introl eq_refl))).
        destruct dep; destruct t; try discriminate; cbn [goodFor]; auto.
    + apply orb_false_elim in L. destruct L as [-> ->]. specialize (F3 eq_refl eq_refl).
      specialize (E _ (or_introl eq_refl)).
      destruct dep; destruct t; try discriminate; cbn [goodFor]; auto; tauto.
Qed.

Lemma touches_dec p : forall m x, {touches p m x} + {~ touches p m x}.
Proof.
  induction p as [|c k IH|c v p IH]; intros m x; cbn [touches].
  - now right.
  - destruct (Nat.eq_dec c x); [left; now left|]. destruct (IH (m c) m x); [left; now right|].
    right; tauto.
  - destruct (Nat.eq_dec c x); [left; now left|]. destruct (IH (upd m c v) x); [left; now right|].
    right; tauto.
Qed.
Lemma touched_dec c : forall k, (exists i, i < k /\ touchesAt ps m0 i c) \/
  (forall i, i < k -> ~ touchesAt ps m0 i c).
Proof.
  induction k as [|k IH]; [right; intros; lia|].
  destruct (touches_dec (iter ps k) (startOf ps m0 k) c) as [H|H].
  - left. exists k. split; [lia|exact H].
  - destruct IH as [(i & L & T)|IH]; [left; exists i; split; [lia|exact T]|].
    right. intros i L. destruct (Nat.eq_dec i k); [subst; exact H|apply IH; lia].
Qed.

Lemma described_good t c : (forall b, In b bs -> says (baseWord b) t = true) ->
  described bs cellsOf c -> goodFor ps m0 used t c.
Proof.
  intros S (b & f & Ib & If & C). destruct (IT b f Ib If) as (F & D).
  apply (elem_good f c (bDep b) t F); auto.
  intros e I. destruct (baseWord_says b) as (_ & B). eapply B; eauto.
Qed.

Definition untouched c := forall i, i < length ps -> ~ touchesAt ps m0 i c.
Lemma untouched_facts c : untouched c ->
  noExposed ps m0 c /\ neverWritten ps m0 c /\ noCarried ps m0 c.
Proof.
  intro U. assert (N : neverWritten ps m0 c).
  { intros i L W. apply (U i L). now apply writes_touches. }
  split; [|split; [exact N|now apply neverWritten_noCarried]].
  intros i L E. apply (U i L). now apply exposes_touches.
Qed.

Lemma all_good t : (forall b, In b bs -> says (baseWord b) t = true) ->
  (In t [MakePrivate; CopyOutLast; CopyOutSecondToLast; CopyOutDynamic] ->
   forall c, used c -> described bs cellsOf c) ->
  forall c, goodFor ps m0 used t c.
Proof.
  intros S V c. destruct (touched_dec c (length ps)) as [(i & L & T)|U].
  - apply described_good; auto. eapply AD; eauto.
  - destruct (untouched_facts c U) as (U1 & U2 & U3).
    destruct t; cbn [goodFor]; auto;
      (split; [exact U1|]; intro Us; specialize (V ltac:(cbn; tauto) c Us);
       pose proof (described_good _ c S V) as G; cbn [goodFor] in G;
       destruct G as [_ G]; now apply G).
Qed.
End Proof.

(** ** C36 *)

(** Each treatment which is permitted by the traits reported for a location is
    correct: with this treatment iterations may be executed in any order by any
    number of threads (with any interleaving if the location is shared), all of
    them obtain the same values as in the sequential execution and the values
    used after the loop are the same. *)
Theorem C36_permitted_treatments_are_correct :
  forall ps m0 used bs cellsOf flags d t,
  inputsTrue ps m0 used bs cellsOf ->
  (forall c, (exists i, i < length ps /\ touchesAt ps m0 i c) \/ used c ->
     described bs cellsOf c) ->
  descrOf (memoryWord bs (map flagId flags)) = Some d ->
  classAllows d t = true -> correctWith ps m0 used t.
Proof.
  intros ps m0 used bs cellsOf flags d t IT AD E A.
  rewrite (descrOf_says _ _ _ E) in A.
  destruct (memoryWord_says bs flags) as (_ & S). rewrite S in A.
  rewrite forallb_forall in A. apply goodFor_correct. intro c.
  apply (all_good ps m0 used bs cellsOf IT); auto.
  intros i x L T. apply AD. left. eauto.
Qed.
Print Assumptions C36_permitted_treatments_are_correct.

Theorem C36_classified : forall bs flags, exists d,
  descrOf (memoryWord bs (map flagId flags)) = Some d.
Proof. intros. apply descrOf_total. apply memoryWord_says. Qed.
Print Assumptions C36_classified.

(** What the reported classes say about the executions of the loop, read off
    directly. *)
Theorem C36_reported_classes_are_true :
  forall ps m0 used bs cellsOf flags d,
  inputsTrue ps m0 used bs cellsOf ->
  (forall c, (exists i, i < length ps /\ touchesAt ps m0 i c) \/ used c ->
     described bs cellsOf c) ->
  descrOf (memoryWord bs (map flagId flags)) = Some d ->
  (d TPrivate = true ->
     forall c, noExposed ps m0 c /\ ~ used c) /\
  (d TLastPrivate = true -> d TFirstPrivate = false ->
     forall c, noExposed ps m0 c /\ (used c -> lastWrites ps m0 c)) /\
  (d TReadonly = true -> forall c, neverWritten ps m0 c) /\
  (d TShared = true -> forall c, noCarried ps m0 c).
Proof.
  intros ps m0 used bs cellsOf flags d IT AD E.
  assert (K : forall t, classAllows d t = true -> forall c, goodFor ps m0 used t c).
  { intros t A. rewrite (descrOf_says _ _ _ E) in A.
    destruct (memoryWord_says bs flags) as (_ & S). rewrite S in A.
    rewrite forallb_forall in A.
    apply (all_good ps m0 used bs cellsOf IT); auto. intros i x L T. apply AD. left. eauto. }
  split; [|split; [|split]].
  - intro H. apply (K MakePrivate). cbn. rewrite H. now rewrite orb_true_r.
  - intros H1 H2. apply (K CopyOutLast). cbn. rewrite H1, H2. now rewrite !orb_true_r.
  - intros H c.
    (* read-only permits both sharing and copying in *)
    pose proof (K Share ltac:(cbn; rewrite H; now rewrite !orb_true_r) c) as G1.
    destruct (memoryWord_says bs flags) as (G & S).
    (* each of the locations is classified as read-only *)
    assert (R : forall t, elementAllows (Class KReadonly) t = true -> classAllows d t = true).
    { intros t. destruct t; cbn; try discriminate; intros _; rewrite ?H, ?orb_true_r; auto. }
    destruct (touched_dec ps m0 c (length ps)) as [(i & L & T)|U].
    2: { now apply untouched_facts. }
    assert (D : described bs cellsOf c) by (apply AD; left; eauto).
    destruct D as (b & f & Ib & If & C).
    destruct (IT b f Ib If) as (F & _). destruct (F c C) as (F1 & F2 & _).
    assert (Q : forall t, elementAllows (Class KReadonly) t = true ->
       forall e, In e (locElems (bDep b) f) -> elementAllows e t = true).
    { intros t A e I. specialize (R t A). rewrite (descrOf_says _ _ _ E), S in R.
      rewrite forallb_forall in R. destruct (baseWord_says b) as (_ & B). eapply B; eauto. }
    assert (Q1 := Q Share eq_refl). assert (Q2 := Q CopyIn eq_refl).
    (* treatments of a location with the class private are not excluded by these
       two but the class of the conjunction is *)
    destruct (fUse f) eqn:Fu.
    + destruct (fMayDef f || fDef f)%bool eqn:Fd.
      * unfold locElems in Q2. rewrite Fu, Fd in Q2. cbn [negb] in Q2.
        specialize (Q2 _ (or_introl eq_refl)). destruct (bDep b); discriminate.
      * apply orb_false_elim in Fd. destruct Fd as [F3 F4]. now apply F2.
    + (* a private location: the conjunction is not read-only *)
      exfalso.
      assert (B : dropUnitFlag (memoryWord bs (map flagId flags)) = Readonly).
      { clear -E H G. unfold descrOf in E.
        destruct (toDescriptor _ 0 zero) as [[d' c']|] eqn:T; [|discriminate].
        assert (d' = d) by congruence. subst d'. apply toDescriptor_inv in T.
        destruct T as (ts & T & -> & _). unfold traitsOf in T.
        destruct (classPart _) as [cs|] eqn:C; [|discriminate].
        assert (ts = unitPart (memoryWord bs (map flagId flags)) ++ cs) by congruence. subst ts.
        rewrite fold_dSet in H. cbn [dNone orb] in H. rewrite member_app, unitPart_member in H.
        change (member TReadonly cs = true) in H. rewrite <- classPart_drop in C. destruct G as [_ G].
        revert G C. generalize (dropUnitFlag (memoryWord bs (map flagId flags))). intros w G C.
        assert (X : forallb (fun w => match classPart w with
            | Some cs => implb (member TReadonly cs) (N.eqb w Readonly)
            | None => true end) closed = true) by (vm_compute; reflexivity).
        rewrite forallb_forall in X. specialize (X w G). rewrite C, H in X. cbn in X.
        now apply N.eqb_eq in X. }
      assert (Bit : forall w, In w (map baseWord bs) ->
        N.testbit (memoryWord bs (map flagId flags)) 18 = true -> N.testbit w 18 = true).
      { intros w I. unfold memoryWord, conjunction. clear -I.
        assert (X : forall l a, N.testbit (fold_left tAnd l a) 18 = true -> N.testbit a 18 = true
           /\ forall w, In w l -> N.testbit w 18 = true).
        { induction l as [|y l IH]; intros a Y; [split; [exact Y|intros ? []]|].
          cbn [fold_left] in Y. destruct (IH _ Y) as (Y1 & Y2). unfold tAnd in Y1.
          rewrite N.land_spec in Y1. apply andb_prop in Y1. destruct Y1 as [Y1 Y3].
          split; [exact Y1|]. intros w' [<-|W]; auto. }
        intro H. destruct (X _ _ H) as (H1 & _). destruct (X _ _ H1) as (_ & H2). now apply H2. }
      assert (HB : N.testbit (memoryWord bs (map flagId flags)) 18 = true).
      { assert (T8 : N.testbit (dropUnitFlag (memoryWord bs (map flagId flags))) 18 = true)
          by (rewrite B; reflexivity).
        rewrite dropUnitFlag_1023, N.lor_spec in T8. change (N.testbit 1023 18) with false in T8.
        now rewrite orb_false_r in T8. }
      assert (HW : N.testbit (baseWord b) 18 = true).
      { apply Bit; auto. now apply in_map. }
      assert (HR : N.testbit (resolveBase (bDep b) (bLocs b)) 18 = true).
      { unfold baseWord, resolvePointer in HW.
        destruct (bPtr b) as [[p|]|]; auto; destruct (_ || _ || _)%bool; auto.
        destruct (_ =? _)%N; auto. unfold tAnd in HW. rewrite N.land_spec in HW.
        apply andb_prop in HW. now destruct HW. }
      assert (HL : N.testbit (joinAll (locElems (bDep b) f) NoAccess) 18 = true).
      { clear -HR If. unfold resolveBase in HR.
        assert (X : forall l a, N.testbit (fold_left (resolveLoc (bDep b)) l a) 18 = true ->
          N.testbit a 18 = true /\ forall f, In f l ->
            N.testbit (joinAll (locElems (bDep b) f) NoAccess) 18 = true).
        { induction l as [|y l IH]; intros a Y; [split; [exact Y|intros ? []]|].
          cbn [fold_left] in Y. destruct (IH _ Y) as (Y1 & Y2).
          rewrite resolveLoc_elems in Y1.
          assert (Z : forall es v, N.testbit (joinAll es v) 18 =
              N.testbit v 18 && N.testbit (joinAll es NoAccess) 18).
          { unfold joinAll. intro es. assert (Z : forall es v, N.testbit (fold_left tAnd es v) 18 =
              N.testbit v 18 && forallb (fun e => N.testbit e 18) es).
            { clear. induction es as [|e es IH]; intro v; cbn [fold_left forallb].
              - now rewrite andb_true_r.
              - rewrite IH. unfold tAnd. now rewrite N.land_spec, andb_assoc. }
            intro v. rewrite !Z. reflexivity. }
          rewrite Z in Y1. apply andb_prop in Y1. destruct Y1 as [Y1 Y3].
          split; [exact Y1|]. intros g [<-|W]; auto. }
        destruct (X _ _ HR) as (_ & Y). now apply Y. }
      clear -HL Fu. unfold locElems in HL. rewrite Fu in HL. cbn [negb] in HL.
      destruct (bDep b), (fLiveOut f || fLiveAggr f)%bool, (fInvariant f && fExitMust f)%bool,
        (fInvariant f && fLatchMust f && negb (fExitMay f))%bool; vm_compute in HL; discriminate.
  - intros H. apply (K Share). cbn. rewrite H. now rewrite orb_true_r.
Qed.
Print Assumptions C36_reported_classes_are_true.

(** A location which contains cells not accessed by the loop: after the check
    for incompletely written locations (checkFirstPrivate) the permitted
    treatments do not destroy these cells.  [iCovered i = true]: the test of
    coverage succeeded, see C20.  A location reported as private must not
    contain not accessed cells which are used after the loop. *)
Lemma checkFirst_less i d t :
  classAllows (snd (checkFirstPrivate i d)) t = true -> classAllows d t = true.
Proof.
  unfold checkFirstPrivate.
  destruct (d TFirstPrivate || _)%bool eqn:A; [auto|].
  destruct (iCovered i); [auto|]. cbn [snd]. unfold classAllows, dSet. cbn [trait_eqb].
  apply orb_false_elim in A. destruct A as [A1 A2]. rewrite A1.
  destruct (d TNoAccess), (d TReadonly), (d TPrivate), (d TLastPrivate),
    (d TSecondToLastPrivate), (d TDynamicPrivate), (d TShared); try discriminate A2;
    destruct t; cbn; auto.
Qed.
Lemma emDescr_allows i d d' t : descrOf (iTrait i) = Some d -> emDescr i = Some d' ->
  classAllows d' t = classAllows (snd (checkFirstPrivate i d)) t.
Proof.
  unfold emDescr. intro E. rewrite E. destruct (checkFirstPrivate i d) as (w & e) eqn:C.
  intro H. cbn [snd].
  set (x := dUnsetKinds (withExplicit (iExplicit i) e)) in *.
  assert (X : classAllows x t = classAllows e t).
  { apply classAllows_core. intros y U K. unfold x, dUnsetKinds. rewrite K. cbn [negb andb].
    unfold withExplicit. destruct (iExplicit i); [|reflexivity]. unfold dSet.
    destruct (trait_eqb y TExplicitAccess) eqn:Q; [|reflexivity].
    apply trait_eqb_eq in Q. subst y. exfalso. apply U. cbn. tauto. }
  assert (Y : classAllows (dSetKinds (iKinds i) x) t = classAllows x t).
  { apply classAllows_core. intros y U K. unfold dSetKinds. now rewrite K. }
  assert (d' = if isDependency w then dSetKinds (iKinds i) x else x) by congruence. subst d'.
  destruct (isDependency w); congruence.
Qed.

Theorem C36_incompletely_accessed_location :
  forall ps m0 used bs cellsOf flags i d d' t,
  inputsTrue ps m0 used bs cellsOf ->
  (forall c, (exists i, i < length ps /\ touchesAt ps m0 i c) -> described bs cellsOf c) ->
  (exists b f, In b bs /\ In f (bLocs b)) ->
  iTrait i = memoryWord bs (map flagId flags) ->
  descrOf (iTrait i) = Some d ->
  (iCovered i = true \/ d TPrivate = true -> forall c, used c -> described bs cellsOf c) ->
  emDescr i = Some d' ->
  classAllows d' t = true -> correctWith ps m0 used t.
Proof.
  intros ps m0 used bs cellsOf flags i d d' t IT AD (b0 & f0 & Ib0 & If0) W E CV E' A.
  rewrite (emDescr_allows i d d' t E E') in A.
  pose proof (checkFirst_less i d t A) as A0.
  destruct (memoryWord_says bs flags) as (G & S). rewrite <- W in G, S.
  assert (K : forall t, classAllows d t = true -> forall b, In b bs -> says (baseWord b) t = true).
  { intros t' H. rewrite (descrOf_says _ _ _ E), S in H. now rewrite forallb_forall in H. }
  assert (KI : forall t, (forall e, In e (locElems (bDep b0) f0) -> elementAllows e t = true) \/
     classAllows d t = false).
  { intro t'. destruct (classAllows d t') eqn:H; [left|now right].
    intros e I. destruct (baseWord_says b0) as (_ & B). eapply B; eauto. }
  assert (NA : d TNoAccess = false).
  { destruct (KI Ignore) as [H|H]; [|exact H]. exfalso. clear -H. unfold locElems in H.
    destruct (fUse f0); cbn [negb] in H.
    - destruct (fMayDef f0 || fDef f0)%bool; specialize (H _ (or_introl eq_refl));
        destruct (bDep b0); discriminate.
    - destruct (fLiveOut f0 || fLiveAggr f0)%bool; cbn [negb] in H.
      + destruct (fInvariant f0 && fExitMust f0)%bool.
        * specialize (H _ (or_introl eq_refl)); destruct (bDep b0); discriminate.
        * destruct (fInvariant f0 && fLatchMust f0 && negb (fExitMay f0))%bool;
            specialize (H _ (or_introl eq_refl)); destruct (bDep b0); discriminate.
      + specialize (H _ (or_introl eq_refl)); destruct (bDep b0); discriminate. }
  (* copying out the last value or a dynamic one are permitted simultaneously *)
  assert (DL : classAllows d CopyOutDynamic = true -> classAllows d CopyOutLast = true).
  { intro H. specialize (K _ H). rewrite (descrOf_says _ _ _ E), S. apply forallb_forall.
    intros b Ib. specialize (K b Ib). revert K. clear. unfold baseWord.
    assert (X : forall w, In (dropUnitFlag w) [Dependency] -> fits w ->
      says w CopyOutDynamic = true -> says w CopyOutLast = true).
    { intros w [D|[]] F. rewrite !says_class by (split; [exact F|rewrite <- D; apply inb_In; vm_compute; reflexivity]).
      rewrite <- D. vm_compute. auto. }
    destruct (resolveBase_fold (bDep b) (bLocs b) NoRedundant good_noRedundant) as (G & S).
    change (fold_left (resolveLoc (bDep b)) (bLocs b) NoRedundant)
      with (resolveBase (bDep b) (bLocs b)) in *.
    assert (Y : says (resolveBase (bDep b) (bLocs b)) CopyOutDynamic = true ->
                says (resolveBase (bDep b) (bLocs b)) CopyOutLast = true).
    { rewrite !S, !says_noRedundant. cbn [andb]. rewrite !forallb_forall. intros H f If.
      specialize (H f If). revert H. clear. unfold locElems.
      destruct (bDep b), (fUse f), (fMayDef f || fDef f)%bool, (fLiveOut f || fLiveAggr f)%bool,
        (fInvariant f && fExitMust f)%bool,
        (fInvariant f && fLatchMust f && negb (fExitMay f))%bool; cbn; auto. }
    unfold resolvePointer. destruct (bPtr b) as [[p|]|]; auto; destruct (_ || _ || _)%bool; auto.
    destruct (_ =? _)%N; auto. intro H. rewrite says_and in H by (auto; apply good_dependency).
    apply andb_prop in H. destruct H as [_ H]. vm_compute in H. discriminate. }
  apply goodFor_correct.
  apply (all_good ps m0 used bs cellsOf IT); [intros j x L T; apply AD; eauto|now apply K|].
  intros It c Us.
  assert (Q : iCovered i = true \/ d TPrivate = true); [|now apply CV].
  revert A. unfold checkFirstPrivate.
  destruct (iCovered i); [now left|]. right.
  destruct (d TPrivate) eqn:P; [reflexivity|]. exfalso.
  destruct (d TFirstPrivate || (negb (d TLastPrivate) && negb (d TSecondToLastPrivate)))%bool
    eqn:B; cbn [snd] in A.
  - assert (NL : classAllows d CopyOutLast = false).
    { cbn. rewrite NA, P. cbn [orb]. destruct (d TFirstPrivate), (d TLastPrivate);
        try reflexivity. cbn in B. discriminate. }
    cbn [In] in It. destruct It as [<-|[<-|[<-|[<-|[]]]]].
    + cbn in A. rewrite NA, P in A. discriminate.
    + congruence.
    + cbn in A. rewrite NA, P in A. cbn [orb] in A.
      destruct (d TFirstPrivate), (d TSecondToLastPrivate), (d TLastPrivate); discriminate.
    + rewrite (DL A) in NL. discriminate.
  - cbn [In] in It. destruct It as [<-|[<-|[<-|[<-|[]]]]];
      cbn in A; rewrite NA, P in A; cbn [orb andb negb] in A;
      rewrite ?andb_false_r in A; discriminate.
Qed.
Print Assumptions C36_incompletely_accessed_location.

(** The hypotheses are met: for (i = 0; i < 3; ++i) { t = i; s = s' + t; } where
    the cell 0 is t, used after the loop, the cell 1 is s', which is only read. *)
Definition sampleBody (i : Z) : prog :=
  Write 0 i (Read 0 (fun v => Read 1 (fun w => Done))).
Definition sampleLoop : list prog := [sampleBody 0; sampleBody 1; sampleBody 2].
Definition sampleLast : locFacts :=
  mkFacts false true false true false true true true true.
Definition sampleRead : locFacts :=
  mkFacts true false false true false true false false false.
Definition sampleBases : list base :=
  [mkBase true [sampleLast] None; mkBase false [sampleRead] (Some None)].
Definition sampleCells (f : locFacts) (c : cell) : Prop :=
  c = if fUse f then 1 else 0.
Example C36_sample : forall m0,
  inputsTrue sampleLoop m0 (fun c => c < 2) sampleBases sampleCells /\
  (forall c, (exists i, i < 3 /\ touchesAt sampleLoop m0 i c) \/ c < 2 ->
     described sampleBases sampleCells c) /\
  exists d, descrOf (memoryWord sampleBases (map flagId [THeaderAccess])) = Some d /\
    d TFirstPrivate = true /\ d TLastPrivate = true /\
    classAllows d CopyInOutLast = true /\ classAllows d CopyOutLast = false /\
    classAllows d Share = false.
Proof.
  intro m0. split; [|split].
  - intros b f Ib If.
    assert (X : forall i, i < 3 -> i = 0 \/ i = 1 \/ i = 2) by lia.
    destruct Ib as [<-|[<-|[]]]; destruct If as [<-|[]]; split; try discriminate.
    + intros c C. change (c = 0) in C. subst c. repeat split; try discriminate.
      * intros _ i L. destruct (X i L) as [->|[->| ->]]; cbn; intros (E & _); now apply E.
      * intros _ _ _. cbn. now left.
      * intros _ _ i L. destruct (X i) as [->|[->| ->]]; [cbn in L; lia|..]; cbn; now left.
    + intros c C. change (c = 1) in C. subst c. repeat split; try discriminate.
      * intros _ _ i L. destruct (X i L) as [->|[->| ->]]; cbn; intros [E|[]]; discriminate.
      * intros _ _ _. cbn. intros [E|[]]. discriminate.
    + intros _ c C. change (c = 1) in C. subst c. intros i j Li Lj _ W.
      exfalso. destruct (X i Li) as [->|[->| ->]]; cbn in W; destruct W as [E|[]]; discriminate.
  - intros c H.
    assert (L : c < 2).
    { destruct H as [(i & L & T)|L]; [|exact L].
      assert (X : i = 0 \/ i = 1 \/ i = 2) by lia.
      destruct X as [->|[->| ->]]; cbn in T; intuition lia. }
    destruct c as [|[|c]]; [| |lia].
    + exists (mkBase true [sampleLast] None), sampleLast.
      repeat split; cbn; auto.
    + exists (mkBase false [sampleRead] (Some None)), sampleRead.
      repeat split; cbn; auto.
  - eexists. split; [reflexivity|]. repeat split; reflexivity.
Qed.

(** ** C37 *)

(** All words which are stored are combinations of elementary traits. *)
Definition combinedWord (w : N) : Prop := exists c : combination, w = combine c.

Lemma combinedWord_good w : combinedWord w -> good w.
Proof. intros (c & ->). apply good_combine. Qed.

Lemma shared_bit w : hasSharedJoin w = N.testbit w 10.
Proof.
  rewrite <- shared_drop. unfold hasSharedJoin, tAnd. rewrite <- !N.land_assoc.
  change (N.land SharedJoin AllUnitFlags) with (2 ^ 10)%N. rewrite land_pow2_0, negb_involutive.
  rewrite dropUnitFlag_1023, N.lor_spec. change (N.testbit 1023 10) with false.
  apply orb_false_r.
Qed.
Lemma shared_says w t : good w -> hasSharedJoin w = true ->
  elementAllows (Class KShared) t = true -> says w t = true.
Proof.
  intros G H A. rewrite says_class by exact G. rewrite <- shared_drop in H.
  destruct G as [_ G]. revert G H. generalize (dropUnitFlag w). clear w. intros w G H.
  assert (T : forallb (fun w => forallb (fun t =>
      implb (hasSharedJoin w && elementAllows (Class KShared) t)
        (match classPart w with
         | Some ts => classAllows (fun x => member x ts) t | None => false end))
      allTreatments) closed = true) by (vm_compute; reflexivity).
  rewrite forallb_forall in T. specialize (T w G).
  rewrite forallb_forall in T. specialize (T t (allTreatments_all t)).
  rewrite H, A in T. exact T.
Qed.
Lemma shared_conj ws : forall a, hasSharedJoin (fold_left tAnd ws a) = true ->
  hasSharedJoin a = true /\ forall w, In w ws -> hasSharedJoin w = true.
Proof.
  induction ws as [|x ws IH]; intros a H; [split; [exact H|intros ? []]|].
  cbn [fold_left] in H. destruct (IH _ H) as (A & B). rewrite shared_bit in A.
  unfold tAnd in A. rewrite N.land_spec in A. apply andb_prop in A. destruct A as [A1 A2].
  rewrite shared_bit. split; [exact A1|]. intros w [<-|I]; [now rewrite shared_bit|auto].
Qed.

Lemma mask_drop w x : In x [NoAccess; Readonly; Shared; Dependency] -> fits w ->
  dropUnitFlag (tAnd (tOr w AllUnitFlags) x) = x /\ fits (tAnd (tOr w AllUnitFlags) x) /\
  forall t, In t unitTraits -> flagSet (tAnd (tOr w AllUnitFlags) x) t = flagSet w t.
Proof.
  intros I F.
  assert (U : dropUnitFlag (tOr w AllUnitFlags) = NoAccess).
  { rewrite dropUnitFlag_1023. unfold tOr. rewrite <- N.lor_assoc.
    change (N.lor AllUnitFlags 1023) with NoAccess. unfold fits in F.
    apply N.bits_inj. intro n. rewrite N.lor_spec. rewrite <- F, N.land_spec.
    destruct (N.testbit w n), (N.testbit NoAccess n); reflexivity. }
  split; [|split].
  - rewrite drop_and, U. unfold tAnd. cbn [In] in I.
    destruct I as [<-|[<-|[<-|[<-|[]]]]]; reflexivity.
  - unfold fits, tAnd. rewrite <- N.land_assoc. f_equal. cbn [In] in I.
    destruct I as [<-|[<-|[<-|[<-|[]]]]]; reflexivity.
  - intros t J. rewrite flagSet_and by exact J.
    assert (X0 : flagSet x t = false).
    { cbn [In] in I. destruct I as [<-|[<-|[<-|[<-|[]]]]]; destruct t; reflexivity. }
    rewrite X0, orb_false_r. rewrite !flagSet_bit by exact J. f_equal.
    unfold tOr. rewrite N.lor_spec.
    replace (N.testbit AllUnitFlags (flagBit t)) with false; [apply orb_false_r|].
    cbn [In unitTraits] in J. 
    repeat (destruct J as [<-|J]; [reflexivity|]). destruct J.
Qed.

Lemma combined_says ws : (forall w, In w ws -> good w) ->
  good (combinedTrait ws) /\
  (forall t, says (combinedTrait ws) t = true -> forall w, In w ws -> says w t = true) /\
  (forall t, In t unitTraits -> forall w, In w ws -> flagSet w t = true ->
     flagSet (combinedTrait ws) t = true).
Proof.
  intro H. destruct (conjunction_says ws H) as (G & S).
  assert (FL : forall t, In t unitTraits -> forall w, In w ws -> flagSet w t = true ->
     flagSet (conjunction ws) t = true).
  { intros t U w I F. unfold conjunction.
    assert (X : forall l a, (flagSet a t = true \/ In w l) -> flagSet (fold_left tAnd l a) t = true).
    { induction l as [|x l IH]; intros a [A|A]; cbn [fold_left]; auto; try contradiction.
      - apply IH. left. rewrite flagSet_and by exact U. now rewrite A.
      - destruct A as [->|A]; apply IH; [left|now right].
        rewrite flagSet_and by exact U. now rewrite F, orb_true_r. }
    apply X. now right. }
  assert (SW : forall t, says (conjunction ws) t = true -> forall w, In w ws -> says w t = true).
  { intros t A w I. rewrite S in A. rewrite forallb_forall in A. now apply A. }
  unfold combinedTrait. destruct (Nat.ltb 1 _); [|auto].
  set (x := if (dropUnitFlag (conjunction ws) =? NoAccess)%N then NoAccess else _).
  assert (Ix : In x [NoAccess; Readonly; Shared; Dependency]).
  { unfold x. destruct (_ =? _)%N; [cbn; tauto|]. destruct (_ =? _)%N; [cbn; tauto|].
    destruct (hasSharedJoin _); cbn; tauto. }
  destruct (mask_drop (conjunction ws) x Ix (proj1 G)) as (D & F & U).
  assert (Gx : good (tAnd (tOr (conjunction ws) AllUnitFlags) x)).
  { split; [exact F|]. rewrite D. cbn [In] in Ix. apply inb_In.
    destruct Ix as [<-|[<-|[<-|[<-|[]]]]]; reflexivity. }
  split; [exact Gx|]. split.
  - intros t A. rewrite says_class, D in A by exact Gx. unfold x in A.
    destruct (N.eqb_spec (dropUnitFlag (conjunction ws)) NoAccess) as [E|_].
    { apply SW. rewrite says_class by exact G. now rewrite E. }
    destruct (N.eqb_spec (dropUnitFlag (conjunction ws)) Readonly) as [E|_].
    { apply SW. rewrite says_class by exact G. now rewrite E. }
    destruct (hasSharedJoin (conjunction ws)) eqn:HS.
    { intros w I. apply shared_says.
      - now apply H.
      - unfold conjunction in HS. apply shared_conj in HS. now apply HS.
      - destruct t; vm_compute in A; try discriminate; reflexivity. }
    destruct t; vm_compute in A; try discriminate. intros w I.
    rewrite says_class by auto. destruct (classPart_total w (H w I)) as (ts & E).
    rewrite classPart_drop, E. reflexivity.
  - intros t J w I Fw. rewrite U by exact J. now apply (FL t J w I).
Qed.

Lemma optMap_In (A B : Type) (f : A -> option B) l : forall bs, optMap f l = Some bs ->
  forall b, In b bs -> exists a, In a l /\ f a = Some b.
Proof.
  induction l as [|a l IH]; intros bs; cbn [optMap].
  - intro E. assert (bs = []) by congruence. subst. intros b [].
  - destruct (f a) as [b0|] eqn:F; [|discriminate]. destruct (optMap f l) as [l'|]; [|discriminate].
    intro E. assert (bs = b0 :: l') by congruence. subst. intros b [<-|I].
    + exists a. split; [now left|exact F].
    + destruct (IH l' eq_refl b I) as (x & X & Y). exists x. split; [now right|exact Y].
Qed.
Lemma optMap_total (A B : Type) (f : A -> option B) l :
  (forall a, In a l -> exists b, f a = Some b) -> exists bs, optMap f l = Some bs.
Proof.
  induction l as [|a l IH]; intro H; cbn [optMap]; [eauto|].
  destruct (H a (or_introl eq_refl)) as (b & ->).
  destruct IH as (bs & ->); [intros x I; apply H; now right|]. eauto.
Qed.

(** The entry never permits a treatment which is forbidden by a stored location
    or unknown access, contains all their flags and kinds of dependences.
    Missing (see the refutation below): locations for which the check of
    incompletely written locations adds the trait 'first private'. *)
Definition notCorrected (i : emItem) : Prop :=
  iCovered i = true \/
  forall d, descrOf (iTrait i) = Some d ->
    d TFirstPrivate = true \/ (d TLastPrivate = false /\ d TSecondToLastPrivate = false).
Theorem C37_entry_is_not_more_permissive_partial :
  forall is us node ds us',
  (forall i, In i is -> combinedWord (iTrait i)) ->
  (forall u, In u us -> combinedWord (uTrait u)) ->
  (forall i, In i is -> notCorrected i) ->
  storeResults is us = Some (Some (node, ds, us')) ->
  forall d, In d (ds ++ us') ->
    (forall t, classAllows node t = true -> classAllows d t = true) /\
    (forall t, In t unitTraits \/ isKind t = true -> d t = true -> node t = true).
Proof.
  intros is us node ds us' GI GU NC E d Id.
  set (ws := map iTrait is ++ map uTrait us).
  assert (GW : forall w, In w ws -> good w).
  { intros w I. apply in_app_or in I. destruct I as [I|I]; apply in_map_iff in I;
      destruct I as (x & <- & I); apply combinedWord_good; auto. }
  assert (EM : forall i e, In i is -> emDescr i = Some e -> exists d0,
     descrOf (iTrait i) = Some d0 /\ checkFirstPrivate i d0 = (iTrait i, d0) /\
     (forall t, classAllows e t = says (iTrait i) t) /\
     (forall t, In t unitTraits -> e t = true -> flagSet (iTrait i) t = true \/
        t = TExplicitAccess /\ iExplicit i = true) /\
     (forall t, isKind t = true -> e t = true -> isDependency (iTrait i) = true /\ iKinds i t = true)).
  { intros i e I H. pose proof (combinedWord_good _ (GI i I)) as G.
    destruct (descrOf_total _ G) as (d0 & D0). exists d0. split; [exact D0|].
    assert (CF : checkFirstPrivate i d0 = (iTrait i, d0)).
    { unfold checkFirstPrivate. destruct (NC i I) as [C|C].
      - rewrite C. now destruct (_ || _)%bool.
      - destruct (C d0 D0) as [X|[X Y]]; rewrite X; [reflexivity|]. rewrite Y. cbn.
        now rewrite orb_true_r. }
    split; [exact CF|]. split; [|split].
    - intro t. rewrite (emDescr_allows i d0 e t D0 H), CF. cbn [snd]. now apply descrOf_says.
    - intros t U F. unfold emDescr in H. rewrite D0, CF in H.
      assert (X : e t = withExplicit (iExplicit i) d0 t).
      { assert (NK : isKind t = false).
        { cbn [In unitTraits] in U. repeat (destruct U as [<-|U]; [reflexivity|]). destruct U. }
        assert (e = (if isDependency (iTrait i)
          then dSetKinds (iKinds i) (dUnsetKinds (withExplicit (iExplicit i) d0))
          else dUnsetKinds (withExplicit (iExplicit i) d0))) by congruence. subst e.
        destruct (isDependency (iTrait i)); unfold dSetKinds, dUnsetKinds; rewrite NK; reflexivity. }
      rewrite X in F. unfold withExplicit in F. destruct (iExplicit i).
      + unfold dSet in F. destruct (trait_eqb t TExplicitAccess) eqn:Q.
        * apply trait_eqb_eq in Q. right. auto.
        * left. now rewrite <- (descrOf_flags _ d0 t G D0 U).
      + left. now rewrite <- (descrOf_flags _ d0 t G D0 U).
    - intros t K F. unfold emDescr in H. rewrite D0, CF in H.
      destruct (isDependency (iTrait i)) eqn:Dp.
      + assert (e = dSetKinds (iKinds i) (dUnsetKinds (withExplicit (iExplicit i) d0))) by congruence.
        subst e. unfold dSetKinds, dUnsetKinds in F. rewrite K in F. cbn [negb andb] in F.
        rewrite orb_false_r in F. auto.
      + assert (e = dUnsetKinds (withExplicit (iExplicit i) d0)) by congruence. subst e.
        unfold dUnsetKinds in F. rewrite K in F. discriminate. }
  assert (Main : forall ds0 us0 d0,
    optMap emDescr is = Some ds0 -> optMap unDescr us = Some us0 ->
    descrOf (combinedTrait ws) = Some d0 -> In d (ds0 ++ us0) ->
    let nd := withExplicit (existsb iExplicit is || existsb uExplicit us)
       (dSetKinds (combinedKinds is us) (dUnsetKinds d0)) in
    (forall t, classAllows nd t = true -> classAllows d t = true) /\
    (forall t, In t unitTraits \/ isKind t = true -> d t = true -> nd t = true)).
  { intros ds0 us0 d0 E1 E2 E3 I nd.
    destruct (combined_says ws GW) as (G & S & F).
    assert (NA : forall t, classAllows nd t = says (combinedTrait ws) t).
    { intro t. rewrite <- (descrOf_says _ _ _ E3). apply classAllows_core. intros y U K.
      unfold nd, withExplicit. destruct (_ || _)%bool.
      - unfold dSet. destruct (trait_eqb y TExplicitAccess) eqn:Q.
        + apply trait_eqb_eq in Q. subst y. exfalso. apply U. cbn. tauto.
        + unfold dSetKinds, dUnsetKinds. now rewrite K.
      - unfold dSetKinds, dUnsetKinds. now rewrite K. }
    assert (NF : forall t, In t unitTraits -> flagSet (combinedTrait ws) t = true -> nd t = true).
    { intros t U Ft. assert (NK : isKind t = false).
      { cbn [In unitTraits] in U. repeat (destruct U as [<-|U]; [reflexivity|]). destruct U. }
      unfold nd, withExplicit, dSet. rewrite <- (descrOf_flags _ d0 t G E3 U) in Ft.
      destruct (_ || _)%bool; [destruct (trait_eqb t TExplicitAccess); [reflexivity|]|];
        unfold dSetKinds, dUnsetKinds; now rewrite NK, Ft. }
    assert (NK : forall t, isKind t = true -> combinedKinds is us t = true -> nd t = true).
    { intros t K C. unfold nd, withExplicit, dSet.
      destruct (_ || _)%bool; [destruct (trait_eqb t TExplicitAccess); [reflexivity|]|];
        unfold dSetKinds; now rewrite K, C. }
    apply in_app_or in I. destruct I as [I|I].
    - destruct (optMap_In _ _ _ _ _ E1 d I) as (i & Ii & Ei).
      destruct (EM i d Ii Ei) as (di & D1 & D2 & D3 & D4 & D5).
      assert (Iw : In (iTrait i) ws) by (apply in_or_app; left; now apply in_map).
      split.
      + intros t A. rewrite NA in A. rewrite D3. now apply (S t A).
      + intros t [U|K] Dt.
        * destruct (D4 t U Dt) as [Ft|[-> Xi]].
          -- apply NF; auto. now apply (F t U _ Iw).
          -- unfold nd, withExplicit.
             assert (XX : existsb iExplicit is = true) by (apply existsb_exists; eauto).
             rewrite XX. reflexivity.
        * destruct (D5 t K Dt) as (Dp & Ki). apply NK; auto. unfold combinedKinds.
          rewrite K. cbn [andb]. apply orb_true_intro. left. apply existsb_exists.
          exists i. split; [exact Ii|]. rewrite D1, D2. cbn [fst]. now rewrite Dp, Ki.
    - destruct (optMap_In _ _ _ _ _ E2 d I) as (u & Iu & Eu).
      assert (Iw : In (uTrait u) ws) by (apply in_or_app; right; now apply in_map).
      unfold unDescr in Eu. destruct (descrOf (uTrait u)) as [du|] eqn:Du; [|discriminate].
      assert (d = withExplicit (uExplicit u) du) by congruence. subst d.
      pose proof (combinedWord_good _ (GU u Iu)) as Gu.
      split.
      + intros t A. rewrite NA in A. 
        assert (X : classAllows (withExplicit (uExplicit u) du) t = classAllows du t).
        { apply classAllows_core. intros y U K. unfold withExplicit. destruct (uExplicit u); auto.
          unfold dSet. destruct (trait_eqb y TExplicitAccess) eqn:Q; auto.
          apply trait_eqb_eq in Q. subst y. exfalso. apply U. cbn. tauto. }
        rewrite X, (descrOf_says _ _ _ Du). now apply (S t A).
      + intros t [U|K] Dt.
        * unfold withExplicit in Dt. destruct (uExplicit u) eqn:Xu.
          -- unfold dSet in Dt. destruct (trait_eqb t TExplicitAccess) eqn:Q.
             ++ apply trait_eqb_eq in Q. subst t. unfold nd, withExplicit.
                assert (XX : existsb uExplicit us = true) by (apply existsb_exists; eauto).
                rewrite XX, orb_true_r. reflexivity.
             ++ apply NF; auto. apply (F t U _ Iw). now rewrite <- (descrOf_flags _ du t Gu Du U).
          -- apply NF; auto. apply (F t U _ Iw). now rewrite <- (descrOf_flags _ du t Gu Du U).
        * apply NK; auto. unfold combinedKinds. rewrite K. cbn [andb]. apply orb_true_intro.
          right. apply existsb_exists. exists u. split; [exact Iu|].
          assert (Dt' : du t = true).
          { unfold withExplicit in Dt. destruct (uExplicit u); auto. unfold dSet in Dt.
            destruct (trait_eqb t TExplicitAccess) eqn:Q; auto.
            apply trait_eqb_eq in Q. subst t. discriminate. }
          clear -Gu Du Dt' K. unfold descrOf in Du.
          destruct (toDescriptor (uTrait u) 0 zero) as [[d' c']|] eqn:T; [|discriminate].
          assert (d' = du) by congruence. subst d'. apply toDescriptor_inv in T.
          destruct T as (ts & T & -> & _). unfold traitsOf in T.
          destruct (classPart (uTrait u)) as [cs|] eqn:C; [|discriminate].
          assert (ts = unitPart (uTrait u) ++ cs) by congruence. subst ts.
          rewrite fold_dSet in Dt'. cbn [dNone orb] in Dt'.
          rewrite member_app, unitPart_member in Dt'.
          assert (Fz : flagSet (uTrait u) t = false) by (destruct t; try discriminate; reflexivity).
          rewrite Fz in Dt'. cbn [orb] in Dt'. rewrite <- classPart_drop in C.
          unfold isDependency. destruct Gu as [_ Gu]. revert Gu C.
          generalize (dropUnitFlag (uTrait u)). intros w Gw C.
          assert (X : forallb (fun w => match classPart w with
            | Some cs => implb (member TFlow cs || member TAnti cs || member TOutput cs)
                           (N.eqb w Dependency)
            | None => true end) closed = true) by (vm_compute; reflexivity).
          rewrite forallb_forall in X. specialize (X w Gw). rewrite C in X.
          destruct t; try discriminate; rewrite Dt', ?orb_true_r in X; exact X. }
  assert (General : match optMap emDescr is, optMap unDescr us, descrOf (combinedTrait ws) with
      | Some ds0, Some us0, Some d0 =>
         Some (Some (withExplicit (existsb iExplicit is || existsb uExplicit us)
                        (dSetKinds (combinedKinds is us) (dUnsetKinds d0)), ds0, us0))
      | _, _, _ => None
      end = Some (Some (node, ds, us')) ->
    (forall t, classAllows node t = true -> classAllows d t = true) /\
    (forall t, In t unitTraits \/ isKind t = true -> d t = true -> node t = true)).
  { destruct (optMap emDescr is) as [ds0|]; [|discriminate].
    destruct (optMap unDescr us) as [us0|]; [|discriminate].
    destruct (descrOf (combinedTrait ws)) as [d0|]; [|discriminate].
    intro H. assert (ds0 = ds) by congruence. assert (us0 = us') by congruence. subst ds0 us0.
    pose proof (Main ds us' d0 eq_refl eq_refl eq_refl Id) as M. cbv zeta in M.
    assert (N : withExplicit (existsb iExplicit is || existsb uExplicit us)
       (dSetKinds (combinedKinds is us) (dUnsetKinds d0)) = node) by congruence.
    now rewrite N in M. }
  unfold storeResults in E. fold ws in E.
  destruct is as [|i [|i2 is]]; [destruct us as [|u us]|destruct us as [|u us]|];
    try discriminate; try (apply General; exact E).
  destruct (emDescr i) as [e|] eqn:Ee; [|discriminate].
  assert (ds = [e]) by congruence. assert (us' = []) by congruence. assert (node = e) by congruence.
  subst. cbn in Id. destruct Id as [<-|[]]. auto.
Qed.
Print Assumptions C37_entry_is_not_more_permissive_partial.

(** The entry is always stored: no combination of bits is unreachable. *)
Theorem C37_stored : forall is us,
  (forall i, In i is -> combinedWord (iTrait i)) ->
  (forall u, In u us -> combinedWord (uTrait u)) ->
  exists r, storeResults is us = Some r /\
    (r = None <-> is = [] /\ us = []) /\
    forall node ds us', r = Some (node, ds, us') ->
      length ds = length is /\ length us' = length us.
Proof.
  intros is us GI GU.
  assert (EI : forall i, In i is -> exists e, emDescr i = Some e).
  { intros i I. destruct (descrOf_total _ (combinedWord_good _ (GI i I))) as (d & D).
    unfold emDescr. rewrite D. destruct (checkFirstPrivate i d) as (w & d'). eauto. }
  assert (EU : forall u, In u us -> exists e, unDescr u = Some e).
  { intros u I. destruct (descrOf_total _ (combinedWord_good _ (GU u I))) as (d & D).
    unfold unDescr. rewrite D. eauto. }
  assert (LN : forall (A B : Type) (f : A -> option B) l bs, optMap f l = Some bs -> length bs = length l).
  { induction l as [|a l IH]; intros bs; cbn [optMap].
    - intro E. assert (bs = []) by congruence. now subst.
    - destruct (f a) as [b|]; [|discriminate]. destruct (optMap f l) as [l'|]; [|discriminate].
      intro E. assert (bs = b :: l') by congruence. subst. cbn. f_equal. now apply IH. }
  destruct (optMap_total _ _ _ _ EI) as (ds & DS). destruct (optMap_total _ _ _ _ EU) as (us' & US).
  assert (G : good (combinedTrait (map iTrait is ++ map uTrait us))).
  { apply combined_says. intros w I. apply in_app_or in I. destruct I as [I|I]; apply in_map_iff in I;
      destruct I as (x & <- & I); apply combinedWord_good; auto. }
  destruct (descrOf_total _ G) as (d0 & D0).
  assert (Gen : (is <> [] \/ us <> []) -> exists r, (match optMap emDescr is, optMap unDescr us,
      descrOf (combinedTrait (map iTrait is ++ map uTrait us)) with
      | Some ds0, Some us0, Some d0 =>
         Some (Some (withExplicit (existsb iExplicit is || existsb uExplicit us)
                        (dSetKinds (combinedKinds is us) (dUnsetKinds d0)), ds0, us0))
      | _, _, _ => None
      end) = Some r /\ (r = None <-> is = [] /\ us = []) /\
    forall node ds us', r = Some (node, ds, us') ->
      length ds = length is /\ length us' = length us).
  { intro NE. rewrite DS, US, D0. eexists. split; [reflexivity|]. split.
    - split; [discriminate|]. intros [A B]. exfalso. destruct NE; contradiction.
    - intros node ds1 us1 E. assert (ds1 = ds) by congruence. assert (us1 = us') by congruence.
      subst. split; eapply LN; eauto. }
  unfold storeResults.
  destruct is as [|i [|i2 is]]; [destruct us as [|u us]|destruct us as [|u us]|];
    try (apply Gen; first [left; discriminate|right; discriminate]).
  - exists None. split; [reflexivity|]. split; [tauto|]. intros; discriminate.
  - destruct (EI i (or_introl eq_refl)) as (e & ->). eexists. split; [reflexivity|]. split.
    + split; [discriminate|]. intros [A _]. discriminate.
    + intros node ds1 us1 E. assert (ds1 = [e]) by congruence. assert (us1 = []) by congruence.
      subst. auto.
Qed.
Print Assumptions C37_stored.

Definition noKinds : trait -> bool := fun _ => false.
Definition kindsFlow : trait -> bool := fun t => trait_eqb t TFlow.

(** A node with a location reported as shared and last private, one which is
    read-only, one with a flow dependence, and an unknown call. *)
Definition sampleItems : list emItem :=
  [mkItem (tAnd (tOr LastPrivate SharedJoin) NoRedundant) true true noKinds;
   mkItem (tAnd Readonly AddressAccess) true false noKinds;
   mkItem (tAnd Dependency HeaderAccess) true true kindsFlow].
Example C37_sample :
  (forall i, In i sampleItems -> combinedWord (iTrait i)) /\
  (forall i, In i sampleItems -> notCorrected i) /\
  combinedWord (resolveUnknown true) /\ combinedWord (resolveUnknown false) /\
  (exists node ds us, storeResults sampleItems [mkUn (resolveUnknown true) true] =
      Some (Some (node, ds, us)) /\
    node TFlow = true /\ node TAnti = false /\ node TAddressAccess = true /\
    node THeaderAccess = true /\ node TExplicitAccess = true /\
    classAllows node Share = false) /\
  (exists node ds us, storeResults (firstn 2 sampleItems) [mkUn (resolveUnknown true) false] =
      Some (Some (node, ds, us)) /\
    node TShared = true /\ classAllows node Share = true /\
    classAllows node CopyOutLast = false).
Proof.
  split; [|split; [|split; [|split; [|split]]]].
  - intros i I. cbn [In sampleItems] in I. destruct I as [<-|[<-|[<-|[]]]].
    + now exists (Both (Leaf (Class (KLast true))) (Leaf (Flag TNoRedundant))).
    + now exists (Both (Leaf (Class KReadonly)) (Leaf (Flag TAddressAccess))).
    + now exists (Both (Leaf (Class KDependency)) (Leaf (Flag THeaderAccess))).
  - intros i I. left. cbn [In sampleItems] in I. destruct I as [<-|[<-|[<-|[]]]]; reflexivity.
  - now exists (Both (Leaf (Class KReadonly)) (Leaf (Flag TNoRedundant))).
  - now exists (Both (Leaf (Class KDependency)) (Leaf (Flag TNoRedundant))).
  - eexists _, _, _. split; [reflexivity|]. repeat split; reflexivity.
  - eexists _, _, _. split; [reflexivity|]. repeat split; reflexivity.
Qed.

(** The full statement is false.  A structure with one field written by the last
    iteration, together with a variable whose address is only taken: the
    conjunction is computed before the check of incompletely written locations,
    so the entry permits to copy out the whole structure without copying it in
    although the stored trait of the structure forbids this. *)
Theorem C37_entry_is_not_more_permissive_refuted :
  exists is node ds us,
    (forall i, In i is -> combinedWord (iTrait i)) /\
    storeResults is [] = Some (Some (node, ds, us)) /\
    classAllows node CopyOutLast = true /\ node TFirstPrivate = false /\
    exists d, In d ds /\ classAllows d CopyOutLast = false /\ d TFirstPrivate = true.
Proof.
  exists [mkItem LastPrivate false false noKinds; mkItem (tAnd NoAccess AddressAccess) false false noKinds].
  eexists _, _, _. split; [|split; [reflexivity|]].
  - intros i [<-|[<-|[]]].
    + now exists (Leaf (Class (KLast false))).
    + now exists (Both (Leaf (Class KNoAccess)) (Leaf (Flag TAddressAccess))).
  - split; [reflexivity|]. split; [reflexivity|].
    eexists. split; [left; reflexivity|]. split; reflexivity.
Qed.
Print Assumptions C37_entry_is_not_more_permissive_refuted.

(** Two locations which may overlap, one is private (written, never read) and
    one is read-only: their classes are not compatible, but the entry reports
    none of the kinds of dependences, it has no class at all. *)
Theorem C37_dependence_is_reported_refuted :
  exists is node ds us,
    (forall i, In i is -> combinedWord (iTrait i) /\ notCorrected i) /\
    storeResults is [] = Some (Some (node, ds, us)) /\
    (forall t, t <> Serialize -> classAllows node t = false) /\
    (forall t, isKind t = true -> node t = false).
Proof.
  exists [mkItem Private true true noKinds; mkItem Readonly true true noKinds].
  eexists _, _, _. split; [|split; [reflexivity|]].
  - intros i [<-|[<-|[]]]; (split; [|left; reflexivity]).
    + now exists (Leaf (Class (KPrivate false))).
    + now exists (Leaf (Class KReadonly)).
  - split; intros t H; destruct t; try reflexivity; try discriminate. now exfalso.
Qed.
Print Assumptions C37_dependence_is_reported_refuted.
