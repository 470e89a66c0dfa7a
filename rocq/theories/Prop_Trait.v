(** Properties C14-C16 of traits of memory locations. *)
From Coq Require Import NArith Bool List Permutation Lia.
From Verif Require Import TraitModel TraitSpec.
Import ListNotations.
Open Scope N_scope.

(** ** Auxiliary facts *)

Lemma trait_eqb_eq a b : trait_eqb a b = true <-> a = b.
Proof. destruct a, b; cbn; split; intro H; try reflexivity; try discriminate. Qed.

Definition allTraits : list trait :=
  unitTraits ++
  [TNoAccess; TReadonly; TReduction; TInduction; TFlow; TAnti; TOutput;
   TPrivate; TShared; TLastPrivate; TFirstPrivate; TSecondToLastPrivate;
   TDynamicPrivate].
Lemma allTraits_all t : In t allTraits.
Proof. destruct t; cbn; tauto. Qed.
Definition allTreatments : list treatment :=
  [Ignore; Share; MakePrivate; CopyIn; CopyOutLast; CopyOutSecondToLast;
   CopyOutDynamic; CopyInOutLast; CopyInOutSecondToLast; CopyInOutDynamic;
   Reduce; Induct; Serialize].
Lemma allTreatments_all t : In t allTreatments.
Proof. destruct t; cbn; tauto. Qed.
Definition bools := [false; true].
Definition allClasses : list class :=
  [KNoAccess; KReadonly; KShared; KDependency; KReduction; KInduction] ++
  flat_map (fun b => [KPrivate b; KFirst b; KLast b; KSecond b; KDynamic b]) bools.
Lemma allClasses_all c : In c allClasses.
Proof. destruct c; try destruct shared; cbn; tauto. Qed.

(* the classes closed under combination, with all flag bits set *)
Definition closed : list N :=
  [NoAccess; Readonly; Shared; Dependency; Reduction; Induction] ++
  flat_map (fun s => map (markShared s)
    [Private; FirstPrivate; LastPrivate; SecondToLastPrivate; DynamicPrivate;
     tAnd FirstPrivate LastPrivate; tAnd FirstPrivate SecondToLastPrivate;
     tAnd FirstPrivate DynamicPrivate]) bools.
Definition inb (x : N) (l : list N) : bool := existsb (N.eqb x) l.
Lemma inb_In x l : inb x l = true <-> In x l.
Proof.
  unfold inb. rewrite existsb_exists. split.
  - intros (y & I & E). apply N.eqb_eq in E. now subst.
  - intro I. exists x. split; [exact I|]. apply N.eqb_refl.
Qed.

Definition fits (w : N) : Prop := N.land w NoAccess = w.
Definition good (w : N) : Prop := fits w /\ In (dropUnitFlag w) closed.

Lemma dropUnitFlag_1023 w : dropUnitFlag w = N.lor w 1023.
Proof. reflexivity. Qed.
Lemma drop_and a b :
  dropUnitFlag (tAnd a b) = tAnd (dropUnitFlag a) (dropUnitFlag b).
Proof. rewrite !dropUnitFlag_1023. unfold tAnd. apply N.lor_land_distr_l. Qed.
Lemma drop_idem w : dropUnitFlag (dropUnitFlag w) = dropUnitFlag w.
Proof.
  rewrite !dropUnitFlag_1023, <- N.lor_assoc. reflexivity.
Qed.

Lemma closed_and a b : In a closed -> In b closed -> In (tAnd a b) closed.
Proof.
  intros A B.
  assert (T : forallb (fun x => forallb (fun y => inb (tAnd x y) closed) closed)
                      closed = true) by (vm_compute; reflexivity).
  rewrite forallb_forall in T. specialize (T a A).
  rewrite forallb_forall in T. specialize (T b B).
  now apply inb_In.
Qed.
Lemma good_and a b : good a -> good b -> good (tAnd a b).
Proof.
  intros [FA CA] [FB CB]. split.
  - unfold fits, tAnd in *. now rewrite <- N.land_assoc, FB.
  - rewrite drop_and. now apply closed_and.
Qed.
Lemma good_class c : good (classId c).
Proof.
  split.
  - destruct c; try destruct shared; reflexivity.
  - apply inb_In. destruct c; try destruct shared; reflexivity.
Qed.
Lemma good_flag t : good (flagId t).
Proof.
  split; [destruct t; reflexivity|]. apply inb_In. destruct t; reflexivity.
Qed.
Lemma good_element e : good (elementId e).
Proof. destruct e; [apply good_class|apply good_flag]. Qed.
Lemma good_combine c : good (combine c).
Proof. induction c; cbn; [apply good_element|now apply good_and]. Qed.

(* the class part of a description depends on the class bits only *)
Lemma shared_drop w : hasSharedJoin (dropUnitFlag w) = hasSharedJoin w.
Proof.
  unfold hasSharedJoin, tAnd. rewrite dropUnitFlag_1023.
  rewrite <- !N.land_assoc. rewrite N.land_lor_distr_l. 
  replace (N.land 1023 (N.land SharedJoin AllUnitFlags)) with 0 by reflexivity.
  now rewrite N.lor_0_r.
Qed.
Lemma dropShared_drop w :
  dropUnitFlag (dropSharedFlag (dropUnitFlag w)) = dropUnitFlag (dropSharedFlag w).
Proof.
  unfold dropSharedFlag. now rewrite !drop_and, drop_idem.
Qed.
Lemma classPart_drop w : classPart (dropUnitFlag w) = classPart w.
Proof.
  unfold classPart. now rewrite drop_idem, shared_drop, dropShared_drop.
Qed.

Lemma classPart_total w : good w -> exists ts, classPart w = Some ts.
Proof.
  intros [_ C]. rewrite <- classPart_drop.
  assert (T : forallb (fun x => match classPart x with Some _ => true | None => false end)
                      closed = true) by (vm_compute; reflexivity).
  rewrite forallb_forall in T. specialize (T _ C).
  destruct (classPart (dropUnitFlag w)); [eauto|discriminate].
Qed.

Definition member (t : trait) (l : list trait) : bool := existsb (trait_eqb t) l.
Lemma member_In t l : member t l = true <-> In t l.
Proof.
  unfold member. rewrite existsb_exists. split.
  - intros (y & I & E). apply trait_eqb_eq in E. now subst.
  - intro I. exists t. split; [exact I|]. now apply trait_eqb_eq.
Qed.
Lemma fold_dSet ts d t : fold_left dSet ts d t = d t || member t ts.
Proof.
  revert d. induction ts as [|x ts IH]; intro d; cbn.
  - now rewrite orb_false_r.
  - rewrite IH. unfold dSet. fold (member t ts).
    destruct (trait_eqb t x), (d t), (member t ts); reflexivity.
Qed.
Lemma member_app t a b : member t (a ++ b) = member t a || member t b.
Proof. apply existsb_app. Qed.

(** A flag is reported iff its bit is zero. *)
Lemma flag_member w id t x :
  member x (flagTrait w id t) = trait_eqb x t && (tAnd w (tNot id) =? 0).
Proof.
  unfold flagTrait. destruct (_ =? 0); cbn; destruct (trait_eqb x t); reflexivity.
Qed.
Definition flagSet (w : N) (t : trait) : bool :=
  negb (flagId t =? NoAccess) && (tAnd w (tNot (flagId t)) =? 0).
Lemma unitPart_member w t : member t (unitPart w) = flagSet w t.
Proof.
  unfold unitPart. rewrite !member_app, !flag_member. unfold flagSet.
  destruct t; cbn [trait_eqb andb orb flagId negb];
    rewrite ?orb_false_r; try reflexivity.
Qed.
Lemma class_no_unit w ts t :
  good w -> classPart w = Some ts -> In t unitTraits -> member t ts = false.
Proof.
  intros [_ C] E U. rewrite <- classPart_drop in E.
  assert (T : forallb (fun x => match classPart x with
                                | Some ts => forallb (fun t => negb (member t ts)) unitTraits
                                | None => true end) closed = true)
    by (vm_compute; reflexivity).
  rewrite forallb_forall in T. specialize (T _ C). rewrite E in T.
  rewrite forallb_forall in T. specialize (T _ U). now apply negb_true_iff in T.
Qed.

(* single bit of each flag *)
Definition flagBit (t : trait) : N :=
  match t with
  | TAddressAccess => 9 | THeaderAccess => 8 | TExplicitAccess => 7
  | TLock => 6 | TRedundant => 5 | TNoRedundant => 4
  | TNoPromotedScalar => 3 | TDirectAccess => 2 | TIndirectAccess => 1
  | _ => 0
  end.
Lemma land_pow2_0 w n : (N.land w (2 ^ n) =? 0) = negb (N.testbit w n).
Proof.
  destruct (N.testbit w n) eqn:B; cbn.
  - apply N.eqb_neq. intro H.
    assert (X : N.testbit (N.land w (2 ^ n)) n = true).
    { rewrite N.land_spec, B, N.pow2_bits_true. reflexivity. }
    rewrite H, N.bits_0 in X. discriminate.
  - apply N.eqb_eq. apply N.bits_inj. intro m. rewrite N.land_spec, N.bits_0.
    destruct (N.eq_dec m n) as [->|NE]; [now rewrite B|].
    rewrite N.pow2_bits_false by congruence. now rewrite andb_false_r.
Qed.
Lemma flagSet_bit w t :
  In t unitTraits -> flagSet w t = negb (N.testbit w (flagBit t)).
Proof.
  intro U. rewrite <- land_pow2_0. unfold flagSet.
  cbn in U. decompose [or] U; subst; try contradiction; reflexivity.
Qed.
Lemma flagSet_and a b t :
  In t unitTraits -> flagSet (tAnd a b) t = flagSet a t || flagSet b t.
Proof.
  intro U. rewrite !flagSet_bit by exact U. unfold tAnd.
  rewrite N.land_spec. destruct (N.testbit a _), (N.testbit b _); reflexivity.
Qed.

(* what a description says about treatments *)
Definition says (w : N) (t : treatment) : bool :=
  match traitsOf w with
  | Some ts => classAllows (fold_left dSet ts dNone) t
  | None => false
  end.
Lemma classAllows_ext d e t :
  (forall x, ~ In x unitTraits -> d x = e x) -> classAllows d t = classAllows e t.
Proof.
  intro H.
  assert (X : forall x, In x [TNoAccess; TReadonly; TPrivate; TFirstPrivate;
      TLastPrivate; TSecondToLastPrivate; TDynamicPrivate; TShared; TReduction;
      TInduction] -> d x = e x).
  { intros x I. apply H. intro J. cbn in I, J.
    decompose [or] I; subst; decompose [or] J; try discriminate; contradiction. }
  unfold classAllows.
  rewrite !X by (cbn; tauto). reflexivity.
Qed.
Lemma says_class w t : good w ->
  says w t = match classPart (dropUnitFlag w) with
             | Some ts => classAllows (fun x => member x ts) t
             | None => false end.
Proof.
  intros G. unfold says, traitsOf. rewrite classPart_drop.
  destruct (classPart w) as [ts|] eqn:E; [|reflexivity].
  apply classAllows_ext. intros x U.
  rewrite fold_dSet. cbn [dNone orb]. rewrite member_app, unitPart_member.
  replace (flagSet w x) with false; [reflexivity|].
  unfold flagSet. destruct x; try reflexivity; exfalso; apply U; cbn; tauto.
Qed.
Lemma says_and a b t : good a -> good b -> says (tAnd a b) t = says a t && says b t.
Proof.
  intros GA GB. rewrite !says_class by auto using good_and.
  rewrite drop_and.
  destruct GA as [_ CA], GB as [_ CB]. revert CA CB.
  generalize (dropUnitFlag a) (dropUnitFlag b). clear a b. intros a b CA CB.
  set (S := fun w t => match classPart w with
            | Some ts => classAllows (fun x => member x ts) t | None => false end).
  change (S (tAnd a b) t = S a t && S b t).
  assert (T : forallb (fun x => forallb (fun y => forallb (fun t =>
      Bool.eqb (S (tAnd x y) t) (S x t && S y t)) allTreatments) closed) closed = true)
    by (vm_compute; reflexivity).
  rewrite forallb_forall in T. specialize (T a CA).
  rewrite forallb_forall in T. specialize (T b CB).
  rewrite forallb_forall in T. specialize (T t (allTreatments_all t)).
  now apply eqb_prop in T.
Qed.
Lemma says_element e t : says (elementId e) t = elementAllows e t.
Proof.
  destruct e as [c|f].
  - assert (T : forallb (fun c => forallb (fun t =>
      Bool.eqb (says (elementId (Class c)) t) (elementAllows (Class c) t))
      allTreatments) allClasses = true) by (vm_compute; reflexivity).
    rewrite forallb_forall in T. specialize (T c (allClasses_all c)).
    rewrite forallb_forall in T. specialize (T t (allTreatments_all t)).
    now apply eqb_prop in T.
  - destruct f, t; vm_compute; reflexivity.
Qed.
Lemma says_combine c t :
  says (combine c) t = forallb (fun e => elementAllows e t) (parts c).
Proof.
  induction c; cbn [combine parts].
  - cbn. now rewrite says_element, andb_true_r.
  - rewrite says_and by apply good_combine. now rewrite IHc1, IHc2, forallb_app.
Qed.

Lemma toDescriptor_inv w k c d c' : toDescriptor w k c = Some (d, c') ->
  exists ts, traitsOf w = Some ts /\ d = fold_left dSet ts dNone /\
             c' = fold_left (bump k) ts c.
Proof.
  unfold toDescriptor. destruct (traitsOf w) as [ts|]; [|discriminate].
  intro H. inversion H; subst. eauto.
Qed.

(** ** C14 *)

(** The combined trait depends neither on the order, nor on the grouping, nor
    on repetitions of the elementary traits. *)
Lemma combine_testbit c n :
  N.testbit (combine c) n = forallb (fun e => N.testbit (elementId e) n) (parts c).
Proof.
  induction c; cbn [combine parts].
  - cbn. now rewrite andb_true_r.
  - unfold tAnd. now rewrite N.land_spec, IHc1, IHc2, forallb_app.
Qed.
Theorem C14_order_and_repetition_do_not_matter : forall a b : combination,
  (forall e, In e (parts a) <-> In e (parts b)) -> combine a = combine b.
Proof.
  intros a b H. apply N.bits_inj. intro n. rewrite !combine_testbit.
  apply eq_iff_eq_true. rewrite !forallb_forall. split; intros F e I; apply F, H, I.
Qed.

(** A treatment of the location is permitted by the description of the combined
    trait iff it is permitted by each of the elementary traits. *)
Theorem C14_combination_permits_the_common_treatments :
  forall (c : combination) k st d st' t,
  toDescriptor (combine c) k st = Some (d, st') ->
  classAllows d t = true <->
  (forall e, In e (parts c) -> elementAllows e t = true).
Proof.
  intros c k st d st' t H.
  apply toDescriptor_inv in H. destruct H as (ts & E & -> & _).
  assert (S : classAllows (fold_left dSet ts dNone) t = says (combine c) t).
  { unfold says. now rewrite E. }
  rewrite S, says_combine, forallb_forall. reflexivity.
Qed.

(** A flag is reported iff it was given; a dependence is reported iff it was
    given or the given classes permit nothing but sequential execution. *)
Lemma flagSet_element e t : In t unitTraits ->
  flagSet (elementId e) t = match e with Flag f => trait_eqb f t | _ => false end.
Proof.
  intro U.
  destruct e as [c|f].
  - cbn in U; decompose [or] U; subst; try contradiction;
      destruct c; try destruct shared; reflexivity.
  - cbn in U; decompose [or] U; subst; try contradiction;
      destruct f; reflexivity.
Qed.
Lemma flagSet_combine c t : In t unitTraits ->
  flagSet (combine c) t = true <-> In (Flag t) (parts c).
Proof.
  intro U. induction c; cbn [combine parts].
  - rewrite flagSet_element by exact U. cbn. destruct e as [c|f].
    + split; [discriminate|]. intros [X|[]]. discriminate.
    + rewrite trait_eqb_eq. split; [intros ->; auto|]. intros [X|[]]. congruence.
  - rewrite flagSet_and by exact U. rewrite orb_true_iff, in_app_iff. tauto.
Qed.
Theorem C14_flags_are_kept : forall (c : combination) k st d st' t,
  toDescriptor (combine c) k st = Some (d, st') -> In t unitTraits ->
  d t = true <-> In (Flag t) (parts c).
Proof.
  intros c k st d st' t H U.
  apply toDescriptor_inv in H. destruct H as (ts & E & -> & _).
  unfold traitsOf in E. destruct (classPart (combine c)) as [cs|] eqn:C; [|discriminate].
  inversion E; subst. rewrite fold_dSet. cbn [dNone orb].
  rewrite member_app, unitPart_member.
  rewrite (class_no_unit _ _ _ (good_combine c) C U), orb_false_r.
  now apply flagSet_combine.
Qed.

(** Dropping the mark 'shared' from a combined trait of a privatizable location is
    the same as never having given the mark: the flags and the class stay. *)
Definition unmark (e : elementary) : elementary :=
  match e with
  | Class (KPrivate _) => Class (KPrivate false)
  | Class (KFirst _) => Class (KFirst false)
  | Class (KLast _) => Class (KLast false)
  | Class (KSecond _) => Class (KSecond false)
  | Class (KDynamic _) => Class (KDynamic false)
  | e => e
  end.
Fixpoint unshare (c : combination) : combination :=
  match c with Leaf e => Leaf (unmark e) | Both a b => Both (unshare a) (unshare b) end.
Definition privatizable (e : elementary) : Prop :=
  match e with
  | Class (KPrivate _ | KFirst _ | KLast _ | KSecond _ | KDynamic _) => True
  | _ => False
  end.
Lemma parts_unshare c : parts (unshare c) = map unmark (parts c).
Proof. induction c; cbn; [reflexivity|]. now rewrite IHc1, IHc2, map_app. Qed.
Lemma element_low e n : (19 <= n)%N -> N.testbit (elementId e) n = false.
Proof.
  intro H. apply N.bits_above_log2.
  apply N.lt_le_trans with 19%N; [|exact H].
  destruct e as [c|f]; [destruct c; try destruct shared|destruct f]; now vm_compute.
Qed.
Lemma combine_low c n : (19 <= n)%N -> N.testbit (combine c) n = false.
Proof.
  intro H. induction c; cbn [combine]; [now apply element_low|].
  unfold tAnd. now rewrite N.land_spec, IHc1.
Qed.
Theorem C14_mark_of_sharing_dropped : forall (c : combination),
  (exists e, In e (parts c) /\ privatizable e) ->
  dropSharedFlag (combine c) = combine (unshare c).
Proof.
  intros c (e & I & P). apply N.bits_inj. intro n. unfold dropSharedFlag, tAnd.
  rewrite N.land_spec.
  destruct (N.lt_ge_cases n 19) as [L|L].
  2: { now rewrite !combine_low by exact L. }
  assert (M : N.testbit (dropUnitFlag (tNot SharedJoin)) n = negb (n =? 10)%N).
  { assert (C : (n = 0 \/ n = 1 \/ n = 2 \/ n = 3 \/ n = 4 \/ n = 5 \/ n = 6 \/ n = 7 \/ n = 8
      \/ n = 9 \/ n = 10 \/ n = 11 \/ n = 12 \/ n = 13 \/ n = 14 \/ n = 15 \/ n = 16 \/ n = 17
      \/ n = 18)%N) by lia.
    decompose [or] C; subst n; reflexivity. }
  rewrite M, !combine_testbit, parts_unshare.
  destruct (N.eqb_spec n 10) as [E|NE]; cbn [negb].
  - rewrite andb_false_r. symmetry. apply not_true_is_false. intro F.
    rewrite forallb_forall in F. specialize (F (unmark e) (in_map unmark _ _ I)).
    subst n. destruct e as [k|f]; [|contradiction].
    destruct k; try contradiction; vm_compute in F; discriminate.
  - rewrite andb_true_r. clear I P M.
    induction (parts c) as [|a l IH]; [reflexivity|]. cbn [map forallb]. rewrite IH. f_equal.
    assert (C : (n = 0 \/ n = 1 \/ n = 2 \/ n = 3 \/ n = 4 \/ n = 5 \/ n = 6 \/ n = 7 \/ n = 8
      \/ n = 9 \/ n = 11 \/ n = 12 \/ n = 13 \/ n = 14 \/ n = 15 \/ n = 16 \/ n = 17
      \/ n = 18)%N) by lia.
    destruct a as [k|f]; [|reflexivity].
    destruct k; try reflexivity; destruct shared; try reflexivity;
      decompose [or] C; subst n; reflexivity.
Qed.
Print Assumptions C14_mark_of_sharing_dropped.
Example mark_of_sharing_sample :
  dropSharedFlag (combine (Both (Leaf (Class (KLast true))) (Leaf (Flag TAddressAccess))))
  = combine (Both (Leaf (Class (KLast false))) (Leaf (Flag TAddressAccess))).
Proof. apply C14_mark_of_sharing_dropped. exists (Class (KLast true)). cbn. auto. Qed.

Definition dependence (d : descr) : Prop :=
  d TFlow = true /\ d TAnti = true /\ d TOutput = true.
Theorem C14_dependence_never_disappears : forall (c : combination) k st d st',
  toDescriptor (combine c) k st = Some (d, st') ->
  (dependence d <->
   forall t, t <> Serialize ->
     exists e, In e (parts c) /\ elementAllows e t = false) /\
  (In (Class KDependency) (parts c) -> dependence d) /\
  (dependence d \/ (d TFlow = false /\ d TAnti = false /\ d TOutput = false)).
Proof.
  intros c k st d st' H.
  pose proof (C14_combination_permits_the_common_treatments c k st d st') as P.
  assert (D : (dependence d <-> forall t, t <> Serialize -> classAllows d t = false) /\
     (dependence d \/ (d TFlow = false /\ d TAnti = false /\ d TOutput = false))).
  { apply toDescriptor_inv in H. destruct H as (ts & E & -> & _).
    unfold traitsOf in E. destruct (classPart (combine c)) as [cs|] eqn:C; [|discriminate].
    inversion E; subst. clear E.
    assert (M : forall x, ~ In x unitTraits ->
       fold_left dSet (unitPart (combine c) ++ cs) dNone x = member x cs).
    { intros x U. rewrite fold_dSet. cbn [dNone orb].
      rewrite member_app, unitPart_member.
      replace (flagSet (combine c) x) with false; [reflexivity|].
      unfold flagSet. destruct x; try reflexivity; exfalso; apply U; cbn; tauto. }
    assert (A : forall t, classAllows (fold_left dSet (unitPart (combine c) ++ cs) dNone) t
                = classAllows (fun x => member x cs) t).
    { intro t. apply classAllows_ext. exact M. }
    set (dep := member TFlow cs && member TAnti cs && member TOutput cs).
    assert (Q : dependence (fold_left dSet (unitPart (combine c) ++ cs) dNone)
                <-> dep = true).
    { unfold dependence. rewrite !M by (cbn; intro; decompose [or] H; discriminate || contradiction).
      unfold dep. rewrite !andb_true_iff. tauto. }
    rewrite Q. rewrite !M by (cbn; intro; decompose [or] H; discriminate || contradiction).
    pose proof (good_combine c) as [_ K]. rewrite <- classPart_drop in C.
    clear Q M P. 
    assert (T : forallb (fun w => match classPart w with
       | None => true
       | Some cs =>
         Bool.eqb (member TFlow cs && member TAnti cs && member TOutput cs)
           (forallb (fun t => match t with Serialize => true
              | _ => negb (classAllows (fun x => member x cs) t) end) allTreatments)
         && ((member TFlow cs && member TAnti cs && member TOutput cs) ||
             negb (member TFlow cs || member TAnti cs || member TOutput cs))
       end) closed = true) by (vm_compute; reflexivity).
    rewrite forallb_forall in T. specialize (T _ K). rewrite C in T.
    apply andb_true_iff in T. destruct T as [T1 T2]. apply eqb_prop in T1.
    fold dep in T1, T2. split.
    - rewrite T1, forallb_forall. split.
      + intros F t NS. specialize (F t (allTreatments_all t)). rewrite A.
        destruct t; try (now apply negb_true_iff in F). now elim NS.
      + intros F t _. destruct t; try reflexivity;
          rewrite <- A, F by discriminate; reflexivity.
    - destruct dep; [now left|]. right. cbn in T2.
      destruct (member TFlow cs), (member TAnti cs), (member TOutput cs);
        try discriminate; auto. }
  destruct D as [D1 D2]. split; [|split].
  - rewrite D1. split.
    + intros F t NS. specialize (F t NS).
      assert (X : ~ forall e, In e (parts c) -> elementAllows e t = true).
      { rewrite <- (P t H), F. discriminate. }
      destruct (forallb (fun e => elementAllows e t) (parts c)) eqn:FB.
      * elim X. now apply forallb_forall.
      * clear - FB. induction (parts c) as [|e l IH]; [discriminate|]. cbn in FB.
        destruct (elementAllows e t) eqn:EA.
        -- destruct (IH FB) as (e' & I & Q). exists e'. split; [now right|exact Q].
        -- exists e. split; [now left|exact EA].
    + intros F t NS. destruct (classAllows d t) eqn:CA; [|reflexivity].
      destruct (F t NS) as (e & I & Q).
      pose proof (proj1 (P t H) CA e I). congruence.
  - intro I. apply D1. intros t NS. destruct (classAllows d t) eqn:CA; [|reflexivity].
    pose proof (proj1 (P t H) CA _ I) as X. cbn in X. destruct t; try discriminate.
    now elim NS.
  - exact D2.
Qed.

Print Assumptions C14_order_and_repetition_do_not_matter.
Print Assumptions C14_combination_permits_the_common_treatments.
Print Assumptions C14_flags_are_kept.
Print Assumptions C14_dependence_never_disappears.

(* read-only memory joined with private memory: the pair is first private; a
   header access and absence of a dependence are kept *)
Definition sampleComb : combination :=
  Both (Both (Leaf (Class KReadonly)) (Leaf (Flag THeaderAccess)))
       (Both (Leaf (Class (KPrivate true))) (Leaf (Class KReadonly))).
Example sampleComb_described : exists d st',
  toDescriptor (combine sampleComb) 1 (fun _ => 0) = Some (d, st') /\
  filter d allTraits = [THeaderAccess; TShared; TFirstPrivate] /\
  filter (classAllows d) allTreatments =
    [Share; CopyIn; CopyInOutLast; CopyInOutSecondToLast; CopyInOutDynamic;
     Serialize].
Proof.
  eexists _, _. split; [reflexivity|]. split; reflexivity.
Qed.
Example sampleComb_regrouped :
  combine sampleComb =
  combine (Both (Leaf (Class (KPrivate true)))
                (Both (Leaf (Flag THeaderAccess)) (Leaf (Class KReadonly)))).
Proof.
  apply C14_order_and_repetition_do_not_matter. intro e. cbn. tauto.
Qed.

(** ** C15 *)

(* every description exists and its traits are compatible *)
Theorem C15_description_total : forall (c : combination) k st,
  exists d st', toDescriptor (combine c) k st = Some (d, st') /\ wellFormed d.
Proof.
  intros c k st. destruct (classPart_total _ (good_combine c)) as [cs C].
  unfold toDescriptor, traitsOf. rewrite C. eexists _, _. split; [reflexivity|].
  assert (T : forallb (fun w => match classPart w with
     | None => true
     | Some cs => existsb (fun alt => forallb (fun t => member t alt) cs) alternatives
     end) closed = true) by (vm_compute; reflexivity).
  pose proof (good_combine c) as [_ K].
  rewrite forallb_forall in T. specialize (T _ K). rewrite classPart_drop, C in T.
  apply existsb_exists in T. destruct T as (alt & I & A).
  exists alt. split; [exact I|]. intros t D. rewrite fold_dSet in D. cbn [dNone orb] in D.
  rewrite member_app, unitPart_member in D. apply orb_true_iff in D.
  destruct D as [D|D].
  - left. unfold flagSet in D.
    destruct t; try discriminate D; cbn; tauto.
  - right. apply member_In in D. rewrite forallb_forall in A. apply member_In.
    now apply A.
Qed.

(* encoding: every bit *)
Definition encUnits (d : descr) : N :=
  let w := NoAccess in
  let w := onlyIf (d TAddressAccess) AddressAccess w in
  let w := onlyIf (d TUseAfterLoop) UseAfterLoop w in
  let w := onlyIf (d THeaderAccess) HeaderAccess w in
  let w := onlyIf (d TNoPromotedScalar) NoPromotedScalar w in
  let w := onlyIf (d TExplicitAccess) ExplicitAccess w in
  let w := onlyIf (d TRedundant) Redundant w in
  let w := onlyIf (d TNoRedundant) NoRedundant w in
  let w := onlyIf (d TDirectAccess) DirectAccess w in
  let w := onlyIf (d TIndirectAccess) IndirectAccess w in
  onlyIf (d TLock) Lock w.
Definition encClass (d : descr) : N :=
  if d TNoAccess then NoAccess
  else if d TFlow || d TAnti || d TOutput then Dependency
  else if d TReduction then Reduction
  else if d TInduction then Induction
  else if d TReadonly then Readonly
  else
    let SharedFlag := if d TShared then SharedJoin else tNot NoAccess in
    let SharedTrait := if d TShared then Shared else Dependency in
    if d TPrivate then tOr Private SharedFlag
    else
      let w := if d TFirstPrivate then tOr FirstPrivate SharedFlag else NoAccess in
      if d TLastPrivate then tAnd w (tOr LastPrivate SharedFlag)
      else if d TSecondToLastPrivate
           then tAnd w (tOr SecondToLastPrivate SharedFlag)
      else if d TDynamicPrivate then tAnd w (tOr DynamicPrivate SharedFlag)
      else if negb (d TFirstPrivate) then SharedTrait
      else w.
Lemma encode_fits d : fits (encUnits d).
Proof.
  unfold encUnits.
  destruct (d TAddressAccess), (d TUseAfterLoop), (d THeaderAccess),
    (d TNoPromotedScalar), (d TExplicitAccess), (d TRedundant), (d TNoRedundant),
    (d TDirectAccess), (d TIndirectAccess), (d TLock); reflexivity.
Qed.
Lemma encode_split d : encode d = tAnd (encUnits d) (encClass d).
Proof.
  pose proof (encode_fits d) as F. unfold fits in F.
  unfold encode, encClass. fold (encUnits d). unfold onlyIf, tAnd.
  destruct (d TFirstPrivate); cbn [negb];
  repeat match goal with
  | |- context [if ?b then _ else _] => destruct b
  end; try reflexivity; try (symmetry; exact F);
  rewrite ?N.land_assoc; rewrite ?F; reflexivity.
Qed.
Lemma encUnits_class d : dropUnitFlag (encUnits d) = NoAccess.
Proof.
  unfold encUnits.
  destruct (d TAddressAccess), (d TUseAfterLoop), (d THeaderAccess),
    (d TNoPromotedScalar), (d TExplicitAccess), (d TRedundant), (d TNoRedundant),
    (d TDirectAccess), (d TIndirectAccess), (d TLock); reflexivity.
Qed.
Lemma onlyIf_bit b id w n :
  N.testbit (onlyIf b id w) n = (negb b || N.testbit id n) && N.testbit w n.
Proof.
  unfold onlyIf, tAnd. destruct b; cbn [negb orb andb]; [|reflexivity].
  rewrite N.land_spec. apply andb_comm.
Qed.
Lemma encUnits_flag d t : In t unitTraits ->
  N.testbit (encUnits d) (flagBit t) = negb (d t).
Proof.
  intro U. unfold encUnits. cbv zeta. rewrite !onlyIf_bit.
  cbn in U. decompose [or] U; subst; try contradiction;
    cbn [flagBit];
    repeat match goal with
    | |- context [N.testbit ?a ?b] =>
        let v := eval vm_compute in (N.testbit a b) in change (N.testbit a b) with v
    end; rewrite ?orb_true_r, ?orb_false_r, ?andb_true_r; reflexivity.
Qed.
Lemma encClass_ext d e : (forall x, ~ In x unitTraits -> d x = e x) ->
  encClass d = encClass e.
Proof.
  intro H. unfold encClass.
  assert (X : forall x, In x [TNoAccess; TFlow; TAnti; TOutput; TReduction; TInduction;
     TReadonly; TShared; TPrivate; TFirstPrivate; TLastPrivate; TSecondToLastPrivate;
     TDynamicPrivate] -> d x = e x).
  { intros x I. apply H. intro J. cbn in I, J.
    decompose [or] I; subst; decompose [or] J; try discriminate; contradiction. }
  rewrite !X by (cbn; tauto). reflexivity.
Qed.

Lemma fits_bits a b : fits a -> fits b ->
  dropUnitFlag a = dropUnitFlag b ->
  (forall t, In t unitTraits -> N.testbit a (flagBit t) = N.testbit b (flagBit t)) ->
  a = b.
Proof.
  intros FA FB D U. apply N.bits_inj. intro n.
  destruct (N.lt_ge_cases n 10) as [L|L].
  - assert (C : n = 0 \/ n = 1 \/ n = 2 \/ n = 3 \/ n = 4 \/ n = 5 \/ n = 6
                \/ n = 7 \/ n = 8 \/ n = 9) by lia.
    decompose [or] C; subst;
    [apply (U TUseAfterLoop)|apply (U TIndirectAccess)|apply (U TDirectAccess)
    |apply (U TNoPromotedScalar)|apply (U TNoRedundant)|apply (U TRedundant)
    |apply (U TLock)|apply (U TExplicitAccess)|apply (U THeaderAccess)
    |apply (U TAddressAccess)]; cbn; tauto.
  - assert (X : N.testbit (dropUnitFlag a) n = N.testbit (dropUnitFlag b) n) by now rewrite D.
    rewrite !dropUnitFlag_1023, !N.lor_spec in X.
    change 1023 with (N.ones 10) in X.
    rewrite N.ones_spec_high in X by exact L. now rewrite !orb_false_r in X.
Qed.

(** Encoding of the description gives the same combined trait. *)
Theorem C15_encoding_of_the_description : forall (c : combination) k st d st',
  toDescriptor (combine c) k st = Some (d, st') -> encode d = combine c.
Proof.
  intros c k st d st' H.
  apply toDescriptor_inv in H. destruct H as (ts & E & -> & _).
  unfold traitsOf in E. destruct (classPart (combine c)) as [cs|] eqn:C; [|discriminate].
  inversion E; subst. clear E.
  pose proof (good_combine c) as G. destruct G as [F K].
  set (d := fold_left dSet (unitPart (combine c) ++ cs) dNone).
  assert (EC : encClass d = dropUnitFlag (combine c)).
  { rewrite (encClass_ext d (fun x => member x cs)).
    - rewrite <- classPart_drop in C. revert C. generalize (dropUnitFlag (combine c)), K.
      intros w K' C.
      assert (T : forallb (fun w => match classPart w with
         | None => true
         | Some cs => encClass (fun x => member x cs) =? w end) closed = true)
        by (vm_compute; reflexivity).
      rewrite forallb_forall in T. specialize (T _ K'). rewrite C in T.
      now apply N.eqb_eq in T.
    - intros x U. unfold d. rewrite fold_dSet. cbn [dNone orb].
      rewrite member_app, unitPart_member.
      replace (flagSet (combine c) x) with false; [reflexivity|].
      unfold flagSet. destruct x; try reflexivity; exfalso; apply U; cbn; tauto. }
  rewrite encode_split, EC.
  apply fits_bits.
  - unfold fits, tAnd. rewrite <- N.land_assoc. f_equal.
    assert (T : forallb (fun w => N.land w NoAccess =? w) closed = true)
      by (vm_compute; reflexivity).
    rewrite forallb_forall in T. specialize (T _ K). now apply N.eqb_eq in T.
  - exact F.
  - rewrite drop_and, encUnits_class, drop_idem. unfold tAnd. rewrite N.land_comm.
    assert (T : forallb (fun w => N.land w NoAccess =? w) closed = true)
      by (vm_compute; reflexivity).
    rewrite forallb_forall in T. specialize (T _ K). now apply N.eqb_eq in T.
  - intros t U. unfold tAnd. rewrite N.land_spec, encUnits_flag by exact U.
    assert (DT : d t = flagSet (combine c) t).
    { unfold d. rewrite fold_dSet. cbn [dNone orb].
      rewrite member_app, unitPart_member.
      rewrite (class_no_unit _ _ _ (good_combine c) C U). apply orb_false_r. }
    rewrite DT, flagSet_bit by exact U. rewrite negb_involutive.
    rewrite dropUnitFlag_1023, N.lor_spec.
    replace (N.testbit 1023 (flagBit t)) with true.
    + now rewrite orb_true_r, andb_true_r.
    + cbn in U. decompose [or] U; subst; try contradiction; reflexivity.
Qed.

(** Every well-formed descriptor, not only the ones the analysis builds, can be
    encoded and described again; the new description has the same flags and
    permits nothing the former one does not permit. *)
Definition subsetsOf (l : list trait) : list (list trait) :=
  fold_right (fun x acc => acc ++ map (cons x) acc) [[]] l.
Lemma filter_subset (f : trait -> bool) l : In (filter f l) (subsetsOf l).
Proof.
  induction l as [|x l IH]; cbn; [now left|].
  apply in_or_app. destruct (f x); [right|now left].
  now apply in_map.
Qed.
Definition describable : list (list trait) :=
  flat_map subsetsOf alternatives.
Theorem C15_encoding_is_conservative : forall d, wellFormed d ->
  exists d' st', toDescriptor (encode d) 0 (fun _ => 0) = Some (d', st') /\
    (forall t, In t unitTraits -> d' t = d t) /\
    (forall t, classAllows d' t = true -> classAllows d t = true).
Proof.
  intros d (alt & IA & WF).
  set (cs := filter d alt).
  assert (DC : forall x, ~ In x unitTraits -> d x = member x cs).
  { intros x U. unfold cs. apply eq_iff_eq_true. rewrite member_In, filter_In. split.
    - intro D. destruct (WF _ D); [contradiction|auto].
    - tauto. }
  assert (DS : In cs describable).
  { apply in_flat_map. exists alt. split; [exact IA|apply filter_subset]. }
  pose proof (encClass_ext d (fun x => member x cs) DC) as EE.
  assert (T : forallb (fun cs =>
     inb (encClass (fun x => member x cs)) closed &&
     match classPart (encClass (fun x => member x cs)) with
     | None => false
     | Some cs' => forallb (fun t =>
         implb (classAllows (fun x => member x cs') t)
               (classAllows (fun x => member x cs) t)) allTreatments
     end) describable = true) by (vm_compute; reflexivity).
  rewrite forallb_forall in T. specialize (T _ DS).
  apply andb_true_iff in T. destruct T as [T1 T2]. apply inb_In in T1.
  rewrite <- EE in T1, T2.
  assert (K : dropUnitFlag (encode d) = encClass d).
  { rewrite encode_split, drop_and, encUnits_class. unfold tAnd.
    assert (X : forallb (fun w => N.land NoAccess (dropUnitFlag w) =? w) closed = true)
      by (vm_compute; reflexivity).
    rewrite forallb_forall in X. specialize (X _ T1). now apply N.eqb_eq in X. }
  assert (G : good (encode d)).
  { split; [|now rewrite K]. rewrite encode_split. unfold fits, tAnd.
    rewrite <- N.land_assoc. f_equal.
    assert (X : forallb (fun w => N.land w NoAccess =? w) closed = true)
      by (vm_compute; reflexivity).
    rewrite forallb_forall in X. specialize (X _ T1). now apply N.eqb_eq in X. }
  destruct (classPart (encClass d)) as [cs'|] eqn:C; [|discriminate].
  pose proof C as C'. rewrite <- K, classPart_drop in C'.
  unfold toDescriptor, traitsOf. rewrite C'. eexists _, _. split; [reflexivity|]. split.
  - intros t U. rewrite fold_dSet. cbn [dNone orb].
    rewrite member_app, unitPart_member, (class_no_unit _ _ _ G C' U), orb_false_r.
    rewrite flagSet_bit by exact U. rewrite encode_split. unfold tAnd.
    rewrite N.land_spec, encUnits_flag by exact U.
    replace (N.testbit (encClass d) (flagBit t)) with true.
    + now rewrite andb_true_r, negb_involutive.
    + symmetry.
      assert (X : forallb (fun w => N.land w 1023 =? 1023) closed = true)
        by (vm_compute; reflexivity).
      rewrite forallb_forall in X. specialize (X _ T1). apply N.eqb_eq in X.
      assert (Y : N.testbit (N.land (encClass d) 1023) (flagBit t)
                  = N.testbit 1023 (flagBit t)) by now rewrite X.
      rewrite N.land_spec in Y.
      replace (N.testbit 1023 (flagBit t)) with true in Y.
      * now rewrite andb_true_r in Y.
      * cbn in U. decompose [or] U; subst; try contradiction; reflexivity.
  - intros t A. rewrite forallb_forall in T2.
    specialize (T2 t (allTreatments_all t)).
    rewrite (classAllows_ext d (fun x => member x cs) t DC).
    rewrite (classAllows_ext _ (fun x => member x cs') t) in A.
    + rewrite A in T2. exact T2.
    + intros x U. rewrite fold_dSet. cbn [dNone orb].
      rewrite member_app, unitPart_member.
      replace (flagSet (encode d) x) with false; [reflexivity|].
      unfold flagSet. destruct x; try reflexivity; exfalso; apply U; cbn; tauto.
Qed.

Print Assumptions C15_description_total.
Print Assumptions C15_encoding_of_the_description.
Print Assumptions C15_encoding_is_conservative.

Example sampleComb_round_trip : exists d st',
  toDescriptor (combine sampleComb) 1 (fun _ => 0) = Some (d, st') /\
  encode d = combine sampleComb /\ combine sampleComb <> NoAccess.
Proof. eexists _, _. split; [reflexivity|]. split; [reflexivity|]. discriminate. Qed.
Example wellFormed_sample :
  wellFormed (fun t => member t [TShared; TLastPrivate; TUseAfterLoop]).
Proof.
  exists [TLastPrivate; TFirstPrivate; TShared]. split; [cbn; tauto|].
  intros t M. apply member_In in M. cbn in *. intuition subst; tauto.
Qed.

(** ** C16 *)

(* one more occurrence of the trait is counted *)
Definition countedBy (c c' : counters) (k : N) (d : descr) (t : trait) : Prop :=
  c' t = c t + (if d t then k else 0).

Lemma fold_bump_other k ts c x :
  (forall t, In t ts -> statVar t <> Some x) -> fold_left (bump k) ts c x = c x.
Proof.
  revert c. induction ts as [|t ts IH]; intros c H; cbn; [reflexivity|].
  rewrite IH by (intros u I; apply H; now right).
  unfold bump. specialize (H t (or_introl eq_refl)).
  destruct (statVar t) as [v|]; [|reflexivity].
  destruct (trait_eqb x v) eqn:E; [|reflexivity].
  apply trait_eqb_eq in E. congruence.
Qed.
Lemma fold_bump_once k ts c x v : NoDup ts -> statVar x = Some v ->
  (forall t, In t ts -> t <> x -> statVar t <> Some v) ->
  fold_left (bump k) ts c v = c v + (if member x ts then k else 0).
Proof.
  revert c. induction ts as [|t ts IH]; intros c ND SV H; cbn.
  - lia.
  - inversion ND as [|? ? NI ND']; subst.
    destruct (trait_eqb x t) eqn:E; cbn.
    + apply trait_eqb_eq in E. subst t. rewrite fold_bump_other.
      * unfold bump. rewrite SV.
        replace (trait_eqb v v) with true by (symmetry; now apply trait_eqb_eq). reflexivity.
      * intros t I. apply H; [now right|]. intros ->. contradiction.
    + rewrite IH; [|exact ND'|exact SV|intros u I NE; apply H; [now right|exact NE]].
      fold (member x ts).
      f_equal. unfold bump. assert (t <> x).
      { intros ->. replace (trait_eqb x x) with true in E; [discriminate|].
        symmetry. now apply trait_eqb_eq. }
      specialize (H t (or_introl eq_refl) H0).
      destruct (statVar t) as [u|]; [|reflexivity].
      destruct (trait_eqb v u) eqn:E2; [|reflexivity].
      apply trait_eqb_eq in E2. congruence.
Qed.
Definition nodupb (ts : list trait) : bool :=
  (fix go l := match l with [] => true | x :: l => negb (member x l) && go l end) ts.
Lemma nodupb_NoDup ts : nodupb ts = true -> NoDup ts.
Proof.
  induction ts as [|x l IH]; cbn; [constructor|]. intro H.
  apply andb_true_iff in H. destruct H as [A B]. constructor; [|auto].
  apply negb_true_iff in A. intro I. apply member_In in I. congruence.
Qed.
Lemma unitPart_nodup w : NoDup (unitPart w).
Proof.
  apply nodupb_NoDup. unfold unitPart, flagTrait.
  repeat match goal with |- context [if ?b then _ else _] => destruct b end; reflexivity.
Qed.
Lemma traits_nodup c ts : traitsOf (combine c) = Some ts -> NoDup ts.
Proof.
  unfold traitsOf. destruct (classPart (combine c)) as [cs|] eqn:C; [|discriminate].
  intro H. inversion H; subst. clear H.
  assert (NDC : NoDup cs).
  { pose proof (good_combine c) as [_ K]. rewrite <- classPart_drop in C.
    assert (T : forallb (fun w => match classPart w with
       | None => true | Some cs => nodupb cs end) closed = true) by (vm_compute; reflexivity).
    rewrite forallb_forall in T. specialize (T _ K). rewrite C in T.
    now apply nodupb_NoDup. }
  assert (D : forall t, In t (unitPart (combine c)) -> ~ In t cs).
  { intros t I J. apply member_In in I, J. rewrite unitPart_member in I.
    rewrite (class_no_unit _ _ t (good_combine c) C) in J; [discriminate|].
    unfold flagSet in I. destruct t; try discriminate I; cbn; tauto. }
  clear C. pose proof (unitPart_nodup (combine c)) as NU.
  induction (unitPart (combine c)) as [|x l IH]; cbn; [exact NDC|].
  inversion NU; subst. constructor.
  - rewrite in_app_iff. intros [I|I]; [contradiction|]. apply (D x); [now left|exact I].
  - apply IH; [intros; apply D; now right|assumption].
Qed.
Lemma statVar_inj t u v : statVar t = Some v -> statVar u = Some v -> t = u.
Proof.
  intros A B. destruct t; try discriminate A; destruct u; try discriminate B;
    try reflexivity; cbn in A, B; congruence.
Qed.

(** What is true: the counters change by the number of recorded locations for
    every reported trait and are kept for other traits, except for the two
    counters of header and explicit accesses.  Missing for the full claim: these
    two counters count each other's trait (see the refutation). *)
Theorem C16_counters_partial : forall (c : combination) k st d st' t,
  toDescriptor (combine c) k st = Some (d, st') ->
  t <> TNoAccess -> t <> THeaderAccess -> t <> TExplicitAccess ->
  countedBy st st' k d t.
Proof.
  intros c k st d st' t H NA NH NE.
  apply toDescriptor_inv in H. destruct H as (ts & E & -> & ->).
  pose proof (traits_nodup c ts E) as ND. unfold countedBy.
  assert (G : forall x, statVar x = Some x ->
    fold_left (bump k) ts st x = st x + (if fold_left dSet ts dNone x then k else 0)).
  { intros x SV. rewrite fold_dSet. cbn [dNone orb].
    apply fold_bump_once; auto. intros u _ NEu SU. apply NEu.
    apply (statVar_inj u x x); assumption. }
  destruct t; try contradiction; try (now elim NA); try (now elim NH); try (now elim NE);
    apply G; reflexivity.
Qed.

(** The counters of header and explicit accesses count each other's trait. *)
Theorem C16_header_and_explicit_counters_swapped : forall (c : combination) k st d st',
  toDescriptor (combine c) k st = Some (d, st') ->
  st' THeaderAccess = st THeaderAccess + (if d TExplicitAccess then k else 0) /\
  st' TExplicitAccess = st TExplicitAccess + (if d THeaderAccess then k else 0).
Proof.
  intros c k st d st' H.
  apply toDescriptor_inv in H. destruct H as (ts & E & -> & ->).
  pose proof (traits_nodup c ts E) as ND. rewrite !fold_dSet. cbn [dNone orb].
  split.
  - apply fold_bump_once; [exact ND|reflexivity|].
    intros u _ NE SU. apply NE. now apply (statVar_inj u TExplicitAccess THeaderAccess).
  - apply fold_bump_once; [exact ND|reflexivity|].
    intros u _ NE SU. apply NE. now apply (statVar_inj u THeaderAccess TExplicitAccess).
Qed.
Theorem C16_counters_refuted : exists (c : combination) st d st',
  toDescriptor (combine c) 1 st = Some (d, st') /\
  d THeaderAccess = true /\ st' THeaderAccess = st THeaderAccess /\
  d TExplicitAccess = false /\ st' TExplicitAccess <> st TExplicitAccess.
Proof.
  exists (Both (Leaf (Class KReadonly)) (Leaf (Flag THeaderAccess))), (fun _ => 0).
  eexists _, _. split; [reflexivity|]. repeat split; vm_compute; congruence.
Qed.

Print Assumptions C16_counters_partial.
Print Assumptions C16_header_and_explicit_counters_swapped.
Print Assumptions C16_counters_refuted.

Example sampleComb_counted : exists d st',
  toDescriptor (combine sampleComb) 3 (fun _ => 5) = Some (d, st') /\
  st' TFirstPrivate = 8 /\ st' TShared = 8 /\ st' TReadonly = 5.
Proof. eexists _, _. split; [reflexivity|]. repeat split; reflexivity. Qed.
