(** Proofs about the update of existing traits. *)
From Coq Require Import ZArith Bool List Lia.
From Verif Require Import TraitModel TraitSpec ClarifyModel ClarifySpec.
Import ListNotations.

Lemma setIf_at : forall b t d x,
  setIf b t d x = (if trait_eqb x t then b || d x else d x).
Proof. intros b t d x. unfold setIf, dSet. destruct b; destruct (trait_eqb x t); reflexivity. Qed.
Lemma unsetIf_at : forall b t d x,
  unsetIf b t d x = (if trait_eqb x t then negb b && d x else d x).
Proof. intros b t d x. unfold unsetIf, dUnset. destruct b; destruct (trait_eqb x t); reflexivity. Qed.

(* which traits of the new set are changed *)
Definition prepared (f d : descr) (t : trait) : bool :=
  match t with
  | TNoPromotedScalar | TAddressAccess | TUseAfterLoop | TDirectAccess | TIndirectAccess
  | TExplicitAccess => d t || f t
  | THeaderAccess | TFlow | TAnti | TOutput => d t && f t
  | _ => f t
  end.
Lemma prepare_at : forall f d t, prepare f d t = prepared f d t.
Proof.
  intros f d t. unfold prepare. rewrite ?unsetIf_at, ?setIf_at, ?negb_involutive.
  destruct t; cbn [trait_eqb prepared]; rewrite ?setIf_at, ?unsetIf_at, ?negb_involutive;
    cbn [trait_eqb]; rewrite ?setIf_at, ?unsetIf_at, ?negb_involutive; reflexivity.
Qed.
Lemma prepare_dep : forall f d k, prepare f d (tagOf k) = d (tagOf k) && f (tagOf k).
Proof. intros f d k. rewrite prepare_at. destruct k; reflexivity. Qed.

Lemma unset_at : forall d t x, dUnset d t x = (if trait_eqb x t then false else d x).
Proof. intros d t x. unfold dUnset. destruct (trait_eqb x t); reflexivity. Qed.

(** All possible results. *)
Inductive result (f d : descr) : descr -> bool -> Prop :=
| RSame : result f d d false
| RShared : d TSecondToLastPrivate = true -> f TShared = true -> result f d (dSet d TShared) true
| RDrop : d TFirstPrivate = true -> f TFirstPrivate = false ->
    isAny d [TSecondToLastPrivate; TLastPrivate; TDynamicPrivate] = true ->
    isAny f [TNoAccess; TReadonly; TShared; TPrivate] = false ->
    (d TDynamicPrivate = true -> d TLastPrivate = false -> d TSecondToLastPrivate = false ->
     f TLastPrivate = false /\ f TSecondToLastPrivate = false) ->
    result f d (dUnset d TFirstPrivate) true
| RNew : isAny d [TNoAccess; TReadonly] = false ->
    (d TShared = true -> isAny f [TNoAccess; TReadonly] = true) ->
    (isAny d [TPrivate; TInduction; TReduction] = true ->
       isAny f [TNoAccess; TReadonly; TShared] = true) ->
    (isAny d [TSecondToLastPrivate; TLastPrivate] = true ->
       isAny f [TNoAccess; TReadonly; TShared; TPrivate] = true) ->
    (d TDynamicPrivate = true ->
       isAny f [TNoAccess; TReadonly; TShared; TPrivate; TSecondToLastPrivate; TLastPrivate]
       = true) ->
    result f d f true.

Lemma isAny_unset : forall d ts t, existsb (trait_eqb t) ts = false ->
  isAny (dUnset d t) ts = isAny d ts.
Proof.
  intros d ts t. induction ts as [|x ts IH]; intro H; [reflexivity|].
  cbn [existsb] in H. apply orb_false_iff in H. destruct H as [H1 H2].
  unfold isAny in *. cbn [existsb]. rewrite (IH H2). f_equal. unfold dUnset.
  assert (E : trait_eqb x t = false) by (destruct x, t; cbn in *; congruence).
  rewrite E. reflexivity.
Qed.

Lemma clarify_result : forall f d r c,
  clarifyPrepared f d = (r, c) -> result f d r c.
Proof.
  intros f d r c H. unfold clarifyPrepared in H.
  destruct (isAny d [TNoAccess; TReadonly]) eqn:E1; [injection H as <- <-; apply RSame|].
  destruct (d TShared && negb (isAny f [TNoAccess; TReadonly])) eqn:E2;
    [injection H as <- <-; apply RSame|].
  destruct (isAny d [TPrivate; TInduction; TReduction]
            && negb (isAny f [TNoAccess; TReadonly; TShared])) eqn:E3;
    [injection H as <- <-; apply RSame|].
  destruct (d TSecondToLastPrivate && f TLastPrivate) eqn:E4.
  { destruct (f TShared && negb (d TShared)) eqn:E5; injection H as <- <-; [|apply RSame].
    apply andb_true_iff in E4. apply andb_true_iff in E5. apply RShared; tauto. }
  cbv zeta in H.
  assert (X2 : d TShared = true -> isAny f [TNoAccess; TReadonly] = true).
  { intro X. rewrite X in E2. cbn [andb] in E2. apply negb_false_iff in E2. exact E2. }
  assert (X3 : isAny d [TPrivate; TInduction; TReduction] = true ->
            isAny f [TNoAccess; TReadonly; TShared] = true).
  { intro X. rewrite X in E3. cbn [andb] in E3. apply negb_false_iff in E3. exact E3. }
  destruct (negb (f TFirstPrivate) && d TFirstPrivate) eqn:E5.
  - apply andb_true_iff in E5. destruct E5 as [E5 E6]. apply negb_true_iff in E5.
    rewrite (isAny_unset d [TSecondToLastPrivate; TLastPrivate] TFirstPrivate eq_refl) in H.
    change (dUnset d TFirstPrivate TDynamicPrivate) with (d TDynamicPrivate) in H.
    destruct (isAny d [TSecondToLastPrivate; TLastPrivate]
      && negb (isAny f [TNoAccess; TReadonly; TShared; TPrivate])) eqn:E7.
    { injection H as <- <-. apply andb_true_iff in E7. destruct E7 as [E7 E8].
      apply negb_true_iff in E8. apply RDrop; try assumption.
      - unfold isAny in *. cbn [existsb] in *. rewrite orb_false_r in E7.
        apply orb_true_iff in E7. destruct E7 as [E7|E7]; rewrite E7; rewrite ?orb_true_r;
          reflexivity.
      - intros _ A B. unfold isAny in E7. cbn [existsb] in E7. rewrite A, B in E7. discriminate. }
    destruct (d TDynamicPrivate
      && negb (isAny f [TNoAccess; TReadonly; TShared; TPrivate; TSecondToLastPrivate;
                        TLastPrivate])) eqn:E8.
    { injection H as <- <-. apply andb_true_iff in E8. destruct E8 as [E8 E9].
      apply negb_true_iff in E9. unfold isAny in *. cbn [existsb] in *.
      rewrite !orb_false_r in E9. repeat rewrite orb_false_iff in E9.
      destruct E9 as (A1 & A2 & A3 & A4 & A5 & A6). apply RDrop; try assumption.
      - unfold isAny. cbn [existsb]. rewrite E8. rewrite !orb_true_r. reflexivity.
      - unfold isAny. cbn [existsb]. rewrite A1, A2, A3, A4. reflexivity.
      - intros _ _ _. split; assumption. }
    injection H as <- <-. apply RNew; try assumption.
    + intro X. rewrite X in E7. cbn [andb] in E7. apply negb_false_iff in E7. exact E7.
    + intro X. rewrite X in E8. cbn [andb] in E8. apply negb_false_iff in E8. exact E8.
  - destruct (isAny d [TSecondToLastPrivate; TLastPrivate]
      && negb (isAny f [TNoAccess; TReadonly; TShared; TPrivate])) eqn:E7;
      [injection H as <- <-; apply RSame|].
    destruct (d TDynamicPrivate
      && negb (isAny f [TNoAccess; TReadonly; TShared; TPrivate; TSecondToLastPrivate;
                        TLastPrivate])) eqn:E8; [injection H as <- <-; apply RSame|].
    injection H as <- <-. apply RNew; try assumption.
    + intro X. rewrite X in E7. cbn [andb] in E7. apply negb_false_iff in E7. exact E7.
    + intro X. rewrite X in E8. cbn [andb] in E8. apply negb_false_iff in E8. exact E8.
Qed.

Lemma clarify_descr : forall F D, exists c,
  result (prepare (tDescr F) (tDescr D)) (tDescr D) (tDescr (clarify F D)) c.
Proof.
  intros F D. unfold clarify, clarifyDescriptor.
  destruct (clarifyPrepared (prepare (tDescr F) (tDescr D)) (tDescr D)) as [r c] eqn:E.
  exists c. apply clarify_result in E. destruct c; exact E.
Qed.

Lemma isAny_prepare : forall f d ts,
  forallb (fun t => match t with
    | TNoPromotedScalar | TAddressAccess | TUseAfterLoop | TDirectAccess | TIndirectAccess
    | TExplicitAccess | THeaderAccess | TFlow | TAnti | TOutput => false
    | _ => true end) ts = true ->
  isAny (prepare f d) ts = isAny f ts.
Proof.
  intros f d ts. induction ts as [|t ts IH]; intro H; [reflexivity|].
  cbn [forallb] in H. apply andb_true_iff in H. destruct H as [H1 H2].
  unfold isAny in *. cbn [existsb]. rewrite (IH H2). f_equal. rewrite prepare_at.
  destruct t; cbn [prepared]; try reflexivity; discriminate.
Qed.

Section H.
Variable V : Type.
Variables isRed isInd : behaviour V -> Prop.
Notation cholds := (classHolds V isRed isInd).

Lemma class_new : forall f d b, cholds f b -> cholds d b -> cholds (prepare f d) b.
Proof.
  intros f d b Hf Hd.
  assert (P : forall t, match t with
    | TNoPromotedScalar | TAddressAccess | TUseAfterLoop | TDirectAccess | TIndirectAccess
    | TExplicitAccess | THeaderAccess | TFlow | TAnti | TOutput => True
    | _ => prepare f d t = f t end).
  { intro t. rewrite prepare_at. destruct t; cbn [prepared]; try exact Logic.I; reflexivity. }
  constructor.
  - rewrite (P TNoAccess). apply (hNoAccess _ _ _ _ _ Hf).
  - rewrite (P TReadonly). apply (hReadonly _ _ _ _ _ Hf).
  - rewrite (P TShared). apply (hShared _ _ _ _ _ Hf).
  - rewrite (P TPrivate). apply (hPrivate _ _ _ _ _ Hf).
  - rewrite (P TFirstPrivate), (P TLastPrivate), (P TSecondToLastPrivate), (P TDynamicPrivate).
    apply (hFirst _ _ _ _ _ Hf).
  - rewrite (P TFirstPrivate), (P TLastPrivate). apply (hLast _ _ _ _ _ Hf).
  - rewrite (P TFirstPrivate), (P TSecondToLastPrivate). apply (hSecond _ _ _ _ _ Hf).
  - rewrite (P TFirstPrivate), (P TDynamicPrivate). apply (hDynamic _ _ _ _ _ Hf).
  - rewrite (P TReduction). apply (hReduction _ _ _ _ _ Hf).
  - rewrite (P TInduction). apply (hInduction _ _ _ _ _ Hf).
  - intros A k B.
    assert (A' : exists q, prepare f d (tagOf q) = true).
    { destruct A as [A|[A|A]]; [exists KFlow|exists KAnti|exists KOutput]; exact A. }
    destruct A' as [q A']. rewrite prepare_dep in A'. apply andb_true_iff in A'.
    destruct A' as [A1 A2]. rewrite prepare_dep in B. apply andb_false_iff in B.
    destruct B as [B|B].
    + apply (hDep _ _ _ _ _ Hd); [|exact B]. destruct q; tauto.
    + apply (hDep _ _ _ _ _ Hf); [|exact B]. destruct q; tauto.
Qed.

Lemma class_sound : forall f d r c b, dropsSafely f d -> cholds f b -> cholds d b ->
  result (prepare f d) d r c -> cholds r b.
Proof.
  intros f d r c b G Hf Hd R. destruct R as [|A B|A B C E W| ].
  - exact Hd.
  - rewrite prepare_at in B. cbn [prepared] in B.
    pose proof (hShared _ _ _ _ _ Hf B) as S.
    constructor; unfold dSet; cbn [trait_eqb orb]; try apply Hd.
    + intros _. exact S.
    + intros X k Y. apply S.
  - rewrite isAny_prepare in E by reflexivity. unfold isAny in E. cbn [existsb] in E.
    rewrite orb_false_r in E. repeat rewrite orb_false_iff in E.
    destruct E as (E1 & E2 & E3 & E4).
    rewrite prepare_at in B. cbn [prepared] in B.
    destruct (G A B) as [X|[X|[X|[X|X]]]]; try congruence. destruct X as (X1 & X2 & X3).
    rewrite !prepare_at in W. cbn [prepared] in W.
    constructor; unfold dUnset; cbn [trait_eqb negb andb]; try apply Hd.
    + discriminate.
    + intro X. pose proof (hLast _ _ _ _ _ Hf (X1 X)) as Y. rewrite B in Y. exact Y.
    + intro X. pose proof (hSecond _ _ _ _ _ Hf (X2 X)) as Y. rewrite B in Y. exact Y.
    + intro X. destruct (f TDynamicPrivate) eqn:ED.
      * pose proof (hDynamic _ _ _ _ _ Hf ED) as Y. rewrite B in Y. exact Y.
      * destruct (X3 X) as [Z|[Z|Z]]; [discriminate| |].
        -- pose proof (hLast _ _ _ _ _ Hf Z) as [Y1 Y2]. rewrite B in Y1, Y2.
           split; [exact Y1|]. intro L. specialize (Y2 L). cbn zeta in *.
           destruct (length (bIters V b) <? 1)%nat eqn:N.
           ++ exists 0%nat. intro g. unfold copyOf.
              destruct (bIters V b) as [|x xs] eqn:EB; [|discriminate N]. cbn [nth_error].
              exact (Y2 g).
           ++ eexists. exact Y2.
        -- pose proof (hSecond _ _ _ _ _ Hf Z) as [Y1 Y2]. rewrite B in Y1, Y2.
           split; [exact Y1|]. intro L. specialize (Y2 L). cbn zeta in *.
           destruct (length (bIters V b) <? 2)%nat eqn:N.
           ++ exists (length (bIters V b)). intro g. unfold copyOf.
              assert (NE : nth_error (bIters V b) (length (bIters V b)) = None)
                by (apply nth_error_None; lia).
              rewrite NE. exact (Y2 g).
           ++ eexists. exact Y2.
    + intros X k Y. apply (hDep _ _ _ _ _ Hd); [exact X|].
      destruct k; exact Y.
  - apply class_new; assumption.
Qed.
End H.

Lemma getDep_mk : forall d g k, getDep (Traits d g) k = if d (tagOf k) then g k else None.
Proof. reflexivity. Qed.

Lemma getDep_clarify : forall F D k x, getDep (clarify F D) k = Some x ->
  getDep F k = Some x \/ getDep D k = Some x.
Proof.
  intros F D k x H. unfold clarify in H.
  destruct (clarifyDescriptor (tDescr F) (tDescr D)) as [r c].
  destruct c; rewrite getDep_mk in H; destruct (r (tagOf k)) eqn:E; try discriminate.
  - unfold moveIf in H. cbn [tDescr] in H. rewrite E in H. cbn [negb] in H.
    rewrite !getDep_mk in H. rewrite E in H.
    destruct (prepare (tDescr F) (tDescr D) (tagOf k)).
    + destruct (getDep F k) as [y|] eqn:EF; [|right; exact H].
      destruct (getDep D k) as [z|] eqn:ED; [|left; exact H].
      destruct (isKnownDistance z); [right|left]; exact H.
    + right; exact H.
  - right. exact H.
Qed.

Lemma true_partial : C75_true_claim true.
Proof.
  intros V isRed isInd F D b G [HF1 HF2] [HD1 HD2]. split.
  - destruct (clarify_descr F D) as [c R].
    exact (class_sound V isRed isInd _ _ _ _ b (G eq_refl) HF1 HD1 R).
  - intros k x E. destruct (getDep_clarify F D k x E) as [X|X];
      [exact (HF2 k x X)|exact (HD2 k x X)].
Qed.

Lemma marks : C75_marks_claim.
Proof.
  intros F D. destruct (clarify_descr F D) as [c R]. revert R.
  generalize (tDescr (clarify F D)) as r. intros r R.
  set (f := tDescr F) in *. set (d := tDescr D) in *.
  assert (P : forall t, In t [TNoPromotedScalar; TAddressAccess; TUseAfterLoop; TDirectAccess;
       TIndirectAccess; TExplicitAccess] -> d t = true -> prepare f d t = true).
  { intros t I1 E. rewrite prepare_at. cbn [In] in I1.
    repeat (destruct I1 as [<-|I1]; [cbn [prepared]; rewrite E; reflexivity|]).
    contradiction. }
  destruct R as [|A B|A B C E W| ].
  - split; [|split]; auto.
  - split; [|split].
    + intros t _ E. unfold dSet. rewrite E. apply orb_true_r.
    + unfold dSet. cbn [trait_eqb orb]. auto.
    + intro k. unfold dSet. destruct k; cbn [tagOf trait_eqb orb]; auto.
  - split; [|split].
    + intros t I1 X. unfold dUnset. rewrite X. cbn [In] in I1.
      repeat (destruct I1 as [<-|I1]; [reflexivity|]). contradiction.
    + unfold dUnset. cbn [trait_eqb negb andb]. auto.
    + intro k. unfold dUnset. destruct k; cbn [tagOf trait_eqb negb andb]; auto.
  - split; [|split].
    + exact P.
    + rewrite prepare_at. cbn [prepared]. intro X. apply andb_true_iff in X. tauto.
    + intro k. rewrite prepare_dep. intro X. apply andb_true_iff in X. tauto.
Qed.

(* a set of traits with a dependence has no other class *)
Lemma wf_dep : forall d k t, wellFormed d -> d (tagOf k) = true ->
  In t [TNoAccess; TReadonly; TReduction; TInduction; TPrivate; TShared; TLastPrivate;
        TFirstPrivate; TSecondToLastPrivate; TDynamicPrivate] -> d t = false.
Proof.
  intros d k t [alt [I1 W]] E I2. destruct (d t) eqn:Et; [exfalso|reflexivity].
  apply W in E. apply W in Et.
  cbn [alternatives unitTraits In] in *.
  destruct E as [E|E]; [destruct k; cbn [tagOf] in E; repeat (destruct E as [E|E]; [discriminate|]); exact E|].
  destruct Et as [Et|Et].
  - repeat (destruct I2 as [<-|I2];
      [repeat (destruct Et as [Et|Et]; [discriminate|]); exact Et|]). exact I2.
  - repeat (destruct I1 as [<-|I1];
      [destruct k; cbn [tagOf In] in E; repeat (destruct E as [E|E]; [try discriminate|]); try exact E;
       cbn [In] in Et;
       repeat (destruct Et as [<-|Et];
         [cbn [In] in I2; repeat (destruct I2 as [I2|I2]; [discriminate|]); exact I2|]); exact Et|]).
    exact I1.
Qed.

Lemma distance : C75_distance_claim.
Proof.
  intros F D k x W T E K.
  assert (TD : tDescr D (tagOf k) = true).
  { exact (proj2 (proj2 (marks F D)) k T). }
  pose proof (fun t => wf_dep (tDescr D) k t W TD) as N.
  unfold clarify in *. unfold clarifyDescriptor in *.
  destruct (clarifyPrepared (prepare (tDescr F) (tDescr D)) (tDescr D)) as [r c] eqn:EC.
  assert (X : (r, c) = (prepare (tDescr F) (tDescr D), true)).
  { rewrite <- EC. unfold clarifyPrepared, isAny. cbn [existsb].
    rewrite (N TNoAccess), (N TReadonly), (N TShared), (N TPrivate), (N TInduction),
      (N TReduction), (N TSecondToLastPrivate), (N TFirstPrivate) by (cbn [In]; tauto).
    cbn [orb andb negb]. rewrite ?andb_false_r. cbn [orb andb negb].
    assert (N1 := N TSecondToLastPrivate ltac:(cbn [In]; tauto)).
    assert (N2 := N TLastPrivate ltac:(cbn [In]; tauto)).
    assert (N3 := N TDynamicPrivate ltac:(cbn [In]; tauto)).
    rewrite ?N1, ?N2, ?N3. reflexivity. }
  injection X as -> ->. cbn [tDescr] in T. rewrite getDep_mk. rewrite T.
  unfold moveIf. cbn [tDescr]. rewrite T. cbn [negb].
  rewrite !getDep_mk. rewrite T.
  destruct (getDep F k) as [y|] eqn:EF; destruct (getDep D k) as [z|] eqn:ED.
  - destruct (isKnownDistance z) eqn:EZ; [exists z; auto|].
    exists y. split; [reflexivity|]. destruct E as [E|E]; injection E as <-; congruence.
  - exists y. split; [reflexivity|]. destruct E as [E|E]; [injection E as <-; exact K|discriminate].
  - exists z. split; [reflexivity|]. destruct E as [E|E]; [discriminate|injection E as <-; exact K].
  - destruct E; discriminate.
Qed.

Lemma allows_prepare : forall f d t, classAllows (prepare f d) t = classAllows f t.
Proof.
  intros f d t. unfold classAllows.
  rewrite !prepare_at. cbn [prepared]. reflexivity.
Qed.

Lemma any_parallel : forall f,
  isAny f [TNoAccess; TReadonly; TShared; TPrivate; TSecondToLastPrivate; TLastPrivate] = true ->
  parallel f.
Proof.
  intros f H. unfold isAny in H. cbn [existsb] in H. rewrite orb_false_r in H.
  repeat rewrite orb_true_iff in H.
  destruct H as [H|[H|[H|[H|H]]]].
  - exists Share. split; [discriminate|]. unfold classAllows. rewrite H. reflexivity.
  - exists Share. split; [discriminate|]. unfold classAllows. rewrite H. rewrite orb_true_r. reflexivity.
  - exists Share. split; [discriminate|]. unfold classAllows. rewrite H. apply orb_true_r.
  - exists MakePrivate. split; [discriminate|]. unfold classAllows. rewrite H. apply orb_true_r.
  - exists CopyInOutDynamic. split; [discriminate|]. unfold classAllows.
    destruct H as [H|H]; rewrite H; rewrite ?orb_true_r; reflexivity.
Qed.
Lemma any_weaker : forall f ts us, (forall t, In t ts -> In t us) ->
  isAny f ts = true -> isAny f us = true.
Proof.
  intros f ts us H E. unfold isAny in *. apply existsb_exists in E. destruct E as [t [I1 E]].
  apply existsb_exists. exists t. auto.
Qed.

Lemma parallel_partial : C75_parallel_claim true.
Proof.
  intros F D G P. specialize (G eq_refl). destruct (clarify_descr F D) as [c R]. revert R.
  generalize (tDescr (clarify F D)) as r. intros r R.
  set (f := tDescr F) in *. set (d := tDescr D) in *.
  destruct R as [|A B|A B C E W|N1 N2 N3 N4 N5].
  - exact P.
  - apply any_parallel. unfold isAny, dSet. cbn [existsb trait_eqb orb].
    rewrite !orb_true_r. reflexivity.
  - exists CopyOutDynamic. split; [discriminate|]. unfold classAllows, dUnset.
    cbn [trait_eqb negb andb]. unfold isAny in C. cbn [existsb] in C. rewrite orb_false_r in C.
    repeat rewrite orb_true_iff in C. destruct C as [C|[C|C]]; rewrite C; rewrite ?orb_true_r;
      reflexivity.
  - assert (Q : parallel f -> parallel (prepare f d)).
    { intros [t [Q1 Q2]]. exists t. split; [exact Q1|]. rewrite allows_prepare. exact Q2. }
    rewrite !isAny_prepare in * by reflexivity.
    assert (K : forall ts, (forall t, In t ts -> In t [TNoAccess; TReadonly; TShared; TPrivate;
                   TSecondToLastPrivate; TLastPrivate]) -> isAny f ts = true ->
                 parallel (prepare f d)).
    { intros ts I1 E. apply Q. apply any_parallel. exact (any_weaker f ts _ I1 E). }
    assert (N3' : d TPrivate = true \/ d TInduction = true \/ d TReduction = true ->
       parallel (prepare f d)).
    { intro X. apply (K [TNoAccess; TReadonly; TShared]); [cbn [In]; tauto|]. apply N3.
      unfold isAny. cbn [existsb]. destruct X as [X|[X|X]]; rewrite X; rewrite ?orb_true_r; reflexivity. }
    assert (N4' : d TSecondToLastPrivate = true \/ d TLastPrivate = true ->
       parallel (prepare f d)).
    { intro X. apply (K [TNoAccess; TReadonly; TShared; TPrivate]); [cbn [In]; tauto|]. apply N4.
      unfold isAny. cbn [existsb]. destruct X as [X|X]; rewrite X; rewrite ?orb_true_r; reflexivity. }
    assert (N5' : d TDynamicPrivate = true -> parallel (prepare f d)).
    { intro X. exact (K _ (fun t H => H) (N5 X)). }
    assert (N2' : d TShared = true -> parallel (prepare f d)).
    { intro X. apply (K [TNoAccess; TReadonly]); [cbn [In]; tauto|exact (N2 X)]. }
    destruct G as [X|[X|[X|[X|[X|X]]]]]; [exact (Q X)| |tauto|tauto|tauto|tauto].
    destruct P as [t [P1 P2]].
    unfold isAny in N1. cbn [existsb] in N1. rewrite orb_false_r in N1.
    apply orb_false_iff in N1. destruct N1 as [M1 M2].
    destruct (d TShared) eqn:Y1; [tauto|]. destruct (d TPrivate) eqn:Y2; [tauto|].
    destruct (d TInduction) eqn:Y3; [tauto|]. destruct (d TReduction) eqn:Y4; [tauto|].
    destruct (d TSecondToLastPrivate) eqn:Y5; [tauto|].
    destruct (d TLastPrivate) eqn:Y6; [tauto|].
    destruct (d TDynamicPrivate) eqn:Y7; [tauto|].
    exfalso. unfold classAllows in P2. rewrite X, M1, M2, Y1, Y2, Y3, Y4, Y5, Y6, Y7 in P2.
    destruct t; cbn [orb andb negb] in P2; congruence.
Qed.
