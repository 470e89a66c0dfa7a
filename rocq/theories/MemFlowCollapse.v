(** What the collapse of a region says about bytes. *)
From Coq Require Import ZArith Bool List Arith Lia Permutation.
From Verif Require Import RangeModel RangeSpec RangeBytes MemSetModel MemSetSpec MemSetProof
  DFValueModel DFlowModel RegionModel RegionSpec
  MemFlowModel MemFlowSpec MemFlowSolve MemFlowLevel MemFlowEq.
Import ListNotations.
Open Scope nat_scope.

(** Aggregation keeps the bytes of a location. *)
Definition aggrOk (v : views) (aggr : loop -> range -> range * bool) (f : loop) : Prop :=
  forall l p r, nested f l -> locOk v p r ->
    snd (aggr l r) = true /\ locOk v p (fst (aggr l r)) /\
    forall b, covers (fst (aggr l r)) b <-> covers r b.
(** Memory that is allocated in a loop has no persistent bytes. *)
Definition localOk (local : loop -> range -> bool) (P : cell -> Prop) (f : loop) : Prop :=
  forall l r c, nested f l -> local l r = true -> locHas r c -> ~ P c.

Section Collapse.
Variable dio : Z -> Z -> Z -> option (Z * Z * Z * Z).
Hypothesis Hdio : dioSpec dio.
Variable v : views.
Hypothesis Hv : viewsOk v.
Variable blockDU : block -> du.
Variable aggr : loop -> range -> range * bool.
Variable local : loop -> range -> bool.
Variable trips : loop -> nat.
Variable f : loop.
Hypothesis AG : aggrOk v aggr f.
Variable P : cell -> Prop.
Hypothesis LO : localOk local P f.
Notation duAt := (duOf blockDU).

Definition accOk (a : mset * list (range * range)) : Prop := setOk v (fst a) /\ snd a = [].
Lemma aggr_has l p r c : nested f l -> locOk v p r -> (locHas (fst (aggr l r)) c <-> locHas r c).
Proof.
  intros N H. destruct (AG l p r N H) as [_ [A B]]. unfold locHas.
  rewrite (sh_ptr _ _ _ _ A), (sh_ptr _ _ _ _ H), B. tauto.
Qed.
Lemma distribute_in l r orig a : nested f l -> (exists p, locOk v p r) -> accOk a ->
  accOk (distribute (aggr l r) orig a) /\
  forall c, inSet (fst (distribute (aggr l r) orig a)) c <-> inSet (fst a) c \/ locHas r c.
Proof.
  intros N [p Hp] [Ha Hb]. destruct a as [own other]. cbn [fst snd] in *. subst other.
  destruct (AG l p r N Hp) as [A [B C]]. unfold distribute. rewrite A.
  unfold accOk. cbn [fst snd]. split; [split; [|auto]|].
  - exact (proj1 (insert_in v Hv own (fst (aggr l r)) (0, 0%Z) Ha (ex_intro _ p B))).
  - intros c. rewrite (proj2 (insert_in v Hv own _ c Ha (ex_intro _ p B))).
    now rewrite (aggr_has l p r c N Hp).
Qed.
Lemma clarified_nil a : accOk a -> clarified dio a = fst a.
Proof. intros [_ H]. unfold clarified, clarify. rewrite H. reflexivity. Qed.

Lemma collectUses_in isLoop l d : nested f l -> duOk v d ->
  setOk v (collectUses dio aggr local isLoop l d) /\
  forall c, P c -> inSet (duUses d) c -> inSet (collectUses dio aggr local isLoop l d) c.
Proof.
  intros N [_ [_ D]]. unfold collectUses.
  assert (K : forall ls, locsOk v ls -> forall a, accOk a ->
    let r := fold_left (fun acc Loc =>
                 if isLoop && local l Loc then acc else distribute (aggr l Loc) Loc acc) ls a in
    accOk r /\ forall c, P c -> inSet (fst a) c \/ (exists L, In L ls /\ locHas L c) -> inSet (fst r) c).
  { induction ls as [|L ls IH]; intros Hl a Ha r; unfold r; simpl.
    - split; auto. intros c _ [H|[? [[] _]]]; auto.
    - inversion Hl as [|? ? HL Hl']; subst.
      destruct (isLoop && local l L) eqn:E.
      + apply andb_true_iff in E. destruct (IH Hl' a Ha) as [A B]. split; auto.
        intros c Pc [H|[L' [[<-|H1] H2]]]; auto; [|apply B; eauto].
        exfalso. exact (LO l L c N (proj2 E) H2 Pc).
      + destruct (distribute_in l L L a N HL Ha) as [A B].
        destruct (IH Hl' _ A) as [A' B']. split; auto.
        intros c Pc H. apply B'; auto. rewrite B.
        destruct H as [H|[L' [[<-|H1] H2]]]; auto. right. eauto. }
  destruct (K (allLocs (duUses d)) (allLocs_ok v _ D) ([], [])) as [A B].
  { split; [apply setOk_nil|reflexivity]. }
  rewrite (clarified_nil _ A). split; [apply A|]. intros c Pc H. apply B; auto.
  right. now apply (inSet_locs v).
Qed.
Lemma addUse_in mi u L : valOk v mi -> setOk v u -> (exists p, locOk v p L) ->
  setOk v (addUse dio mi u L) /\
  (forall c, inSet u c -> inSet (addUse dio mi u L) c) /\
  (forall c, locHas L c -> ~ inVal mi c -> inSet (addUse dio mi u L) c).
Proof.
  intros Hm Hu [p Hp]. unfold addUse.
  assert (INS : setOk v (msInsert u L) /\
     (forall c, inSet u c -> inSet (msInsert u L) c) /\
     (forall c, locHas L c -> ~ inVal mi c -> inSet (msInsert u L) c)).
  { split; [apply (insert_in v Hv u L (0, 0%Z)); eauto|].
    split; intros c H; [|intros _]; apply (insert_in v Hv u L c); eauto. }
  destruct mi as [|s]; [exact INS|]. cbn [dfSubtract].
  pose proof (subtractFrom_ok dio Hdio v Hv s p L Hm Hp) as H.
  destruct (subtractFrom dio s L) as [b o] eqn:E. destruct b; [|destruct o; exact INS].
  destruct o as [N|].
  - destruct H as [A [_ C]].
    assert (HN : locsOk v N) by (eapply Forall_impl; [|exact A]; intros; eauto).
    destruct (insertAll_in v Hv u N Hu HN) as [B D]. split; auto. split; intros c Hc.
    + apply D. auto.
    + intros Nc. apply D. right. destruct Hc as [H1 H2].
      rewrite (sh_ptr _ _ _ _ Hp) in H1. injection H1 as H1.
      destruct (C (snd c) H2) as [r [Hr Hb]].
      { intros Hc. apply Nc. simpl. unfold inSet. now rewrite <- H1. }
      exists r. split; auto. split; auto. rewrite Forall_forall in A.
      rewrite (sh_ptr _ _ _ _ (A r Hr)). congruence.
  - exfalso. unfold subtractFrom in E. destruct (mfind (rPtr L) s) as [l|].
    + destruct (subLoop dio l [L]). discriminate.
    + discriminate.
Qed.
Lemma addUses_in mi ls : valOk v mi -> locsOk v ls -> forall u, setOk v u ->
  let r := fold_left (addUse dio mi) ls u in
  setOk v r /\ (forall c, inSet u c -> inSet r c) /\
  (forall c, (exists L, In L ls /\ locHas L c) -> ~ inVal mi c -> inSet r c).
Proof.
  intros Hm. induction ls as [|L ls IH]; intros Hl u Hu r; unfold r; simpl.
  - split; auto. split; auto. intros c [? [[] _]].
  - inversion Hl as [|? ? HL Hl']; subst. destruct (addUse_in mi u L Hm Hu HL) as [A [B C]].
    destruct (IH Hl' _ A) as [A' [B' C']]. split; auto. split; auto.
    intros c [L' [[<-|H1] H2]] Nc; [auto|]. apply C'; eauto.
Qed.

Lemma distributes_in l orig ls a : nested f l -> locsOk v ls -> accOk a ->
  let r := fold_left (fun D L => distribute (aggr l L) (orig L) D) ls a in
  accOk r /\ forall c, inSet (fst r) c <-> inSet (fst a) c \/ exists L, In L ls /\ locHas L c.
Proof.
  intros N. revert a. induction ls as [|L ls IH]; intros a Hl Ha r; unfold r; simpl.
  - split; auto. intros c. split; [auto|]. intros [H|[? [[] _]]]; auto.
  - inversion Hl as [|? ? HL Hl']; subst. destruct (distribute_in l L (orig L) a N HL Ha) as [A B].
    destruct (IH _ Hl' A) as [A' B']. split; auto. intros c. rewrite B', B. split.
    + intros [[H|H]|[L' [H1 H2]]]; auto; right; eauto.
    + intros [H|[L' [[<-|H1] H2]]]; auto. right; eauto.
Qed.
Lemma covered_in x L : valOk v x -> (exists p, locOk v p L) ->
  locsOk v (dfFindCoveredBy dio x L) /\
  forall r c, In r (dfFindCoveredBy dio x L) -> locHas r c -> locHas L c /\ inVal x c.
Proof.
  intros Hx [p Hp]. destruct x as [|s]; cbn [dfFindCoveredBy inVal].
  - split; [constructor; [eauto|constructor]|]. intros r c [<-|[]]. auto.
  - unfold findCoveredBy. rewrite (sh_ptr _ _ _ _ Hp).
    destruct (mfind (Some p) s) as [l|] eqn:Ef; cbn [snd]; [|split; [constructor|intros ? ? []]].
    destruct (proj2 Hx _ _ (mfind_In _ _ _ Ef)) as (p' & E & _ & Hl). injection E as <-.
    destruct (coveredList_ok dio Hdio v Hv p l L Hl Hp) as (A & B & _).
    split; [eapply Forall_impl; [|exact A]; eauto|]. intros r c Hr [H1 H2].
    destruct (B (snd c)) as [B1 B2]; [exists r; auto|].
    rewrite Forall_forall in A. rewrite (sh_ptr _ _ _ _ (A r Hr)) in H1. injection H1 as H1.
    split; [split; [|auto]; rewrite (sh_ptr _ _ _ _ Hp); congruence|].
    unfold inSet. rewrite <- H1. apply (setCovers_mfind v); auto. exists l; auto.
Qed.
Definition accsOk (a : (mset * list (range * range)) * (mset * list (range * range))) : Prop :=
  accOk (fst a) /\ accOk (snd a).
(** The location is found as a whole, or not at all. *)
Definition allOrNone (x : dfval) (L : range) : Prop :=
  dfFindCoveredBy dio x L = [] \/
  forall c, locHas L c -> exists r, In r (dfFindCoveredBy dio x L) /\ locHas r c.
Lemma checkDef_in l x L a : nested f l -> valOk v x -> (exists p, locOk v p L) -> accsOk a ->
  accsOk (checkDef dio aggr l x L a) /\
  (forall c, inSet (fst (fst (checkDef dio aggr l x L a))) c ->
     inSet (fst (fst a)) c \/ (locHas L c /\ inVal x c)) /\
  (forall c, inSet (fst (fst a)) c -> inSet (fst (fst (checkDef dio aggr l x L a))) c) /\
  (forall c, inSet (fst (snd a)) c -> inSet (fst (snd (checkDef dio aggr l x L a))) c) /\
  (allOrNone x L -> forall c, locHas L c ->
     inSet (fst (fst (checkDef dio aggr l x L a))) c \/ inSet (fst (snd (checkDef dio aggr l x L a))) c).
Proof.
  intros N Hx HL [A1 A2]. destruct a as [D M]. cbn [fst snd] in *. unfold checkDef.
  destruct (covered_in x L Hx HL) as [C1 C2]. unfold allOrNone.
  destruct (dfFindCoveredBy dio x L) as [|r0 rs] eqn:E.
  - destruct (distribute_in l L L M N HL A2) as [B1 B2]. unfold accsOk. cbn [fst snd].
    split; [auto|]. split; [auto|]. split; [auto|]. split; intros; rewrite ?B2; auto.
  - remember (r0 :: rs) as ls eqn:Els. clear E.
    destruct (distributes_in l (fun _ => L) ls D N C1 A1) as [B1 B2].
    unfold accsOk. cbn [fst snd]. split; [auto|]. split; [|split; [|split]].
    + intros c H. apply B2 in H. destruct H as [H|[r [H1 H2]]]; eauto.
    + intros c H. apply B2. auto.
    + auto.
    + intros [H|H] c Hc; [subst; discriminate|]. left. apply B2. right. auto.
Qed.
Lemma collectDefs_in isLoop l latch exit d : nested f l -> valOk v latch -> valOk v exit -> duOk v d ->
  let r := collectDefs dio aggr trips isLoop l latch exit d in
  accsOk r /\
  (forall c, inSet (fst (fst r)) c -> inSet (duDefs d) c /\
     (inVal exit c \/ (hasTrips trips isLoop l = true /\ inVal latch c))) /\
  ((forall L, In L (allLocs (duDefs d)) -> allOrNone exit L) ->
   forall c, inSet (duDefs d) c -> inSet (fst (fst r)) c \/ inSet (fst (snd r)) c).
Proof.
  intros N Hla Hex [D _] r. unfold r, collectDefs. clear r.
  assert (K : forall ls, locsOk v ls -> forall a, accsOk a ->
    let r := fold_left (fun acc Loc =>
        checkDef dio aggr l exit Loc (if hasTrips trips isLoop l then checkDef dio aggr l latch Loc acc else acc))
       ls a in
    accsOk r /\
    (forall c, inSet (fst (fst r)) c -> inSet (fst (fst a)) c \/
       (exists L, In L ls /\ locHas L c) /\
       (inVal exit c \/ (hasTrips trips isLoop l = true /\ inVal latch c))) /\
    (forall c, inSet (fst (fst a)) c -> inSet (fst (fst r)) c) /\
    (forall c, inSet (fst (snd a)) c -> inSet (fst (snd r)) c) /\
    ((forall L, In L ls -> allOrNone exit L) -> forall c, (exists L, In L ls /\ locHas L c) ->
       inSet (fst (fst r)) c \/ inSet (fst (snd r)) c)).
  { induction ls as [|L ls IH]; intros Hl a Ha r; unfold r; cbn [fold_left].
    - repeat split; try apply Ha; auto. intros _ c [? [[] _]].
    - inversion Hl as [|? ? HL Hl']; subst.
      set (a1 := if hasTrips trips isLoop l then checkDef dio aggr l latch L a else a).
      assert (H1 : accsOk a1 /\
        (forall c, inSet (fst (fst a1)) c -> inSet (fst (fst a)) c \/
           (locHas L c /\ hasTrips trips isLoop l = true /\ inVal latch c)) /\
        (forall c, inSet (fst (fst a)) c -> inSet (fst (fst a1)) c) /\
        (forall c, inSet (fst (snd a)) c -> inSet (fst (snd a1)) c)).
      { unfold a1. destruct (hasTrips trips isLoop l).
        - destruct (checkDef_in l latch L a N Hla HL Ha) as [B1 [B2 [B3 [B4 _]]]].
          split; auto. split; [|auto]. intros c H. apply B2 in H. tauto.
        - split; auto. }
      destruct H1 as [H1 [H2 [H3 H4]]].
      destruct (checkDef_in l exit L a1 N Hex HL H1) as [B1 [B2 [B3 [B4 B5]]]].
      destruct (IH Hl' _ B1) as [I1 [I2 [I3 [I4 I5]]]].
      split; auto. split; [|split; [auto|split; [auto|]]].
      + intros c H. apply I2 in H. destruct H as [H|[[L' [G1 G2]] G3]].
        * apply B2 in H. destruct H as [H|[G1 G2]].
          -- apply H2 in H. destruct H as [H|[G1 G2]]; [auto|]. right. split; [|auto].
             exists L. simpl; auto.
          -- right. split; [|auto]. exists L. simpl; auto.
        * right. split; [|auto]. exists L'. simpl; auto.
      + intros W c [L' [[<-|G1] G2]].
        * destruct (B5 (W L (or_introl eq_refl)) c G2) as [G|G]; auto.
        * apply I5; [intros L0 H0; apply W; now right|]. eauto. }
  destruct (K (allLocs (duDefs d)) (allLocs_ok v _ D) (([], []), ([], []))) as [A [B [_ [_ C]]]].
  { split; (split; [apply setOk_nil|reflexivity]). }
  split; auto. split.
  - intros c H. apply B in H. destruct H as [H|[H1 H2]]; [now apply inSet_nil in H|].
    split; auto. now apply (inSet_locs v).
  - intros W c H. apply C; auto. now apply (inSet_locs v).
Qed.

Section Region.
Variable isLoop : bool.
Variable l : loop.
Hypothesis N : nested f l.
Variable sums : list (block * du).
Hypothesis HS : forall n, duOk v (duAt sums n).
Variable vs : @vals rval.
Hypothesis OK : forall n, rOk v (vVal vs (code n)) /\ rOk v (vArg vs (code n)).
Notation collapse1 := (collapseNode dio blockDU aggr local trips isLoop l sums vs).

Lemma collapseNode_in acc n : duOk v acc ->
  duOk v (collapse1 acc n) /\
  (forall c, inSet (duUses acc) c -> inSet (duUses (collapse1 acc n)) c) /\
  (forall c, P c -> inSet (duUses (duAt sums n)) c -> ~ inVal (fst (vArg vs (code n))) c ->
     inSet (duUses (collapse1 acc n)) c) /\
  (forall c, inSet (duDefs (collapse1 acc n)) c -> inSet (duDefs acc) c \/
     (inSet (duDefs (duAt sums n)) c /\
      (inVal (fst (vVal vs (code NExit))) c \/
       (hasTrips trips isLoop l = true /\ inVal (fst (vVal vs (code NLatch))) c)))) /\
  (forall c, inSet (duDefs acc) c -> inSet (duDefs (collapse1 acc n)) c) /\
  (forall c, inSet (duMayDefs acc) c \/ inSet (duMayDefs (duAt sums n)) c ->
     inSet (duMayDefs (collapse1 acc n)) c) /\
  ((forall L, In L (allLocs (duDefs (duAt sums n))) -> allOrNone (fst (vVal vs (code NExit))) L) ->
   forall c, inSet (duDefs (duAt sums n)) c ->
     inSet (duDefs (collapse1 acc n)) c \/ inSet (duMayDefs (collapse1 acc n)) c).
Proof.
  intros [A1 [A2 A3]]. unfold collapseNode.
  set (d := duAt sums n). assert (Hd : duOk v d) by apply HS.
  destruct (collectUses_in isLoop l d N Hd) as [U1 U2].
  destruct (addUses_in (fst (vArg vs (code n))) (allLocs (collectUses dio aggr local isLoop l d))
              (proj1 (proj2 (OK n))) (allLocs_ok v _ U1) (duUses acc) A3) as [U3 [U4 U5]].
  destruct (collectDefs_in isLoop l (fst (vVal vs (code NLatch))) (fst (vVal vs (code NExit))) d N
              (proj1 (proj1 (OK NLatch))) (proj1 (proj1 (OK NExit))) Hd) as [D1 [D2 D3]].
  destruct (collectDefs dio aggr trips isLoop l (fst (vVal vs (code NLatch)))
              (fst (vVal vs (code NExit))) d) as [D M].
  destruct D1 as [D1 M1]. cbn [fst snd] in *.
  destruct (distributes_in l (fun L => L) (allLocs (duMayDefs d)) M N (allLocs_ok v _ (proj1 (proj2 Hd))) M1)
    as [M2 M3].
  set (M' := fold_left (fun M Loc => distribute (aggr l Loc) Loc M) (allLocs (duMayDefs d)) M) in *.
  rewrite (clarified_nil _ D1), (clarified_nil _ M2).
  destruct (insertLocs_in v Hv (duDefs acc) (fst D) A1 (proj1 D1)) as [X1 X2].
  destruct (insertLocs_in v Hv (duMayDefs acc) (fst M') A2 (proj1 M2)) as [Y1 Y2].
  cbn [duDefs duMayDefs duUses].
  split; [repeat split; cbn [duDefs duMayDefs duUses]; (apply X1 || apply Y1 || apply U3)|].
  split; [auto|]. split; [|split; [|split; [|split]]].
  - intros c Pc H Nc. apply U5; auto. apply (inSet_locs v); auto.
  - intros c H. apply X2 in H. destruct H as [H|H]; auto.
  - intros c H. apply X2. auto.
  - intros c H. apply Y2. destruct H as [H|H]; auto. right. apply M3. right.
    apply (inSet_locs v); auto. apply Hd.
  - intros W c H. destruct (D3 W c H) as [G|G]; [left; apply X2; auto|].
    right. apply Y2. right. apply M3. auto.
Qed.
Theorem collapse_in g :
  let d := collapseRegion dio blockDU aggr local trips isLoop l sums g vs in
  duOk v d /\
  (forall n c, In n (gNodes g) -> P c -> inSet (duUses (duAt sums n)) c ->
     ~ inVal (fst (vArg vs (code n))) c -> inSet (duUses d) c) /\
  (forall c, inSet (duDefs d) c ->
      inVal (fst (vVal vs (code NExit))) c \/
      (hasTrips trips isLoop l = true /\ inVal (fst (vVal vs (code NLatch))) c)) /\
  (forall n c, In n (gNodes g) -> inSet (duMayDefs (duAt sums n)) c -> inSet (duMayDefs d) c) /\
  (forall n c, In n (gNodes g) ->
     (forall L, In L (allLocs (duDefs (duAt sums n))) -> allOrNone (fst (vVal vs (code NExit))) L) ->
     inSet (duDefs (duAt sums n)) c -> inSet (duDefs d) c \/ inSet (duMayDefs d) c).
Proof.
  intros d. unfold d, collapseRegion. clear d.
  assert (K : forall ns acc, duOk v acc ->
    let d := fold_left collapse1 ns acc in
    duOk v d /\
    (forall c, inSet (duUses acc) c -> inSet (duUses d) c) /\
    (forall c, inSet (duDefs acc) c -> inSet (duDefs d) c) /\
    (forall c, inSet (duMayDefs acc) c -> inSet (duMayDefs d) c) /\
    (forall n c, In n ns -> P c -> inSet (duUses (duAt sums n)) c ->
       ~ inVal (fst (vArg vs (code n))) c -> inSet (duUses d) c) /\
    (forall c, inSet (duDefs d) c -> inSet (duDefs acc) c \/
        inVal (fst (vVal vs (code NExit))) c \/
        (hasTrips trips isLoop l = true /\ inVal (fst (vVal vs (code NLatch))) c)) /\
    (forall n c, In n ns -> inSet (duMayDefs (duAt sums n)) c -> inSet (duMayDefs d) c) /\
    (forall n c, In n ns ->
       (forall L, In L (allLocs (duDefs (duAt sums n))) -> allOrNone (fst (vVal vs (code NExit))) L) ->
       inSet (duDefs (duAt sums n)) c -> inSet (duDefs d) c \/ inSet (duMayDefs d) c)).
  { induction ns as [|n ns IH]; intros acc Ha d; unfold d; cbn [fold_left].
    - split; auto. repeat (split; auto); intros; try contradiction; auto.
    - destruct (collapseNode_in acc n Ha) as [B1 [B2 [B3 [B4 [B5 [B6 B7]]]]]].
      destruct (IH _ B1) as [I1 [I2 [I3 [I4 [I5 [I6 [I7 I8]]]]]]].
      split; auto. split; auto. split; auto. split; auto. split; [|split; [|split]].
      + intros m c [<-|Hm] Pc H Nc; [auto|eauto].
      + intros c H. apply I6 in H. destruct H as [H|H]; auto. apply B4 in H. tauto.
      + intros m c [<-|Hm] H; [auto|eauto].
      + intros m c [<-|Hm] W H; [|eauto]. destruct (B7 W c H); auto. }
  destruct (K (gNodes g) duEmpty) as [I1 [_ [_ [_ [I5 [I6 [I7 I8]]]]]]].
  { split; [|split]; apply setOk_nil. }
  split; auto. split; auto. split; [|split; auto].
  intros c H. apply I6 in H. destruct H as [H|H]; auto. now apply inSet_nil in H.
Qed.
End Region.
End Collapse.
