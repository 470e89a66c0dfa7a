(** When each definition covers a whole object, no definition is lost. *)
From Coq Require Import ZArith Bool List Arith Lia Permutation.
From Verif Require Import RangeModel RangeSpec RangeBytes MemSetModel MemSetSpec MemSetProof
  DFValueModel DFlowModel RegionModel RegionSpec RegionProof Prop_Region
  MemFlowModel MemFlowSpec MemFlowSolve MemFlowLevel MemFlowEq MemFlowCollapse MemFlowPath MemFlowReach.
Import ListNotations.
Open Scope nat_scope.

Section Whole.
Variable size : nat -> Z.
Notation whole := (wholeObject size).
Definition setWhole (s : mset) : Prop :=
  forall q l r, In (q, l) s -> In r l -> rPtr r = q /\ whole r.
Definition valWhole (x : dfval) : Prop := match x with DFull => True | DMask s => setWhole s end.

Lemma sizecmp_known a b : sizecmp (precise a) (precise b) = (if a <? b then -1 else if a =? b then 0 else 1)%Z.
Proof.
  unfold sizecmp, precise. simpl. destruct (a =? b)%Z eqn:E; [|reflexivity].
  apply Z.eqb_eq in E. subst. now rewrite Z.ltb_irrefl.
Qed.
Lemma join_whole a b : whole a -> whole b -> rPtr a = rPtr b ->
  rPtr (fst (joinRanges b (joinTags a b))) = rPtr b /\ whole (fst (joinRanges b (joinTags a b))).
Proof.
  intros [p [A1 [A2 [A3 [A4 [A5 A6]]]]]] [p' [B1 [B2 [B3 [B4 [B5 B6]]]]]] E.
  assert (p' = p) by congruence. subst p'.
  assert (T : forall x, joinTags a b = x -> rPtr x = Some p /\ rLo x = precise 0 /\ rHi x = precise (size p) /\
     rDims x = [] /\ rCollapsed x = false).
  { intros x <-. unfold joinTags. destruct (negb _); [destruct (rTags a)|]; simpl; auto. }
  destruct (joinTags a b) as [xp xl xh xd xt xn xc xhi] eqn:Ex. specialize (T _ eq_refl).
  cbn [rPtr rLo rHi rDims rCollapsed] in T. destruct T as [-> [-> [-> [-> ->]]]].
  unfold joinRanges. cbn [rDims rLo rHi fst]. rewrite B3, B4.
  rewrite !sizecmp_known, !Z.ltb_irrefl, !Z.eqb_refl. cbn. split; [congruence|]. exists p. auto 10.
Qed.
Lemma insLoop_whole Loc : whole Loc -> forall rest done ins,
  (forall r, In r done -> rPtr r = rPtr Loc /\ whole r) ->
  (forall r, In r rest -> rPtr r = rPtr Loc /\ whole r) ->
  forall r, In r (fst (fst (insLoop Loc done rest ins))) -> rPtr r = rPtr Loc /\ whole r.
Proof.
  intros HL. induction rest as [|C rest IH]; intros done ins Hd Hr r; cbn [insLoop].
  - cbn [fst]. generalize (match rDims Loc with [] => ins | _ => length done end).
    assert (K : forall n ls, In r (insertNth n Loc ls) -> r = Loc \/ In r ls).
    { induction n as [|n IHn]; intros [|y ls]; simpl; intros H; try tauto.
      - destruct H as [H|H]; auto.
      - destruct H as [H|[H|H]]; auto.
      - destruct H as [H|H]; auto.
      - destruct H as [H|H]; auto. apply IHn in H. tauto. }
    intros n H. apply K in H. destruct H as [->|H]; auto.
  - destruct (areJoinable C Loc).
    + destruct (Hr C (or_introl eq_refl)) as [H1 H2].
      destruct (join_whole C Loc H2 HL H1) as [J1 J2].
      destruct (joinRanges Loc (joinTags C Loc)) as [c ch]. cbn [fst] in *. intros H.
      apply in_app_or in H. destruct H as [H|[<-|H]]; auto. apply Hr. now right.
    + apply IH.
      * intros x H. apply in_app_or in H. destruct H as [H|[<-|[]]]; auto. apply Hr. now left.
      * intros x H. apply Hr. now right.
Qed.
Lemma insert_whole s r : setWhole s -> whole r -> setWhole (msInsert s r).
Proof.
  intros Hs Hr. unfold msInsert, minsert. destruct (mfind (rPtr r) s) as [l|] eqn:E.
  - pose proof (insLoop_whole r Hr l [] 0 (fun _ H => False_ind _ H)) as H.
    assert (HL : forall x, In x l -> rPtr x = rPtr r /\ whole x).
    { intros x Hx. apply mfind_In in E. exact (Hs _ _ x E Hx). }
    specialize (H HL). destruct (insLoop r [] l 0) as [[l' ch] i]. cbn [fst] in *.
    assert (K : forall s, setWhole s -> setWhole (mreplace (rPtr r) l' s)).
    { clear -H. induction s as [|[q x] s IH]; simpl; auto. intros Hs.
      destruct (ptr_eqb (rPtr r) q) eqn:Ep.
      - assert (rPtr r = q).
        { destruct (rPtr r), q; simpl in Ep; try discriminate; auto. apply Nat.eqb_eq in Ep. congruence. }
        intros q' l y [E|I] Hy.
        + injection E as <- <-. rewrite <- H0. auto.
        + apply (Hs q' l y); [now right|auto].
      - assert (S : setWhole s) by (intros q' l y I; apply Hs; now right).
        intros q' l y [E|I] Hy.
        + apply (Hs q' l y); [now left|auto].
        + apply (IH S q' l y); auto. }
    apply K. exact Hs.
  - cbn [fst]. intros q l x I Hx. apply in_app_or in I. destruct I as [I|[I|[]]].
    + apply (Hs q l x); auto.
    + injection I as <- <-. destruct Hx as [<-|[]]. auto.
Qed.
Lemma insertAll_whole ls : forall s, setWhole s -> (forall r, In r ls -> whole r) ->
  setWhole (fst (minsertAll s ls)).
Proof.
  induction ls as [|r ls IH]; intros s Hs Hl; simpl; auto.
  pose proof (insert_whole s r Hs (Hl r (or_introl eq_refl))) as H. unfold msInsert in H.
  destruct (minsert s r) as [[s1 c1] i]. cbn [fst] in H.
  specialize (IH s1 H (fun x Hx => Hl x (or_intror Hx))).
  destruct (minsertAll s1 ls) as [s2 c2]. exact IH.
Qed.
Lemma allLocs_whole s : setWhole s -> forall r, In r (allLocs s) -> whole r.
Proof.
  intros Hs r H. unfold allLocs in H. apply in_flat_map in H. destruct H as [[q l] [I Hr]].
  apply (Hs q l r); auto.
Qed.
Lemma nil_whole : setWhole [].
Proof. intros q l r []. Qed.
Lemma insertLocs_whole s t : setWhole s -> setWhole t -> setWhole (fst (minsertAll s (allLocs t))).
Proof. intros Hs Ht. apply insertAll_whole; auto. now apply allLocs_whole. Qed.

Variable dio : Z -> Z -> Z -> option (Z * Z * Z * Z).
Lemma inter_whole a b : whole a -> whole b -> rPtr a = rPtr b ->
  exists r, inter dio a b = IExact r /\ rPtr r = rPtr b /\ whole r.
Proof.
  intros [p [A1 [A2 [A3 [A4 [A5 A6]]]]]] [p' [B1 [B2 [B3 [B4 [B5 B6]]]]]] E.
  assert (p' = p) by congruence. subst p'.
  destruct a as [ap al ah ad at_ an ac ahi], b as [bp bl bh bd bt bn bc bhi].
  cbn [rPtr rLo rHi rDims rCollapsed] in *. subst.
  assert (G1 : (size p >? 0)%Z = true) by (rewrite Z.gtb_ltb; apply Z.ltb_lt; auto).
  assert (G2 : (0 <? size p)%Z = true) by (apply Z.ltb_lt; auto).
  unfold inter, intersectRanges, intersectScalar.
  cbn [rPtr rLo rHi rDims rCollapsed rNonCollapsable ptr_eqb negb andb orb].
  rewrite !Nat.eqb_refl, !andb_false_r. cbn [rPtr rLo rHi rCollapsed ptr_eqb negb andb orb].
  rewrite !Nat.eqb_refl. cbn [negb hasValue getValue precise orb]. rewrite G1, G2.
  cbn [andb fst setBounds rPtr].
  eexists. split; [reflexivity|]. split; [reflexivity|]. exists p. cbn. rewrite Z.min_id. auto 10.
Qed.
Lemma covered_whole l L : (forall r, In r l -> rPtr r = rPtr L /\ whole r) -> whole L ->
  forall r, In r (coveredList dio l L) -> whole r.
Proof.
  intros Hl HL r H. unfold coveredList in H. apply in_flat_map in H. destruct H as [c [Hc Hr]].
  destruct (Hl c Hc) as [C1 C2]. destruct (inter_whole c L C2 HL C1) as [x [E [_ W]]].
  rewrite E in Hr. destruct Hr as [<-|[]]. exact W.
Qed.
Lemma find_whole s L : setWhole s -> whole L -> forall r, In r (snd (findCoveredBy dio s L)) -> whole r.
Proof.
  intros Hs HL r. unfold findCoveredBy. destruct (mfind (rPtr L) s) as [l|] eqn:E; [|intros []].
  apply covered_whole; auto. intros x Hx. apply mfind_In in E. exact (Hs _ _ x E Hx).
Qed.
Lemma mintersect_whole s t : setWhole s -> setWhole t -> setWhole (fst (mintersect dio s t)).
Proof.
  intros Hs Ht. unfold mintersect.
  assert (K : forall ls a, setWhole (fst a) -> (forall r, In r ls -> whole r) ->
     setWhole (fst (fold_left (interOne dio t) ls a))).
  { induction ls as [|L ls IH]; intros [s0 ch] Ha Hl; [exact Ha|]. cbn [fold_left]. apply IH.
    - unfold interOne. destruct (contain dio t L).
      + apply insert_whole; [exact Ha|apply Hl; now left].
      + pose proof (find_whole t L Ht (Hl L (or_introl eq_refl))) as F.
        destruct (snd (findCoveredBy dio t L)) as [|x xs]; [exact Ha|].
        pose proof (insertAll_whole (x :: xs) s0 Ha F) as Q.
        destruct (minsertAll s0 (x :: xs)) as [s' c]. exact Q.
    - intros r Hr. apply Hl. now right. }
  apply K; [apply nil_whole|]. now apply allLocs_whole.
Qed.
Lemma intersect_whole x y : valWhole x -> valWhole y -> valWhole (fst (dfIntersect dio x y)).
Proof.
  destruct x as [|s], y as [|t]; simpl; auto; intros Hx Hy.
  - apply insertLocs_whole; auto. apply nil_whole.
  - pose proof (mintersect_whole s t Hx Hy) as H. destruct (mintersect dio s t). exact H.
Qed.
Lemma merge_whole x y : valWhole x -> valWhole y -> valWhole (fst (dfMerge x y)).
Proof.
  destruct x as [|s], y as [|t]; simpl; auto; intros Hx Hy.
  pose proof (insertLocs_whole s t Hx Hy) as H. unfold mmerge. destruct (minsertAll s (allLocs t)). exact H.
Qed.
Lemma covers_whole r c : whole r -> (locHas r c <-> rPtr r = Some (fst c) /\ (0 <= snd c < size (fst c))%Z).
Proof.
  intros [p [A1 [A2 [A3 [A4 [A5 A6]]]]]]. unfold locHas, covers. rewrite A6, A3, A4. simpl.
  split; intros [H1 H2]; (split; [auto|]); assert (p = fst c) by congruence; subst p; lia.
Qed.
Lemma allOrNone_whole v x L : valOk v x -> valWhole x -> whole L -> allOrNone dio x L.
Proof.
  intros Ho Hx HL. destruct x as [|s]; [right; simpl; eauto|]. unfold allOrNone. simpl.
  unfold findCoveredBy. destruct (mfind (rPtr L) s) as [l|] eqn:E; [|left; reflexivity]. cbn [snd].
  right. intros c Hc. apply mfind_In in E. destruct (proj2 Ho _ _ E) as [p [_ [NE _]]].
  destruct l as [|a l]; [congruence|].
  destruct (Hx _ _ a E (or_introl eq_refl)) as [A1 A2].
  destruct (inter_whole a L A2 HL A1) as [r [Er [R1 R2]]].
  exists r. split.
  - unfold coveredList. simpl. rewrite Er. simpl. auto.
  - apply (covers_whole r c R2). apply (covers_whole L c HL) in Hc. rewrite R1. exact Hc.
Qed.
Lemma dfFind_whole x L : valWhole x -> whole L -> forall r, In r (dfFindCoveredBy dio x L) -> whole r.
Proof.
  intros Hx HL r. destruct x as [|s]; simpl; [intros [<-|[]]; auto|]. now apply find_whole.
Qed.

Variable v : views.
Variable blockDU : block -> du.
Variable aggr : loop -> range -> range * bool.
Variable local : loop -> range -> bool.
Variable trips : loop -> nat.
Variable f : loop.
Hypothesis AG : aggrOk v aggr f.
Hypothesis AW : forall l r, nested f l -> whole r -> whole (fst (aggr l r)).
Hypothesis BW : forall b, setWhole (duDefs (blockDU b)).
Notation duAt := (duOf blockDU).

Lemma transfer_whole sums n x old :
  (forall n, setWhole (duDefs (duAt sums n))) -> valWhole (fst x) -> valWhole (fst old) ->
  valWhole (fst (fst (rTransfer blockDU sums n x old))).
Proof.
  intros HS Hx Ho. rewrite <- (code_decode n). destruct (rnode_dec (decode n) NExit) as [->|NE].
  - rewrite rTransfer_exit. unfold keepR. destruct (_ && _); auto.
  - rewrite rTransfer_eq by auto. unfold keepR. destruct (_ && _); auto. cbn [fst].
    unfold newMust. apply merge_whole; auto. cbn [dfInsertAll].
    pose proof (insertLocs_whole [] _ nil_whole (HS (decode n))) as H.
    destruct (minsertAll [] (allLocs (duDefs (duAt sums (decode n))))). exact H.
Qed.
Lemma distribute_whole l r orig a : nested f l -> (exists p, locOk v p r) -> whole r -> setWhole (fst a) ->
  setWhole (fst (distribute (aggr l r) orig a)).
Proof.
  intros N [p Hp] Hr Ha. destruct a as [own other]. unfold distribute.
  destruct (AG l p r N Hp) as [-> _]. cbn [fst]. apply insert_whole; auto.
Qed.
Hypothesis Hdio : dioSpec dio.
Hypothesis Hv : viewsOk v.
Lemma checkDef_whole l x L a : nested f l -> valOk v x -> valWhole x -> (exists p, locOk v p L) -> whole L ->
  setWhole (fst (fst a)) -> setWhole (fst (fst (checkDef dio aggr l x L a))).
Proof.
  intros N Hx Wx HL WL Wa. destruct a as [D M]. unfold checkDef.
  destruct (covered_in dio Hdio v Hv x L Hx HL) as [C1 _].
  pose proof (dfFind_whole x L Wx WL) as C2.
  destruct (dfFindCoveredBy dio x L) as [|r0 rs]; [exact Wa|]. remember (r0 :: rs) as ls eqn:E. clear E.
  cbn [fst snd] in *. revert D Wa. induction ls as [|r ls IH]; intros D Wa; [exact Wa|]. cbn [fold_left].
  inversion C1 as [|? ? C1a C1b]; subst. apply IH; auto; [intros x0 Hx0; apply C2; now right|].
  apply distribute_whole; auto. apply C2. now left.
Qed.
Lemma collapse_whole isLoop l sums g vs : nested f l ->
  (forall n, duOk v (duAt sums n)) -> (forall n, setWhole (duDefs (duAt sums n))) ->
  (forall n, rOk v (vVal vs (code n)) /\ rOk v (vArg vs (code n))) ->
  (forall n, valWhole (fst (vVal vs (code n)))) ->
  setWhole (duDefs (collapseRegion dio blockDU aggr local trips isLoop l sums g vs)).
Proof.
  intros N HS HW OK VW. unfold collapseRegion.
  assert (K : forall ns acc, setWhole (duDefs acc) ->
    setWhole (duDefs (fold_left (collapseNode dio blockDU aggr local trips isLoop l sums vs) ns acc))).
  { induction ns as [|n ns IH]; intros acc Ha; [exact Ha|]. cbn [fold_left]. apply IH.
    unfold collapseNode. set (d := duAt sums n).
    assert (Q : forall ls a, locsOk v ls -> (forall r, In r ls -> whole r) -> setWhole (fst (fst a)) ->
      setWhole (fst (fst (fold_left (fun acc Loc =>
        checkDef dio aggr l (fst (vVal vs (code NExit))) Loc
          (if hasTrips trips isLoop l then checkDef dio aggr l (fst (vVal vs (code NLatch))) Loc acc else acc)) ls a)))).
    { induction ls as [|L ls IHl]; intros a Hl Wl Wa; [exact Wa|]. cbn [fold_left].
      inversion Hl as [|? ? H1 H2]; subst. apply IHl; auto; [intros r Hr; apply Wl; now right|].
      assert (WL : whole L) by (apply Wl; now left).
      apply checkDef_whole; auto; [apply OK|]. destruct (hasTrips trips isLoop l); auto.
      apply checkDef_whole; auto. apply OK. }
    pose proof (Q (allLocs (duDefs d)) (([], []), ([], [])) (allLocs_ok v _ (proj1 (HS n)))
                  (allLocs_whole _ (HW n)) nil_whole) as Q1.
    pose proof (collectDefs_in dio Hdio v Hv blockDU aggr trips f AG isLoop l (fst (vVal vs (code NLatch)))
       (fst (vVal vs (code NExit))) d N (proj1 (proj1 (OK NLatch))) (proj1 (proj1 (OK NExit))) (HS n)) as [Q2 _].
    unfold collectDefs in *.
    match type of Q1 with setWhole (fst (fst ?X)) => destruct X as [D M] end. cbn [fst snd duDefs] in *.
    rewrite (clarified_nil dio v D (proj1 Q2)). apply insertLocs_whole; auto. }
  apply K. apply nil_whole.
Qed.

Variable bsucc bpred : block -> list block.
Variable shuffle : list (block * rnode) -> list (block * rnode).
Hypothesis SH : forall m, Permutation (shuffle m) m.
Hypothesis NO : nestOk bsucc bpred f.
Hypothesis RED : reducible bsucc f.
Hypothesis REACH : allReached bsucc f.
Variable runs ends : block -> list event -> Prop.
Hypothesis RE : forall b t, ends b t -> runs b t.
Variable real : piece -> Prop.
Hypothesis RR : realRuns bsucc real.
Variable P : cell -> Prop.
Hypothesis LO : localOk local P f.
Hypothesis HB : forall b, duOk v (blockDU b).
Hypothesis BS : blocksSound runs ends P (fun b => duUses (blockDU b)) (fun b => duDefs (blockDU b)).
Hypothesis TR : tripsExact bsucc ends real trips f.
Hypothesis TR1 : forall l, nested f l -> trips l <> 1.
Hypothesis BM : blocksMay runs (fun b => duDefs (blockDU b)) (fun b => duMayDefs (blockDU b)).
Notation summary := (summary dio bsucc bpred shuffle blockDU aggr local trips).
Notation mayOk := (mayOk bsucc runs ends).

Lemma reach_whole l g sums vs : nested f l -> levelGraph bsucc l g ->
  (forall n, setWhole (duDefs (duAt sums n))) -> solveReach dio blockDU sums g = Some vs ->
  forall n, valWhole (fst (vVal vs (code n))).
Proof.
  intros N G HW E n.
  destruct (forward_level bsucc bpred f NO RED l rval rTop rBoundary rBoundary (rMeet dio)
              (rTransfer blockDU sums) g N G) as [vs' [E' [_ [_ INV]]]].
  unfold solveReach in E. rewrite E in E'. injection E' as <-.
  apply (INV (fun x => valWhole (fst x))).
  - simpl. apply nil_whole.
  - simpl. auto.
  - simpl. apply nil_whole.
  - intros x y Hx Hy. unfold rMeet. cbn [fst]. now apply intersect_whole.
  - intros k x old Hx Ho. now apply transfer_whole.
Qed.
Theorem may_sound : forall l isLoop, nested f l ->
  exists d, summary isLoop l = Some d /\ mayOk l d /\ setWhole (duDefs d).
Proof.
  intros l. induction l as [h bs is IH] using loop_ind2. intros isLoop N.
  set (l := Loop h bs is) in *. rewrite Forall_forall in IH.
  destruct (level_facts dio Hdio v Hv bsucc bpred shuffle SH blockDU aggr local trips f NO RED REACH
              runs ends RE real RR P AG LO HB BS TR TR1 l N)
    as [sums [g [vs [Es [E [_ [E2 [G [SD [SE [SO [O1 [O2 [O3 O4]]]]]]]]]]]]]].
  assert (SM : forall i, In i (lpInner l) -> mayOk i (findSum (lpHeader i) sums) /\
                 setWhole (duDefs (findSum (lpHeader i) sums))).
  { intros i Hi. destruct (IH i Hi true (nested_inner f l i N Hi)) as [d [Ed [D1 D2]]].
    rewrite (SE i Hi) in Ed. assert (d = findSum (lpHeader i) sums) by congruence. now subst d. }
  assert (HW : forall n, setWhole (duDefs (duAt sums n))).
  { intros [| | |b|k]; simpl; auto using nil_whole.
    assert (K : forall s, (forall h d, In (h, d) s -> setWhole (duDefs d)) -> setWhole (duDefs (findSum k s))).
    { induction s as [|[k' d] s IHs]; simpl; intros H; [apply nil_whole|].
      destruct (Nat.eqb k' k); [eapply H; left; reflexivity|]. apply IHs. intros h' d' Hd. apply (H h' d'). now right. }
    apply K. intros h' d Hd.
    destruct (proj1 (summaries_in dio bsucc bpred shuffle blockDU aggr local trips (lpInner l) sums Es) h' d Hd)
      as [i [Hi [_ Ei]]].
    destruct (IH i Hi true (nested_inner f l i N Hi)) as [d' [Ed' [_ D2]]].
    assert (d' = d) by congruence. now subst d'. }
  assert (DO : forall n, duOk v (duAt sums n)) by (apply duAt_ok; auto).
  pose proof (reach_whole l g sums vs N G HW E2) as VW.
  rewrite summary_eq, Es, E. eexists. split; [reflexivity|]. split.
  - apply (level_mays dio Hdio v Hv bsucc bpred blockDU aggr local trips f NO RED
              runs ends RE P AG LO HB l N sums SD g G vs O1 isLoop BM).
    + intros i Hi. apply SM; auto.
    + intros n L Hn HL. apply (allOrNone_whole v); auto.
      * apply O1.
      * apply (allLocs_whole _ (HW n)); auto.
  - apply collapse_whole; auto.
Qed.
End Whole.
