(** Continuations of executions against the values of live memory analysis. *)
From Coq Require Import ZArith Bool List Arith Lia Permutation.
From Verif Require Import RangeModel RangeSpec RangeBytes MemSetModel MemSetSpec MemSetProof
  DFValueModel DFlowModel RegionModel RegionSpec RegionProof Prop_Region
  MemFlowModel MemFlowSpec MemFlowSolve MemFlowLevel MemFlowEq MemFlowCollapse MemFlowPath MemFlowReach.
Import ListNotations.
Open Scope nat_scope.

Section Live.
Variable dio : Z -> Z -> Z -> option (Z * Z * Z * Z).
Hypothesis Hdio : dioSpec dio.
Variable v : views.
Hypothesis Hv : viewsOk v.
Variable bsucc bpred : block -> list block.
Variable shuffle : list (block * rnode) -> list (block * rnode).
Hypothesis SH : forall m, Permutation (shuffle m) m.
Variable blockDU : block -> du.
Variable aggr : loop -> range -> range * bool.
Variable local : loop -> range -> bool.
Variable trips : loop -> nat.
Variable f : loop.
Hypothesis NO : nestOk bsucc bpred f.
Hypothesis RED : reducible bsucc f.
Hypothesis REACH : allReached bsucc f.
Variable runs ends : block -> list event -> Prop.
Hypothesis RE : forall b t, ends b t -> runs b t.
Variable real : piece -> Prop.
Hypothesis RR : realRuns bsucc real.
Variable P : cell -> Prop.
Hypothesis AG : aggrOk v aggr f.
Hypothesis LO : localOk local P f.
Hypothesis HB : forall b, duOk v (blockDU b).
Hypothesis BS : blocksSound runs ends P (fun b => duUses (blockDU b)) (fun b => duDefs (blockDU b)).
Hypothesis TR : tripsExact bsucc ends real trips f.
Hypothesis TR1 : forall l, nested f l -> trips l <> 1.
Variable out : mset.
Notation edge := (regionEdge bsucc).
Notation duAt := (duOf blockDU).
Notation sumOk := (sumOk v bsucc runs ends real P).

(** The value of byte c is needed by the continuation p of a real run a, b is
    the last executed block. *)
Definition demand (a : piece) (b : block) (p : piece) (c : cell) : Prop :=
  lastBlock a b /\ real (a ++ p) /\ executed runs ends p /\
  (exposed c (events p) \/
   (~ written c (events p) /\ completed ends p /\ bsucc (lastOf b p) = [] /\ inSet out c)).
Lemma demand_follows a b p c : demand a b p c -> follows bsucc b p.
Proof. intros [L [R _]]. exact (proj2 RR a p b R L). Qed.
(** What is known about the boundary of a region. *)
Definition boundaryOk (l : loop) (inV outV : mset) : Prop :=
  forall a b p c, In b (lpBlocks l) -> P c -> demand a b p c ->
    (p = [] \/ exists s p', p = s :: p' /\ (fst s = lpHeader l \/ ~ In (fst s) (lpBlocks l))) ->
    inSet inV c \/ inSet outV c.
(** The first step leaves the node. *)
Definition leavesNode (l : loop) (n : rnode) (p : piece) : Prop :=
  forall i s p', p = s :: p' -> In i (lpInner l) -> n = NLoop (lpHeader i) -> ~ In (fst s) (lpBlocks i).
Definition levelOk (l : loop) (vs : @vals mset) : Prop :=
  forall a b n p c, standsFor l b n -> P c -> demand a b p c -> leavesNode l n p ->
    inSet (vArg vs (code n)) c.

Lemma lastOf_app b p q : lastOf b (p ++ q) = lastOf (lastOf b p) q.
Proof.
  revert b. induction p as [|s p IH]; intros b; [reflexivity|]. cbn [app]. now rewrite !lastOf_cons.
Qed.
Lemma lastBlock_next a b p : lastBlock a b -> lastBlock (a ++ p) (lastOf b p).
Proof.
  intros L. destruct p as [|s p].
  - rewrite app_nil_r. exact L.
  - apply lastBlock_app. assert (NE : s :: p <> []) by discriminate.
    destruct (@exists_last _ (s :: p) NE) as [r [[x tx] Er]]. rewrite Er, lastOf_snoc. apply lastBlock_snoc.
Qed.
Lemma demand_drop a b p q c : demand a b (p ++ q) c ->
  exposed c (events p) \/
  (~ written c (events p) /\ completed ends p /\ demand (a ++ p) (lastOf b p) q c).
Proof.
  intros [L [R [X D]]].
  assert (L2 := lastBlock_next a b p L). assert (R2 := R). rewrite app_assoc in R2.
  rewrite events_app in D. destruct D as [D|[W [C [E O]]]].
  - apply exposed_app in D. destruct D as [D|[W D]]; [auto|right]. split; auto.
    destruct q as [|s q].
    + destruct D as [t1 [t2 [D _]]]. destruct t1; discriminate.
    + apply (executed_app runs ends) in X; [|discriminate]. split; [tauto|]. split; [auto|].
      split; [tauto|]. split; [tauto|auto].
  - right. rewrite written_app in W. apply (completed_app ends) in C.
    split; [tauto|]. split; [tauto|]. split; [auto|]. split; [auto|].
    split; [now apply completed_executed|].
    right. split; [tauto|]. split; [tauto|]. split; auto. now rewrite <- lastOf_app.
Qed.

Section Level.
Variable l : loop.
Hypothesis N : nested f l.
Variable sums : list (block * du).
Hypothesis SD : forall h d, In (h, d) sums -> duOk v d.
Hypothesis SO : forall i, In i (lpInner l) -> sumOk i (findSum (lpHeader i) sums).
Variable g : graph.
Hypothesis G : levelGraph bsucc l g.
Variable inV outV : mset.
Variable vs : @vals mset.
Hypothesis BX : forall c, inSet (vVal vs (code NExit)) c <-> inSet inV c \/ inSet outV c.
Hypothesis ED : forall x y c, edgeX bsucc l x y -> inSet (vVal vs (code y)) c -> inSet (vArg vs (code x)) c.
Hypothesis TF : forall n c, In n (gNodes g) -> n <> NEntry -> n <> NExit ->
     inSet (duUses (duAt sums n)) c \/ (inSet (vArg vs (code n)) c /\ ~ inSet (duDefs (duAt sums n)) c) ->
     inSet (vVal vs (code n)) c.
Hypothesis BO : boundaryOk l inV outV.

(** The maximal prefix inside of a loop. *)
Lemma split_inside i p : exists r q, p = r ++ q /\ inside i r /\
  (q = [] \/ exists s q', q = s :: q' /\ ~ In (fst s) (lpBlocks i)).
Proof.
  induction p as [|s p IH].
  - exists [], []. split; auto. split; [constructor|auto].
  - destruct (in_dec Nat.eq_dec (fst s) (lpBlocks i)) as [I|I].
    + destruct IH as [r [q [-> [A B]]]]. exists (s :: r), q. split; auto. split; [constructor; auto|auto].
    + exists [], (s :: p). split; auto. split; [constructor|right; eauto].
Qed.
(** The part of a continuation inside of an inner loop. *)
Lemma inner_part a b s t p c i : In i (lpInner l) -> s = lpHeader i -> P c ->
  demand a b ((s, t) :: p) c ->
  inSet (duUses (findSum (lpHeader i) sums)) c \/
  exists r x q, (s, t) :: p = r ++ q /\ r <> [] /\ startsAt bsucc (lpHeader i) r /\ inside i r /\
    completed ends r /\ lastBlock r x /\ In x (lpBlocks i) /\ ~ written c (events r) /\
    demand (a ++ r) x q c /\ leftBefore bsucc i r q /\ leavesNode l (NLoop (lpHeader i)) q.
Proof.
  intros Hi HD Pc D. pose proof (demand_follows _ _ _ _ D) as F. pose proof D as [L [R [X _]]].
  destruct (split_inside i ((s, t) :: p)) as [r [q [E [Ir Oq]]]]. rewrite E in D, F, X, R.
  assert (Hs : In (lpHeader i) (lpBlocks i)) by apply (loHeader _ _ _ (NO i (nested_inner f l i N Hi))).
  assert (NR : r <> []).
  { intros ->. simpl in E. destruct Oq as [->|[s' [q' [-> NI]]]]; [discriminate|].
    injection E as <- _. cbn [fst] in NI. congruence. }
  assert (SR : startsAt bsucc (lpHeader i) r).
  { destruct r as [|s' r]; [congruence|]. simpl in E. injection E as <- E. cbn [app follows fst] in F.
    destruct F as [_ F]. apply (follows_app bsucc bpred) in F. split; [exact HD|]. rewrite <- HD. tauto. }
  assert (LR : exists x, lastBlock r x /\ lastOf b r = x /\ In x (lpBlocks i)).
  { destruct (@exists_last _ r NR) as [r' [[x tx] Er]]. exists x. subst r. split; [apply lastBlock_snoc|].
    split; [apply lastOf_snoc|]. apply Forall_app in Ir. destruct Ir as [_ Ir]. now inversion Ir. }
  destruct LR as [x [Lx [LE2 Ix]]].
  assert (XR : executed runs ends r).
  { destruct q as [|s' q]; [now rewrite app_nil_r in X|].
    apply (executed_app runs ends) in X; [|discriminate]. now apply completed_executed. }
  apply demand_drop in D. rewrite LE2 in D.
  destruct (SO i Hi) as [_ [U M]]. destruct D as [D|[W [CR D]]].
  - left. apply (U (events r) c); auto. exists r. split; [split; auto|split; auto].
    exists a. rewrite app_assoc in R. exact (proj1 RR _ _ R).
  - right. exists r, x, q. repeat (split; [assumption|]). split.
    + destruct q as [|s2 q].
      * exists x. split; auto. destruct D as [_ [_ [_ [D|[_ [_ [D _]]]]]]]; [|exact D].
        destruct D as [t1 [t2 [D _]]]. destruct t1; discriminate.
      * destruct Oq as [Oq|[s3 [q3 [Eq NI]]]]; [discriminate|]. injection Eq as <- <-. exact NI.
    + intros j s' q' Eq Hj Ej. destruct Oq as [->|[s2 [q2 [-> NI]]]]; [discriminate|].
      injection Eq as -> ->. injection Ej as Ej.
      assert (SI : standsFor l (lpHeader j) (NLoop (lpHeader i))).
      { left. exists j. split; auto. split; [|congruence].
        apply (loHeader _ _ _ (NO j (nested_inner f l j N Hj))). }
      apply (stands_inner bsucc bpred f NO l i _ N Hi) in SI.
      rewrite <- (loApart _ _ _ (NO l N) i j _ Hi Hj SI); auto.
      apply (loHeader _ _ _ (NO j (nested_inner f l j N Hj))).
Qed.
(** The value before a node, if the value after it is right for shorter
    continuations. *)
Lemma in_ok k : (forall a b n p c, length p < k -> standsFor l b n -> P c -> demand a b p c -> leavesNode l n p ->
    inSet (vArg vs (code n)) c) ->
  forall a b s t p c y, length ((s, t) :: p) <= k -> standsFor l s y ->
    (forall i, In i (lpInner l) -> y = NLoop (lpHeader i) -> s = lpHeader i /\ ~ In b (lpBlocks i)) ->
    P c -> demand a b ((s, t) :: p) c -> inSet (vVal vs (code y)) c.
Proof.
  intros IH a b s t p c y LE Sy HD Pc D.
  destruct (stands_node bsucc l g G s y Sy) as [Iy NE].
  assert (NX : y <> NExit) by (eapply stands_not; eauto).
  apply TF; auto. pose proof D as [L [R [X _]]].
  destruct Sy as [[i [Hi [Bi Ey]]]|[B1 [B2 Ey]]].
  - destruct (HD i Hi Ey) as [HD1 HD2]. subst y. cbn [duOf].
    destruct (inner_part a b s t p c i Hi HD1 Pc D)
      as [U|[r [x [q [E [NR [SR [Ir [CR [Lx [Ix [W [D' [LB LV]]]]]]]]]]]]]]; [auto|right].
    rewrite E in R, X. split.
    + apply (IH (a ++ r) x (NLoop (lpHeader i)) q c); auto.
      * apply (f_equal (@length _)) in E. rewrite app_length in E. destruct r; [congruence|].
        cbn [length] in E, LE. unfold piece in *. lia.
      * left. eauto.
    + intros Dc. apply W. apply (proj2 (proj2 (SO i Hi)) (events r) c); auto. exists r. split; auto.
      split.
      * split; auto. split; auto. split; auto. exists x. split; auto. destruct q as [|s2 q].
        -- destruct LB as [x' [Lx' Ex']]. left. rewrite <- Ex'. f_equal. eapply lastBlock_fun; eauto.
        -- right. exists (fst s2). split; auto. apply demand_follows in D'. apply D'.
      * exists a, q. split; auto. split; auto. intros b' Lb'. now rewrite (lastBlock_fun a b' b Lb' L).
  - subst y. cbn [duOf]. change ((s, t) :: p) with ([(s, t)] ++ p) in D. apply demand_drop in D.
    rewrite events_one in D. destruct D as [D|[W [CR D]]].
    + left. apply (proj1 (BS s) t c); auto. simpl in X. destruct X as [[_ X]|[X _]]; auto.
    + right. split.
      * apply (IH (a ++ [(s, t)]) s (NBlock s) p c); auto.
        -- right. auto.
        -- intros i s' p' _ _ Ei. discriminate.
      * intros Dc. apply W. apply (proj2 (BS s) t c); auto. now inversion CR.
Qed.
Lemma stands_block b n : standsFor l b n -> In b (lpBlocks l).
Proof. eapply standsFor_in. exact (NO l N). Qed.
Lemma level_ok : levelOk l vs.
Proof.
  assert (K : forall k a b n p c, length p < k -> standsFor l b n -> P c -> demand a b p c ->
     leavesNode l n p -> inSet (vArg vs (code n)) c).
  { induction k as [|k IH]; intros a b n p c LE Sb Pc D LV; [lia|].
    pose proof (demand_follows _ _ _ _ D) as F. pose proof (stands_block b n Sb) as Bb.
    destruct p as [|[s t] p].
    - apply (ED n NExit).
      + left. eapply re_exit; eauto. left. destruct D as [_ [_ [_ [D|[_ [_ [D _]]]]]]]; [|exact D].
        destruct D as [t1 [t2 [D _]]]. destruct t1; discriminate.
      + apply BX. apply (BO a b [] c); auto.
    - destruct F as [J F]. cbn [fst] in *.
      destruct (block_next bsucc bpred f NO RED l b n s N Sb J)
        as [[i [Hi [En [Bi Si]]]]|[[Eh E]|[[No E]|[y [Bs [Nh [Sy [Ne E]]]]]]]].
      + exfalso. exact (LV i (s, t) p eq_refl Hi En Si).
      + assert (JB : exists b, In b (lpBlocks l) /\ jumpsBack bsucc l b).
        { exists b. split; auto. unfold jumpsBack. now rewrite <- Eh. }
        apply (ED n NLatch); [left; auto|]. apply TF; try discriminate.
        * apply (lgNodes _ _ _ G). auto.
        * right. split; [|apply inSet_nil]. apply (ED NLatch NExit).
          -- right. auto.
          -- apply BX. apply (BO a b ((s, t) :: p) c); auto. right. exists (s, t), p. auto.
      + apply (ED n NExit); [left; auto|]. apply BX. apply (BO a b ((s, t) :: p) c); auto.
        right. exists (s, t), p. auto.
      + apply (ED n y); [left; auto|].
        apply (in_ok k IH a b s t p c y); auto.
        * cbn [length] in *. lia.
        * intros i Hi Ey. subst y. assert (Si := stands_inner bsucc bpred f NO l i s N Hi Sy).
          assert (Nb : ~ In b (lpBlocks i)).
          { intros Ib. apply Ne. exact (inner_of_stands bsucc bpred f NO l i b n N Hi Ib Sb). }
          split; auto. now apply (entered_at_header bsucc bpred f NO l i b s). }
  intros a b n p c Sb Pc D LV. apply (K (S (length p)) a b n p c); auto.
Qed.
(** What the level gives to an inner loop. *)
Lemma inner_boundary i : In i (lpInner l) ->
  boundaryOk i (vVal vs (code (NLoop (lpHeader i)))) (vArg vs (code (NLoop (lpHeader i)))).
Proof.
  intros Hi a b p c Bi Pc D [->|[[s t] [p' [-> [E|NI]]]]].
  - right. apply (level_ok a b (NLoop (lpHeader i)) [] c); auto.
    + left. eauto.
    + intros j s p' E. discriminate.
  - cbn [fst] in E. destruct (inner_part a b s t p' c i Hi E Pc D)
      as [U|[r [x [q [_ [_ [_ [_ [_ [_ [Ix [_ [D' [_ LV]]]]]]]]]]]]]].
    + left. assert (SH2 : standsFor l (lpHeader i) (NLoop (lpHeader i))).
      { left. exists i. split; auto. split; auto.
        apply (loHeader _ _ _ (NO i (nested_inner f l i N Hi))). }
      destruct (stands_node bsucc l g G _ _ SH2) as [Iy NE]. apply TF; auto; discriminate.
    + right. apply (level_ok (a ++ r) x (NLoop (lpHeader i)) q c); auto. left. eauto.
  - right. apply (level_ok a b (NLoop (lpHeader i)) ((s, t) :: p') c); auto.
    + left. eauto.
    + intros j s' q E Hj Ej. injection E as <- <-. injection Ej as Ej.
      assert (SI : standsFor l (lpHeader j) (NLoop (lpHeader i))).
      { left. exists j. split; auto. split; [|congruence].
        apply (loHeader _ _ _ (NO j (nested_inner f l j N Hj))). }
      apply (stands_inner bsucc bpred f NO l i _ N Hi) in SI.
      rewrite <- (loApart _ _ _ (NO l N) i j _ Hi Hj SI); auto.
      apply (loHeader _ _ _ (NO j (nested_inner f l j N Hj))).
Qed.
End Level.

Notation liveDown := (liveDown dio bsucc bpred shuffle blockDU aggr local trips).
Theorem live_sound : forall l inV outV, nested f l -> setOk v inV -> setOk v outV ->
  boundaryOk l inV outV ->
  exists res, liveDown l inV outV = Some res /\ 
    (forall k vs, In (k, vs) res -> nested l k /\ levelOk k vs /\ forall n, setOk v (vArg vs n) /\ setOk v (vVal vs n)) /\ 
    (forall k, nested l k -> exists vs, In (k, vs) res).
Proof.
  intros l. induction l as [h bs is IH] using loop_ind2. intros inV outV N Hi Ho BO.
  set (l := Loop h bs is) in *. rewrite Forall_forall in IH.
  destruct (level_facts dio Hdio v Hv bsucc bpred shuffle SH blockDU aggr local trips f NO RED REACH
              runs ends RE real RR P AG LO HB BS TR TR1 l N)
    as [sums [g [_ [Es [_ [Eg [_ [G [SD [_ [SO _]]]]]]]]]]].
  destruct (live_equations dio Hdio v Hv blockDU bsucc bpred f NO RED l g sums inV outV N G
              (duAt_ok v blockDU HB sums SD) Hi Ho) as [vs [E [O1 [BX [ED [TF _]]]]]].
  pose proof (level_ok l N sums SO g G inV outV vs BX ED TF BO) as LK.
  pose proof (inner_boundary l N sums SO g G inV outV vs BX ED TF BO) as IB.
  assert (EL : liveLevel dio bsucc bpred shuffle blockDU aggr local trips l inV outV = Some vs).
  { unfold liveLevel. rewrite Es, Eg. exact E. }
  unfold l at 1. cbn [MemFlowModel.liveDown]. fold l. rewrite EL. cbv zeta.
  assert (K : forall js, incl js is -> exists rest,
     (fix go (is : list loop) : option (list (loop * @vals mset)) :=
        match is with
        | [] => Some []
        | i :: is =>
          match liveDown i (vVal vs (code (NLoop (lpHeader i)))) (vArg vs (code (NLoop (lpHeader i)))), go is with
          | Some a, Some b => Some (a ++ b)
          | _, _ => None
          end
        end) js = Some rest /\
     (forall k vs, In (k, vs) rest -> (exists i, In i js /\ nested i k) /\ levelOk k vs /\
        forall n, setOk v (vArg vs n) /\ setOk v (vVal vs n)) /\
     (forall i k, In i js -> nested i k -> exists vs, In (k, vs) rest)).
  { induction js as [|i js IHj]; intros IN.
    - exists []. split; auto. split; [intros ? ? []|intros ? ? []].
    - destruct IHj as [rest [R1 [R2 R3]]]; [intros x Hx; apply IN; now right|].
      assert (Ii : In i (lpInner l)) by (apply IN; now left).
      destruct (IH i Ii _ _ (nested_inner f l i N Ii) (proj1 (O1 (NLoop (lpHeader i))))
                  (proj2 (O1 (NLoop (lpHeader i)))) (IB i Ii)) as [a [A1 [A2 A3]]].
      rewrite A1, R1. exists (a ++ rest). split; auto. split.
      + intros k vs' H. apply in_app_or in H. destruct H as [H|H].
        * destruct (A2 k vs' H) as [B1 B2]. split; auto. exists i. simpl; auto.
        * destruct (R2 k vs' H) as [[j [J1 J2]] B2]. split; auto. exists j. simpl; auto.
      + intros j k [<-|Hj] Nk.
        * destruct (A3 k Nk) as [vs' H]. exists vs'. apply in_or_app; auto.
        * destruct (R3 j k Hj Nk) as [vs' H]. exists vs'. apply in_or_app; auto. }
  assert (NT : forall i k, In i is -> nested i k -> nested l k).
  { intros i k Hi' Nk. induction Nk as [|k j Nk IHk Hj]; [eapply nested_inner; [constructor|exact Hi']|].
    eapply nested_inner; eauto. }
  destruct (K is (incl_refl is)) as [rest [R1 [R2 R3]]]. change (lpInner l) with is. rewrite R1. eexists. split; [reflexivity|]. split.
  - intros k vs' [H|H].
    + injection H as <- <-. split; [constructor|]. split; auto. intros n.
      rewrite <- (code_decode n). split; apply O1.
    + destruct (R2 k vs' H) as [[i [I1 I2]] B2]. split; eauto.
  - intros k Nk. assert (k = l \/ exists i, In i is /\ nested i k) as [->|[i [I1 I2]]].
    { clear -Nk. induction Nk as [|k j Nk IHk Hj]; auto. right. destruct IHk as [->|[i [I1 I2]]].
      - exists j. split; auto. constructor.
      - exists i. split; auto. eapply nested_inner; eauto. }
    + exists vs. now left.
    + destruct (R3 i k I1 I2) as [vs' H]. exists vs'. now right.
Qed.
End Live.
