(** C17, C18, C19: defined and live memory against the executions of the
    program.  The vocabulary is in MemFlowSpec.v. *)
From Coq Require Import ZArith Bool List Arith Lia Permutation.
From Verif Require Import RangeModel RangeSpec RangeBytes RangeDio MemSetModel MemSetSpec MemSetProof
  DFValueModel DFlowModel RegionModel RegionSpec RegionProof Prop_Range Prop_Region Prop_MemSet
  MemFlowModel MemFlowSpec MemFlowSolve MemFlowLevel MemFlowEq MemFlowCollapse MemFlowPath
  MemFlowReach MemFlowWhole MemFlowLive.
Import ListNotations.
Open Scope nat_scope.

(** What the analyses are given.
    - [ioDio], [ioViews]: the solver of Diophantine equations and the shapes of
      the objects are right;
    - [ioShuffle]: a DenseMap is traversed in any order;
    - [ioNest], [ioReach]: what LoopInfo guarantees for function f;
    - [ioRuns], [ioReal]: the executions are those of the control-flow graph;
    - [ioAggr], [ioLocal]: locations of loops keep their bytes, locations that
      are allocated in a loop have no bytes the user asks about (P);
    - [ioBlocks], [ioSets]: sets of basic blocks are well formed and describe
      the blocks;
    - [ioTrips]: a known trip count is right. *)
Record inputOk (dio : Z -> Z -> Z -> option (Z * Z * Z * Z)) (v : views)
    (bsucc bpred : block -> list block)
    (shuffle : list (block * rnode) -> list (block * rnode))
    (blockDU : block -> du) (aggr : loop -> range -> range * bool)
    (local : loop -> range -> bool) (trips : loop -> nat) (f : loop)
    (runs ends : block -> list event -> Prop) (real : piece -> Prop) (P : cell -> Prop) : Prop := {
  ioDio : dioSpec dio;
  ioViews : viewsOk v;
  ioShuffle : forall m, Permutation (shuffle m) m;
  ioNest : nestOk bsucc bpred f;
  ioReach : allReached bsucc f;
  ioRuns : forall b t, ends b t -> runs b t;
  ioReal : realRuns bsucc real;
  ioAggr : aggrOk v aggr f;
  ioLocal : localOk local P f;
  ioBlocks : forall b, duOk v (blockDU b);
  ioSets : blocksSound runs ends P (fun b => duUses (blockDU b)) (fun b => duDefs (blockDU b));
  ioTrips : tripsExact bsucc ends real trips f
}.
(** No loop is known to visit its header exactly once. *)
Definition noSingleTrip (trips : loop -> nat) (f : loop) : Prop :=
  forall l, nested f l -> trips l <> 1.

Section Theorems.
Variable dio : Z -> Z -> Z -> option (Z * Z * Z * Z).
Variable v : views.
Variable bsucc bpred : block -> list block.
Variable shuffle : list (block * rnode) -> list (block * rnode).
Variable blockDU : block -> du.
Variable aggr : loop -> range -> range * bool.
Variable local : loop -> range -> bool.
Variable trips : loop -> nat.
Variable f : loop.
Variable runs ends : block -> list event -> Prop.
Variable real : piece -> Prop.
Variable P : cell -> Prop.
Hypothesis IO : inputOk dio v bsucc bpred shuffle blockDU aggr local trips f runs ends real P.
Hypothesis RED : reducible bsucc f.
Hypothesis NS : noSingleTrip trips f.
Notation summary := (summary dio bsucc bpred shuffle blockDU aggr local trips).
Notation reachOf := (reachOf dio bsucc bpred shuffle blockDU aggr local trips).
Notation liveMemory := (liveMemory dio bsucc bpred shuffle blockDU aggr local trips).

Lemma facts : forall l, nested f l ->
  exists sums g vs, summaries dio bsucc bpred shuffle blockDU aggr local trips (lpInner l) = Some sums /\
    reachLevel dio bsucc bpred shuffle blockDU l sums = Some (g, vs) /\
    levelGraph bsucc l g /\ (forall h d, In (h, d) sums -> duOk v d) /\
    (forall i, In i (lpInner l) -> summary true i = Some (findSum (lpHeader i) sums)) /\
    (forall i, In i (lpInner l) -> sumOk v bsucc runs ends real P i (findSum (lpHeader i) sums)) /\
    (forall n, rOk v (vVal vs (code n)) /\ rOk v (vArg vs (code n))) /\
    (forall c, ~ inVal (fst (vVal vs (code NEntry))) c) /\
    (forall x y c, regionEdge bsucc l x y ->
      (inVal (fst (vArg vs (code y))) c -> inVal (fst (vVal vs (code x))) c) /\
      (inVal (snd (vVal vs (code x))) c -> inVal (snd (vArg vs (code y))) c)) /\
    (forall n c, In n (gNodes g) -> n <> NEntry ->
     (inVal (fst (vVal vs (code n))) c -> inSet (duDefs (duOf blockDU sums n)) c \/ inVal (fst (vArg vs (code n))) c) /\
     (inSet (duDefs (duOf blockDU sums n)) c \/ inSet (duMayDefs (duOf blockDU sums n)) c \/ inVal (snd (vArg vs (code n))) c ->
      inVal (snd (vVal vs (code n))) c)).
Proof.
  intros l N. destruct IO as [Hdio Hv SH NO REACH RE RR AG LO HB BS TR].
  destruct (level_facts dio Hdio v Hv bsucc bpred shuffle SH blockDU aggr local trips f NO RED REACH
              runs ends RE real RR P AG LO HB BS TR NS l N)
    as [sums [g [vs [H1 [H2 [_ [_ [H3 [H4 [H5 [H6 [H7 [H8 [H9 H10]]]]]]]]]]]]]].
  exists sums, g, vs. repeat (split; [assumption|]). assumption.
Qed.

(** ** C18 *)
(** Bytes reported as must defined after a basic block are written by each
    iteration up to the end of the block; before a node, by each iteration up
    to the node; after an inner loop, by each iteration which has left the
    loop. *)
Theorem C18_must_partial : forall l, nested f l ->
  exists g vs, reachOf l = Some (g, vs) /\
    (forall a p b c, iterationTo bsucc ends l p b -> real (a ++ p) -> standsFor l b (NBlock b) ->
       inVal (fst (vVal vs (code (NBlock b)))) c -> written c (events p)) /\
    (forall a p b s t n c, iterationTo bsucc ends l p b -> real (a ++ p ++ [(s, t)]) ->
       In s (lpBlocks l) -> s <> lpHeader l -> standsFor l s n -> ~ standsFor l b n ->
       inVal (fst (vArg vs (code n))) c -> written c (events p)) /\
    (forall a p b z i c, iterationTo bsucc ends l p b -> real (a ++ p ++ z) ->
       In i (lpInner l) -> In b (lpBlocks i) -> leftBefore bsucc i p z ->
       inVal (fst (vVal vs (code (NLoop (lpHeader i))))) c -> written c (events p)).
Proof.
  intros l N. pose proof IO as [Hdio Hv SH NO REACH RE RR AG LO HB BS TR].
  destruct (facts l N) as [sums [g [vs [Es [Er [G [SD [_ [SO [O1 [O2 [O3 O4]]]]]]]]]]]].
  exists g, vs. split; [unfold MemFlowModel.reachOf; rewrite Es; exact Er|]. split; [|split].
  - intros a p b c [S [I [X [L NH]]]] RA SB H.
    destruct (visits_exist bsucc bpred f NO RED l p N S I NH) as [q [n [r [-> V]]]].
    destruct (visits_ok bsucc bpred f NO l q n r N V) as [_ [b' [Lb' Sb']]].
    assert (b' = b) by (eapply lastBlock_fun; [apply lastBlock_app; exact Lb'|exact L]). subst b'.
    assert (n = NBlock b) by (exact (standsFor_fun bsucc bpred l b n (NBlock b) (NO l N) Sb' SB)). subst n.
    apply (must_out v bsucc bpred blockDU f NO runs ends real RR P BS l N sums SO g G vs O2 O3 O4 q
             (NBlock b) r [] c a V X); auto.
    + now rewrite app_nil_r.
    + intros i _ E. discriminate.
  - intros a p b s t n c [S [I [X [L NH]]]] RA Bs Nh Ss NB H.
    assert (NP : p <> []) by (destruct p; [destruct S|discriminate]).
    assert (FS : In s (bsucc b)).
    { apply (proj2 RR (a ++ p) [(s, t)] b); [now rewrite <- app_assoc|now apply lastBlock_app]. }
    destruct (visits_exist bsucc bpred f NO RED l (p ++ [(s, t)]) N) as [q [n' [r [E V]]]].
    + apply (startsAt_app bsucc bpred); auto. split; auto.
      rewrite (lastBlock_lastOf p b _ L). simpl. auto.
    + apply Forall_app. split; auto.
    + destruct p as [|s0 p]; [congruence|]. unfold blocksOf in *. cbn [map tl app] in *.
      rewrite map_app, in_app_iff. simpl. intuition.
    + destruct (visits_ok bsucc bpred f NO l q n' r N V) as [_ [s' [Ls' Ss']]].
      assert (s' = s).
      { eapply lastBlock_fun; [apply lastBlock_app with (p := q); exact Ls'|rewrite <- E].
        apply lastBlock_snoc. }
      subst s'. assert (n' = n) by (exact (standsFor_fun bsucc bpred l s n' n (NO l N) Ss' Ss)). subst n'.
      assert (q = p /\ r = [(s, t)]) as [-> ->].
      { inversion V as [t0 E1 E2 E3|q0 i r0 b0 s0 t0 Hi V0 Lb0 Bi J Si E1 E2 E3
                       |q0 n0 r0 b0 s0 t0 y V0 Lb0 Sb0 J Sl Sh Sy Ne Ed E1 E2 E3].
        - exfalso. rewrite <- E1, <- E3 in E. simpl in E. apply NP.
          apply (f_equal (@length _)) in E. rewrite app_length in E. simpl in E. destruct p; auto; simpl in E; lia.
        - exfalso. rewrite <- E3, app_assoc in E. apply app_inj_tail in E. destruct E as [E _].
          assert (b0 = b).
          { eapply lastBlock_fun; [|exact L]. rewrite E. now apply lastBlock_app. }
          subst b0. apply NB. rewrite <- E2. left. eauto.
        - rewrite <- E1, <- E3 in E. apply app_inj_tail in E. destruct E as [E E4]. split; congruence. }
      apply (must_in v bsucc bpred blockDU f NO runs ends real RR P BS l N sums SO g G vs O2 O3 O4 p
               n [(s, t)] c a V X); auto.
  - intros a p b z i c [S [I [X [L NH]]]] RA Hi Bi LB H.
    destruct (visits_exist bsucc bpred f NO RED l p N S I NH) as [q [n [r [-> V]]]].
    destruct (visits_ok bsucc bpred f NO l q n r N V) as [_ [b' [Lb' Sb']]].
    assert (b' = b) by (eapply lastBlock_fun; [apply lastBlock_app; exact Lb'|exact L]). subst b'.
    assert (n = NLoop (lpHeader i)) by (exact (inner_of_stands bsucc bpred f NO l i b n N Hi Bi Sb')). subst n.
    apply (must_out v bsucc bpred blockDU f NO runs ends real RR P BS l N sums SO g G vs O2 O3 O4 q
             (NLoop (lpHeader i)) r z c a V X); auto.
    intros j Hj E. injection E as E.
    assert (Bj : In b (lpBlocks j)).
    { apply (stands_inner bsucc bpred f NO l j b N Hj). rewrite <- E. exact Sb'. }
    rewrite <- (loApart _ _ _ (NO l N) i j b Hi Hj Bi Bj).
    destruct z as [|s z]; [|exact LB]. exists b. split; auto.
    destruct LB as [x [Lx Ex]]. assert (x = b) by (eapply lastBlock_fun; [exact Lx|exact L]). now subst x.
Qed.

(** Bytes which are written by some iteration up to the end of a block are
    reported as may defined after it, if the sets of the inner loops say what
    the loops write. *)
Theorem C18_may : 
  blocksMay runs (fun b => duDefs (blockDU b)) (fun b => duMayDefs (blockDU b)) ->
  forall l, nested f l ->
  (forall i d, In i (lpInner l) -> summary true i = Some d ->
     maysSound (duDefs d) (duMayDefs d) (anyPart bsucc runs ends i)) ->
  exists g vs, reachOf l = Some (g, vs) /\
    (forall p b n c, iterationTo bsucc ends l p b -> standsFor l b n ->
       written c (events p) -> inVal (snd (vVal vs (code n))) c).
Proof.
  intros BM l N SM. pose proof IO as [Hdio Hv SH NO REACH RE RR AG LO HB BS TR].
  destruct (facts l N) as [sums [g [vs [Es [Er [G [SD [SE [_ [O1 [O2 [O3 O4]]]]]]]]]]]].
  exists g, vs. split; [unfold MemFlowModel.reachOf; rewrite Es; exact Er|].
  intros p b n c [S [I [X [L NH]]]] SB H.
  destruct (visits_exist bsucc bpred f NO RED l p N S I NH) as [q [n' [r [-> V]]]].
  destruct (visits_ok bsucc bpred f NO l q n' r N V) as [_ [b' [Lb' Sb']]].
  assert (b' = b) by (eapply lastBlock_fun; [apply lastBlock_app; exact Lb'|exact L]). subst b'.
  assert (n' = n) by (exact (standsFor_fun bsucc bpred l b n' n (NO l N) Sb' SB)). subst n'.
  apply (completed_app ends) in X. destruct X as [X1 X2].
  apply (may_out bsucc bpred blockDU f NO runs ends RE l N sums g G vs O3 O4 BM) with (q := q) (r := r); auto.
  - intros i Hi. exact (SM i _ Hi (SE i Hi)).
  - now apply completed_executed.
Qed.

(** ** C19 *)
(** The set of uses and the set of must definitions of a loop (and of the
    whole function). *)
Theorem C19_uses_musts_partial : forall l isLoop, nested f l ->
  exists d, summary isLoop l = Some d /\
    usesSound (duUses d) P (partOf bsucc runs ends real l) /\
    mustsSound (duDefs d) (wholeOf bsucc ends real l).
Proof.
  intros l isLoop N. pose proof IO as [Hdio Hv SH NO REACH RE RR AG LO HB BS TR].
  destruct (summary_sound dio Hdio v Hv bsucc bpred shuffle SH blockDU aggr local trips f NO RED REACH
              runs ends RE real RR P AG LO HB BS TR NS l isLoop N) as [d [E [_ [U M]]]].
  exists d. auto.
Qed.

(** The sets of definitions, if each must definition is a definition of a whole
    object. *)
Theorem C19_mays_partial : forall size,
  (forall b q ls r, In (q, ls) (duDefs (blockDU b)) -> In r ls -> rPtr r = q /\ wholeObject size r) ->
  (forall l r, nested f l -> wholeObject size r -> wholeObject size (fst (aggr l r))) ->
  blocksMay runs (fun b => duDefs (blockDU b)) (fun b => duMayDefs (blockDU b)) ->
  forall l isLoop, nested f l ->
  exists d, summary isLoop l = Some d /\
    maysSound (duDefs d) (duMayDefs d) (anyPart bsucc runs ends l).
Proof.
  intros size BW AW BM l isLoop N. pose proof IO as [Hdio Hv SH NO REACH RE RR AG LO HB BS TR].
  destruct (may_sound size dio v blockDU aggr local trips f AG AW BW Hdio Hv bsucc bpred shuffle SH NO RED
              REACH runs ends RE real RR P LO HB BS TR NS BM l isLoop N) as [d [E [M _]]].
  exists d. auto.
Qed.
(** With C18_may: may definitions at each level of the nest. *)
Theorem C18_may_nested_partial : forall size,
  (forall b q ls r, In (q, ls) (duDefs (blockDU b)) -> In r ls -> rPtr r = q /\ wholeObject size r) ->
  (forall l r, nested f l -> wholeObject size r -> wholeObject size (fst (aggr l r))) ->
  blocksMay runs (fun b => duDefs (blockDU b)) (fun b => duMayDefs (blockDU b)) ->
  forall l, nested f l ->
  exists g vs, reachOf l = Some (g, vs) /\
    (forall p b n c, iterationTo bsucc ends l p b -> standsFor l b n ->
       written c (events p) -> inVal (snd (vVal vs (code n))) c).
Proof.
  intros size BW AW BM l N. apply C18_may; auto. intros i d Hi E.
  destruct (C19_mays_partial size BW AW BM i true (nested_inner f l i N Hi)) as [d' [E' M]].
  assert (d' = d) by congruence. now subst d'.
Qed.

(** ** C17 *)
(** Bytes the rest of a real run reads before it writes them are reported as
    live at the end of each basic block; so are the bytes which are alive after
    the function and are not written any more. *)
Theorem C17_live_partial : forall out, wholeFunction bsucc f -> setOk v out ->
  exists res, liveMemory f out = Some res /\
    (forall k, nested f k -> exists vs, In (k, vs) res) /\
    (forall k vs, In (k, vs) res -> nested f k /\
      forall a b p c, standsFor k b (NBlock b) -> lastBlock a b -> real (a ++ p) -> P c ->
        (continues bsucc runs ends b p -> exposed c (events p) -> inSet (vArg vs (code (NBlock b))) c) /\
        (returns bsucc ends b p -> ~ written c (events p) -> inSet out c ->
           inSet (vArg vs (code (NBlock b))) c)).
Proof.
  intros out WF HO. pose proof IO as [Hdio Hv SH NO REACH RE RR AG LO HB BS TR].
  destruct (live_sound dio Hdio v Hv bsucc bpred shuffle SH blockDU aggr local trips f NO RED REACH
              runs ends RE real RR P AG LO HB BS TR NS out f [] out (nested_self f) (setOk_nil v) HO)
    as [res [E [R1 R2]]].
  - intros a b p c Bb Pc D H. right. assert (F := demand_follows _ _ _ _ RR out _ _ _ _ D).
    destruct H as [->|[s [p' [-> H]]]].
    + destruct D as [_ [_ [_ [D|[_ [_ [_ D]]]]]]]; auto.
      destruct D as [t1 [t2 [D _]]]. destruct t1; discriminate.
    + exfalso. destruct F as [F _]. destruct (WF b (fst s) Bb F). tauto.
  - exists res. split; [exact E|]. split; [exact R2|].
    intros k vs H. destruct (R1 k vs H) as [Nk [LK _]]. split; auto.
    intros a b p c SB L RA Pc. split.
    + intros [F X] EX. apply (LK a b (NBlock b) p c); auto.
      * split; auto.
      * intros i s p' _ _ Ei. discriminate.
    + intros [F [X [x [Lx Ex]]]] W O. apply (LK a b (NBlock b) p c); auto.
      * split; auto. split; auto. split; [now apply completed_executed|]. right. split; auto. split; auto.
        split; auto. rewrite <- Ex. f_equal.
        apply (lastBlock_lastOf _ x b) in Lx. rewrite <- Lx. symmetry. apply lastOf_cons.
      * intros i s p' _ _ Ei. discriminate.
Qed.
(** The bytes which are written by the function and are visible after it are
    assumed alive at the return. *)
Lemma addAll_in (isAlloca : option nat -> bool) (ls : list range) : (forall r, In r ls -> exists p, locOk v p r) -> forall s, setOk v s ->
  setOk v (fold_left (fun s Loc => if isAlloca (rPtr Loc) then s else msInsert s Loc) ls s) /\
  forall c, inSet s c \/ (exists r, In r ls /\ locHas r c /\ isAlloca (rPtr r) = false) ->
    inSet (fold_left (fun s Loc => if isAlloca (rPtr Loc) then s else msInsert s Loc) ls s) c.
Proof.
  pose proof (ioViews _ _ _ _ _ _ _ _ _ _ _ _ _ _ IO) as Hv.
  induction ls as [|r ls IH]; intros Hl s Hs; cbn [fold_left].
  - split; auto. intros c [H|[r [[] _]]]. exact H.
  - assert (Hr := Hl r (or_introl eq_refl)).
    destruct (isAlloca (rPtr r)) eqn:E.
    + destruct (IH (fun x H => Hl x (or_intror H)) s Hs) as [A B]. split; auto.
      intros c [H|[x [[<-|H] [H2 H3]]]]; apply B; auto; [congruence|]. right. eauto.
    + destruct (insert_in v Hv s r (0, 0%Z) Hs Hr) as [Hs' _].
      destruct (IH (fun x H => Hl x (or_intror H)) _ Hs') as [A B]. split; auto.
      intros c H. apply B. destruct H as [H|[x [[<-|H] [H2 H3]]]].
      * left. apply (proj2 (insert_in v Hv s r c Hs Hr)). auto.
      * left. apply (proj2 (insert_in v Hv s r c Hs Hr)). auto.
      * right. eauto.
Qed.
Theorem C17_default_out_partial : forall size isAlloca,
  (forall b q ls r, In (q, ls) (duDefs (blockDU b)) -> In r ls -> rPtr r = q /\ wholeObject size r) ->
  (forall l r, nested f l -> wholeObject size r -> wholeObject size (fst (aggr l r))) ->
  blocksMay runs (fun b => duDefs (blockDU b)) (fun b => duMayDefs (blockDU b)) ->
  exists d, summary false f = Some d /\ setOk v (defaultOut isAlloca d) /\
    forall p c, loopRuns bsucc runs ends f p -> written c (events p) ->
      isAlloca (Some (fst c)) = false -> inSet (defaultOut isAlloca d) c.
Proof.
  intros size isAlloca BW AW BM. pose proof IO as [Hdio Hv SH NO REACH RE RR AG LO HB BS TR].
  destruct (C19_mays_partial size BW AW BM f false (nested_self f)) as [d [E M]].
  destruct (summary_sound dio Hdio v Hv bsucc bpred shuffle SH blockDU aggr local trips f NO RED REACH
              runs ends RE real RR P AG LO HB BS TR NS f false (nested_self f)) as [d' [E' [[D1 [D2 _]] _]]].
  assert (d' = d) by congruence. subst d'.
  assert (K : forall s, setOk v s -> forall r, In r (allLocs s) -> exists p, locOk v p r).
  { intros s Hs. pose proof (allLocs_ok v s Hs) as H. unfold locsOk in H. now rewrite Forall_forall in H. }
  exists d. split; auto. unfold defaultOut.
  destruct (addAll_in isAlloca (allLocs (duDefs d)) (K _ D1) [] (setOk_nil v)) as [A1 B1].
  destruct (addAll_in isAlloca (allLocs (duMayDefs d)) (K _ D2) _ A1) as [A2 B2].
  split; auto. intros p c R W NA.
  assert (Q : forall s, inSet s c -> setOk v s ->
            exists r, In r (allLocs s) /\ locHas r c /\ isAlloca (rPtr r) = false).
  { intros s H Hs. apply (inSet_locs v s c Hs) in H. destruct H as [r [H1 H2]]. exists r. split; auto. split; auto.
    rewrite (proj1 H2). exact NA. }
  assert (AP : anyPart bsucc runs ends f (events p)) by (exists p; auto).
  apply B2. destruct (M (events p) c AP W) as [H|H].
  - left. apply B1. right. exact (Q _ H D1).
  - right. exact (Q _ H D2).
Qed.
End Theorems.
Print Assumptions C18_must_partial.
Print Assumptions C18_may.
Print Assumptions C18_may_nested_partial.
Print Assumptions C19_uses_musts_partial.
Print Assumptions C19_mays_partial.
Print Assumptions C17_live_partial.
Print Assumptions C17_default_out_partial.

(** ** A concrete program *)
(** The nest of Prop_Region: 0 -> 1; loop {1, 2, 3} with header 1 and inner
    loop {2}; 1 -> 2, 2 -> 2, 2 -> 3, 3 -> 1, 1 -> 4.
      0: x = ...;  1: ... x ...;  2: y = ... t ...;  3: x = y;  4: z = x + y.
    The outer loop does two iterations, so its header is visited three times. *)
Definition cX : cell := (1, 0%Z).
Definition cY : cell := (2, 0%Z).
Definition cZ : cell := (3, 0%Z).
Definition cT : cell := (4, 0%Z).
Definition exTrace (b : block) : list event :=
  match b with
  | 0 => [Wr cX] | 1 => [Rd cX] | 2 => [Rd cT; Wr cY] | 3 => [Rd cY; Wr cX]
  | 4 => [Rd cX; Rd cY; Wr cZ] | _ => []
  end.
Definition exRuns (b : block) (t : list event) : Prop := exists u, exTrace b = t ++ u.
Definition exEnds (b : block) (t : list event) : Prop := t = exTrace b.
Definition one (p : nat) : range := bytes p 0 1.
Definition exDU (b : block) : du :=
  match b with
  | 0 => mkDU (mkset [one 1]) [] []
  | 1 => mkDU [] [] (mkset [one 1])
  | 2 => mkDU (mkset [one 2]) [] (mkset [one 4])
  | 3 => mkDU (mkset [one 1]) [] (mkset [one 2])
  | 4 => mkDU (mkset [one 3]) [] (mkset [one 1; one 2])
  | _ => duEmpty
  end.
Definition exRun : piece := map (fun b => (b, exTrace b)) [0; 1; 2; 2; 3; 1; 2; 3; 1; 4].
Definition exReal (p : piece) : Prop := exists q, exRun = p ++ q.
Definition exAggr (l : loop) (r : range) : range * bool := (r, true).
Definition exLocal (l : loop) (r : range) : bool := false.
Definition exTrips (l : loop) : nat := if Nat.eqb (lpHeader l) 1 then 3 else 0.
Definition exP (c : cell) : Prop := True.
Definition idShuffle (m : list (block * rnode)) : list (block * rnode) := m.

Lemma ex_nested k : nested exFun k -> k = exFun \/ k = exLoop \/ k = exInner.
Proof.
  intros Hk. induction Hk as [|k i H IH Hi]; auto.
  destruct IH as [->|[->| ->]]; simpl in Hi; intuition.
Qed.
Lemma ex_reach : allReached exSucc exFun.
Proof.
  intros k Hk. destruct (ex_nested k Hk) as [->|[->| ->]]; (split; [|discriminate]).
  - assert (R1 : reachedInside exSucc exFun 1) by (eapply ri_step with 0; [apply ri_header|simpl; tauto|simpl; tauto]).
    assert (R2 : reachedInside exSucc exFun 2) by (eapply ri_step with 1; [assumption|simpl; tauto|simpl; tauto]).
    intros b [<-|[<-|[<-|[<-|[<-|[]]]]]]; auto.
    + apply ri_header.
    + eapply ri_step with 2; [assumption|simpl; tauto|simpl; tauto].
    + eapply ri_step with 1; [assumption|simpl; tauto|simpl; tauto].
  - assert (R2 : reachedInside exSucc exLoop 2) by (eapply ri_step with 1; [apply ri_header|simpl; tauto|simpl; tauto]).
    intros b [<-|[<-|[<-|[]]]]; auto.
    + apply ri_header.
    + eapply ri_step with 2; [assumption|simpl; tauto|simpl; tauto].
  - intros b [<-|[]]. apply ri_header.
Qed.
(** A rank which grows along the edges of regions. *)
Lemma ranked_acyclic bsucc l (rk : rnode -> nat) :
  (forall x y, regionEdge bsucc l x y -> rk x < rk y) -> forall x, ~ regionWalk bsucc l x x.
Proof.
  intros H x W. assert (K : forall a b, regionWalk bsucc l a b -> rk a < rk b).
  { intros a b Q. induction Q as [a b E|a b c E Q IH]; [auto|]. specialize (H a b E). lia. }
  specialize (K x x W). lia.
Qed.
Definition exRank (n : rnode) : nat :=
  match n with NEntry => 0 | NBlock b => S (2 * b) | NLoop h => S (2 * h) | NLatch => 20 | NExit => 21 end.
Lemma ex_reducible : reducible exSucc exFun.
Proof.
  split.
  - intros k x Hk. apply (ranked_acyclic _ _ exRank). intros a b E.
    destruct (ex_nested k Hk) as [->|[->| ->]]; unfold exFun, exLoop, exInner in *;
      (inversion E as [y [[i [Hi [Bi Ey]]]|[B1 [B2 Ey]]]
         |u w y z S1 S2 J NH NE|u y [[i [Hi [Bi Ey]]]|[B1 [B2 Ey]]]
         |u y [[i [Hi [Bi Ey]]]|[B1 [B2 Ey]]]|NL|i Hi T]; subst; simpl in *; try lia);
      try (destruct S1 as [[i1 [Hi1 [Bi1 Ey1]]]|[B11 [B12 Ey1]]];
           destruct S2 as [[i2 [Hi2 [Bi2 Ey2]]]|[B21 [B22 Ey2]]]; subst; simpl in *);
      repeat match goal with
        | H : False |- _ => destruct H
        | H : _ \/ _ |- _ => destruct H
        | H : _ = ?i |- _ => is_var i; subst i; simpl in *
        end; try lia; try congruence;
      try (exfalso; match goal with H : forall i, _ -> ~ _ |- _ => eapply H; [left; reflexivity|simpl; tauto] end).
  - intros b Hb Hs. exists exInner. split.
    + eapply nested_inner with exLoop; [|simpl; auto]. eapply nested_inner with exFun; [constructor|simpl; auto].
    + simpl in Hb. repeat (destruct Hb as [<-|Hb]; [simpl in Hs; intuition discriminate|]). destruct Hb.
Qed.
(** Prefixes of a list of blocks. *)
Lemma prefix_runs (w : piece) bsucc : (forall b p q, w = p ++ q -> lastBlock p b -> follows bsucc b q) ->
  realRuns bsucc (fun p => exists q, w = p ++ q).
Proof.
  intros H. split.
  - intros p q [r ->]. exists (q ++ r). now rewrite app_assoc.
  - intros p q b [r E] L. rewrite <- app_assoc in E. pose proof (H b p (q ++ r) E L) as F.
    apply (follows_app bsucc bsucc) in F. tauto.
Qed.
Lemma starts_follows bsucc h w : startsAt bsucc h w ->
  forall b p q, w = p ++ q -> lastBlock p b -> follows bsucc b q.
Proof.
  intros S b p q -> L. assert (NP : p <> []) by (destruct L as [r [t ->]]; destruct r; discriminate).
  apply (startsAt_app bsucc bsucc) in S; auto. destruct S as [_ S]. now rewrite (lastBlock_lastOf p b h L) in S.
Qed.
Lemma ex_real : realRuns exSucc exReal.
Proof.
  apply prefix_runs. apply (starts_follows exSucc 0). vm_compute. intuition.
Qed.
(** Splitting of a concrete run. *)
Lemma split_at (w a r : piece) : w = a ++ r -> exists k, k <= length w /\ a = firstn k w /\ r = skipn k w.
Proof.
  intros ->. exists (length a). rewrite app_length. split; [lia|].
  rewrite firstn_app, Nat.sub_diag, firstn_all, skipn_app, Nat.sub_diag, skipn_all. simpl.
  now rewrite app_nil_r.
Qed.
(** Finished executions of a loop in a concrete run, by computation. *)
Definition inLoop (l : loop) (b : block) : bool := existsb (Nat.eqb b) (lpBlocks l).
Definition finishedAt (bsucc : block -> list block) (l : loop) (w : piece) (k m : nat) : bool :=
  let a := firstn k w in
  let p := firstn m (skipn k w) in
  let q := skipn m (skipn k w) in
  match rev a with [] => true | s :: _ => negb (inLoop l (fst s)) end &&
  match p with [] => false | s :: _ => Nat.eqb (fst s) (lpHeader l) end &&
  forallb (fun s => inLoop l (fst s)) p &&
  (match bsucc (lastOf 0 p) with [] => true | _ => false end ||
   match q with [] => false | s :: _ => negb (inLoop l (fst s)) end).
Definition allVisits (bsucc : block -> list block) (l : loop) (w : piece) (n : nat) : bool :=
  forallb (fun k => forallb (fun m => negb (finishedAt bsucc l w k m) ||
      Nat.eqb (headerVisits l (firstn m (skipn k w))) n) (seq 0 (S (length w)))) (seq 0 (S (length w))).
Lemma inLoop_ok l b : inLoop l b = true <-> In b (lpBlocks l).
Proof.
  unfold inLoop. rewrite existsb_exists. split.
  - intros [x [H E]]. apply Nat.eqb_eq in E. now subst.
  - intros H. exists b. split; auto. apply Nat.eqb_refl.
Qed.
Lemma visits_by bsucc ends l w n : allVisits bsucc l w n = true ->
  forall p, finishedRun bsucc ends (fun p => exists q, w = p ++ q) l p -> headerVisits l p = n.
Proof.
  intros H p [[S [I _]] [a [q [[z E] [EA LB]]]]]. rewrite <- !app_assoc in E.
  destruct (split_at w a (p ++ q ++ z) E) as [k [Hk [Ea E2]]].
  destruct (split_at (skipn k w) p (q ++ z) (eq_sym E2)) as [m [Hm [Ep E3]]].
  unfold allVisits in H. rewrite forallb_forall in H. specialize (H k).
  rewrite forallb_forall in H. specialize (H ltac:(apply in_seq; lia) m).
  specialize (H ltac:(apply in_seq; rewrite skipn_length in Hm; lia)).
  rewrite <- Ep in H. apply orb_true_iff in H. destruct H as [H|H]; [|now apply Nat.eqb_eq].
  exfalso. apply negb_true_iff in H. revert H. unfold finishedAt. rewrite <- Ep, <- Ea, <- E3.
  assert (H1 : match rev a with [] => true | s :: _ => negb (inLoop l (fst s)) end = true).
  { destruct (rev a) as [|[x t] r] eqn:Er; auto. apply negb_true_iff. apply not_true_iff_false.
    rewrite inLoop_ok. apply EA. exists (rev r), t. rewrite <- (rev_involutive a), Er. reflexivity. }
  assert (H2 : match p with [] => false | s :: _ => Nat.eqb (fst s) (lpHeader l) end = true).
  { destruct p as [|s p]; [destruct S|]. destruct S as [-> _]. apply Nat.eqb_refl. }
  assert (H3 : forallb (fun s => inLoop l (fst s)) p = true).
  { apply forallb_forall. intros s Hs. apply inLoop_ok. unfold inside in I. rewrite Forall_forall in I. auto. }
  rewrite H1, H2, H3. cbn [andb]. destruct q as [|s q].
  - destruct LB as [b [L Eb]]. rewrite (lastBlock_lastOf p b 0 L), Eb. discriminate.
  - cbn [app]. simpl in LB. rewrite <- inLoop_ok in LB. apply not_true_iff_false in LB. rewrite LB.
    rewrite orb_true_r. discriminate.
Qed.
Lemma ex_trips : tripsExact exSucc exEnds exReal exTrips exFun.
Proof.
  intros l p Nl T H. destruct (ex_nested l Nl) as [->|[->| ->]]; try (vm_compute in T; lia).
  apply (visits_by exSucc exEnds exLoop exRun 3); [vm_compute; reflexivity|exact H].
Qed.
(** Sets of blocks describe their traces. *)
Lemma mkset_in ls c : Forall (fun r => exists p, locOk v1 p r) ls ->
  setOk v1 (mkset ls) /\ (inSet (mkset ls) c <-> exists r, In r ls /\ locHas r c).
Proof.
  intros H. destruct (C05_history v1 ls v1_ok H) as [A B]. split; auto. apply B.
Qed.
Lemma bytes_has p lo hi c : locHas (bytes p lo hi) c <-> p = fst c /\ (lo <= snd c < hi)%Z.
Proof.
  unfold locHas, covers. simpl. split; intros [H1 H2]; split; try lia; congruence.
Qed.
Lemma bytes_all ls : Forall (fun r => exists p lo hi, r = bytes p lo hi /\ (0 <= lo <= hi)%Z /\ (hi < 2 ^ 64)%Z) ls ->
  Forall (fun r => exists p, locOk v1 p r) ls.
Proof.
  intros H. eapply Forall_impl; [|exact H]. intros r [p [lo [hi [-> [H1 H2]]]]]. exists p. now apply bytes_ok.
Qed.
Ltac okls := unfold one; apply bytes_all;
  repeat (apply Forall_cons; [do 3 eexists; (split; [reflexivity|]); lia|]); apply Forall_nil.
Ltac okset := first [apply setOk_nil|refine (proj1 (mkset_in _ (0, 0%Z) _)); okls].
Lemma ex_blocks b : duOk v1 (exDU b).
Proof. destruct b as [|[|[|[|[|b]]]]]; (split; [|split]); unfold exDU, duEmpty, one; cbn [duDefs duMayDefs duUses]; okset. Qed.
(** By computation: a byte is read before it is written, a byte is written. *)
Definition cell_eqb (a b : cell) : bool := Nat.eqb (fst a) (fst b) && Z.eqb (snd a) (snd b).
Lemma cell_eqb_ok a b : cell_eqb a b = true <-> a = b.
Proof.
  unfold cell_eqb. rewrite andb_true_iff, Nat.eqb_eq, Z.eqb_eq. destruct a, b; simpl.
  split; [intros [-> ->]; auto|intros E; injection E; auto].
Qed.
Definition readsOf (t : list event) : list cell :=
  flat_map (fun e => match e with Rd c => [c] | Wr _ => [] end) t.
Definition writesOf (t : list event) : list cell :=
  flat_map (fun e => match e with Wr c => [c] | Rd _ => [] end) t.
Fixpoint exposedOf (seen : list cell) (t : list event) : list cell :=
  match t with
  | [] => []
  | Rd c :: t => if existsb (cell_eqb c) seen then exposedOf seen t else c :: exposedOf seen t
  | Wr c :: t => exposedOf (c :: seen) t
  end.
Lemma writesOf_ok c t : written c t <-> In c (writesOf t).
Proof.
  unfold written, writesOf. rewrite in_flat_map. split.
  - intros H. exists (Wr c). simpl; auto.
  - intros [[x|x] [H E]]; simpl in E; [destruct E|]. destruct E as [->|[]]. exact H.
Qed.
Lemma exposedOf_ok c t : forall seen, ~ In c seen -> exposed c t -> In c (exposedOf seen t).
Proof.
  induction t as [|e t IH]; intros seen NI [t1 [t2 [E W]]]; [destruct t1; discriminate|].
  destruct t1 as [|e1 t1].
  - injection E as -> ->. cbn [exposedOf]. destruct (existsb (cell_eqb c) seen) eqn:X; [|left; auto].
    exfalso. apply NI. apply existsb_exists in X. destruct X as [y [Hy Ey]]. apply cell_eqb_ok in Ey. now subst.
  - injection E as <- ->. assert (EX : exposed c (t1 ++ Rd c :: t2)).
    { exists t1, t2. split; auto. intros H. apply W. now right. }
    cbn [exposedOf]. destruct e as [x|x].
    + destruct (existsb (cell_eqb x) seen); [|right]; now apply IH.
    + apply IH; auto. intros [->|H]; [|auto]. apply W. now left.
Qed.
Lemma exposed_prefix c t u : exposed c t -> exposed c (t ++ u).
Proof. apply exposed_left. Qed.
Lemma ex_sets : blocksSound exRuns exEnds exP (fun b => duUses (exDU b)) (fun b => duDefs (exDU b)).
Proof.
  intros b. split.
  - intros t c [u E] _ X. apply (exposed_prefix c t u) in X. rewrite <- E in X.
    apply (exposedOf_ok c _ [] (fun H => H)) in X.
    destruct b as [|[|[|[|[|b]]]]]; vm_compute in X; try tauto; unfold exDU; cbn [duUses];
      (refine (proj2 (proj2 (mkset_in _ c _)) _); [okls|]);
      repeat destruct X as [X|X]; try tauto; subst c;
      match goal with |- exists r, _ /\ locHas r (?p, _) => exists (one p) end;
      (split; [simpl; tauto|apply bytes_has; simpl; split; [reflexivity|lia]]).
  - intros t c -> X. apply writesOf_ok.
    destruct b as [|[|[|[|[|b]]]]]; unfold exDU, duEmpty in X; cbn [duDefs] in X;
      try (apply inSet_nil in X; destruct X; fail);
      (apply (fun W => proj1 (proj2 (mkset_in _ c W))) in X; [|okls]);
      destruct X as [r [[<-|[]] H]]; apply bytes_has in H; destruct c as [p z]; cbn [fst snd] in H;
      assert (z = 0%Z) by lia; destruct H as [<- _]; subst z; vm_compute; tauto.
Qed.
Lemma ex_input : inputOk dioInst v1 exSucc exPred idShuffle exDU exAggr exLocal exTrips exFun
  exRuns exEnds exReal exP.
Proof.
  constructor.
  - exact dioInst_ok.
  - exact v1_ok.
  - intros m. apply Permutation_refl.
  - apply C46_nonvacuous.
  - exact ex_reach.
  - intros b t ->. exists []. now rewrite app_nil_r.
  - exact ex_real.
  - intros l p r _ H. split; [reflexivity|]. split; [exact H|]. tauto.
  - intros l r c _ H. discriminate.
  - exact ex_blocks.
  - exact ex_sets.
  - exact ex_trips.
Qed.
Lemma ex_single : noSingleTrip exTrips exFun.
Proof. intros l Nl. destruct (ex_nested l Nl) as [->|[->| ->]]; discriminate. Qed.
Definition exSummary := summary dioInst exSucc exPred idShuffle exDU exAggr exLocal exTrips.
Definition exReach := reachOf dioInst exSucc exPred idShuffle exDU exAggr exLocal exTrips.
Definition exLive := liveMemory dioInst exSucc exPred idShuffle exDU exAggr exLocal exTrips.
Definition objects (s : mset) : list (option nat) := map fst s.
Definition valObjects (x : dfval) : option (list (option nat)) :=
  match x with DFull => None | DMask s => Some (objects s) end.

(** The outer loop: y and x are must definitions because two iterations are
    always done; x and t are read before they are written, y is not. *)
Example C19_nonvacuous :
  inputOk dioInst v1 exSucc exPred idShuffle exDU exAggr exLocal exTrips exFun exRuns exEnds exReal exP /\
  reducible exSucc exFun /\ noSingleTrip exTrips exFun /\
  option_map (fun d => (objects (duDefs d), objects (duUses d))) (exSummary true exLoop) =
    Some ([Some 2; Some 1], [Some 4; Some 1]) /\
  finishedRun exSucc exEnds exReal exLoop (firstn 8 (tl exRun)).
Proof.
  split; [exact ex_input|]. split; [exact ex_reducible|]. split; [exact ex_single|].
  split; [vm_compute; reflexivity|]. split.
  - split; [vm_compute; intuition|]. split; [repeat (apply Forall_cons; [simpl; tauto|]); apply Forall_nil|].
    split; [repeat constructor|]. exists 1. split.
    + exists (firstn 7 (tl exRun)), (exTrace 1). reflexivity.
    + right. exists 4. simpl. intuition discriminate.
  - exists (firstn 1 exRun), [(4, exTrace 4)]. split; [|split].
    + exists []. reflexivity.
    + intros b [q [t E]]. destruct q as [|s q]; [injection E as <- _|destruct q; discriminate].
      simpl. intuition discriminate.
    + simpl. intuition discriminate.
Qed.
(** After block 3 an iteration has written y and x; before it, y. *)
Example C18_nonvacuous :
  option_map (fun r => (valObjects (fst (vVal (snd r) (code (NBlock 3)))),
                        valObjects (fst (vArg (snd r) (code (NBlock 3)))))) (exReach exLoop) =
    Some (Some [Some 1; Some 2], Some [Some 2]) /\
  blocksMay exRuns (fun b => duDefs (exDU b)) (fun b => duMayDefs (exDU b)) /\
  (forall b q ls r, In (q, ls) (duDefs (exDU b)) -> In r ls -> rPtr r = q /\ wholeObject (fun _ => 1%Z) r) /\
  iterationTo exSucc exEnds exLoop (firstn 4 (tl exRun)) 3.
Proof.
  split; [vm_compute; reflexivity|]. split; [|split].
  - intros b t c [u E] W. left. apply writesOf_ok in W.
    assert (W' : In c (writesOf (exTrace b))).
    { apply writesOf_ok. rewrite E. apply written_app. left. now apply writesOf_ok. }
    destruct b as [|[|[|[|[|b]]]]]; vm_compute in W'; try tauto; unfold exDU; cbn [duDefs];
      (refine (proj2 (proj2 (mkset_in _ c _)) _); [okls|]);
      destruct W' as [<-|[]];
      match goal with |- exists r, _ /\ locHas r (?p, _) => exists (one p) end;
      (split; [simpl; tauto|apply bytes_has; simpl; split; [reflexivity|lia]]).
  - intros b q ls r H Hr. destruct b as [|[|[|[|[|b]]]]]; vm_compute in H; try tauto;
      (destruct H as [H|[]]; injection H as <- <-; destruct Hr as [<-|[]]; split; [reflexivity|];
       eexists; repeat split).
  - split; [vm_compute; intuition|]. split; [repeat (apply Forall_cons; [simpl; tauto|]); apply Forall_nil|].
    split; [repeat constructor|]. split.
    + exists (firstn 3 (tl exRun)), (exTrace 3). reflexivity.
    + vm_compute. intuition discriminate.
Qed.
(** z is alive after the function.  After block 0 x is alive; y is not, because
    the loop is known to write it; t is. *)
Example C17_nonvacuous :
  wholeFunction exSucc exFun /\ setOk v1 (mkset [one 3]) /\
  option_map (fun r => map (fun kv => (lpHeader (fst kv),
       map (fun n => objects (vArg (snd kv) (code n))) [NBlock 0; NBlock 1; NBlock 2; NBlock 3])) r)
    (exLive exFun (mkset [one 3])) =
  Some [(0, [[Some 4; Some 1]; []; []; []]);
        (1, [[]; [Some 4; Some 1; Some 2]; []; [Some 4; Some 1; Some 2]]);
        (2, [[]; []; [Some 4; Some 2]; []])].
Proof.
  split; [|split].
  - intros b s Hb Hs. simpl in Hb.
    repeat (destruct Hb as [<-|Hb]; [simpl in Hs; simpl; intuition (subst; auto; discriminate)|]). destruct Hb.
  - okset.
  - vm_compute. reflexivity.
Qed.

(** ** What is false *)
(** A single region. *)
Lemma flat_nested h bs k : nested (Loop h bs []) k -> k = Loop h bs [].
Proof. intros H. induction H as [|k i H IH Hi]; auto. subst k. destruct Hi. Qed.
Lemma flat_nest bsucc bpred h bs :
  (forall a b, times (bsucc a) b = times (bpred b) a) -> In h bs ->
  (forall b p, In b bs -> b <> h -> In p (bpred b) -> In p bs) ->
  nestOk bsucc bpred (Loop h bs []).
Proof.
  intros E I H k Hk. rewrite (flat_nested h bs k Hk). constructor.
  - exact E.
  - exact I.
  - exact H.
  - intros i [].
  - intros i [].
  - constructor.
  - intros i j b [].
Qed.
(** Blocks without reads; [writes b] are the bytes a block writes, [defs b] is
    its set of must definitions. *)
Definition wrTrace (writes : block -> list cell) (b : block) : list event := map Wr (writes b).
Definition wrRuns writes (b : block) (t : list event) : Prop := exists u, wrTrace writes b = t ++ u.
Definition wrEnds writes (b : block) (t : list event) : Prop := t = wrTrace writes b.
Definition wrDU (defs : block -> list range) (b : block) : du := mkDU (mkset (defs b)) [] [].
Lemma wr_written writes b c : written c (wrTrace writes b) <-> In c (writes b).
Proof.
  unfold written, wrTrace. rewrite in_map_iff. split; [intros [x [E H]]; now injection E as <-|eauto].
Qed.
Lemma wr_sets writes defs P :
  (forall b, Forall (fun r => exists p lo hi, r = bytes p lo hi /\ (0 <= lo <= hi)%Z /\ (hi < 2 ^ 64)%Z) (defs b)) ->
  (forall b r c, In r (defs b) -> locHas r c -> In c (writes b)) ->
  (forall b, duOk v1 (wrDU defs b)) /\
  blocksSound (wrRuns writes) (wrEnds writes) P (fun b => duUses (wrDU defs b)) (fun b => duDefs (wrDU defs b)) /\
  (forall b c, inSet (duDefs (wrDU defs b)) c <-> exists r, In r (defs b) /\ locHas r c).
Proof.
  intros F H. split; [|split].
  - intros b. split; [|split]; try apply setOk_nil. apply (mkset_in (defs b) (0, 0%Z)). apply bytes_all, F.
  - intros b. split.
    + intros t c [u E] _ [t1 [t2 [Et _]]]. exfalso. rewrite Et, <- app_assoc in E.
      assert (I : In (Rd c) (wrTrace writes b)) by (rewrite E; apply in_or_app; right; left; auto).
      unfold wrTrace in I. apply in_map_iff in I. destruct I as [x [I _]]. discriminate.
    + intros t c -> X. apply wr_written. apply (proj2 (mkset_in (defs b) c (bytes_all _ (F b)))) in X.
      destruct X as [r [R1 R2]]. eauto.
  - intros b c. apply mkset_in. apply bytes_all, F.
Qed.

(** R1.  A while loop whose condition fails at once: header 1 -> 2, 1 -> 3,
    2 -> 1.  The header is visited once, getSmallConstantTripCount is 1.  The
    body (block 2) is never executed, but its definition of x reaches the
    latch and becomes a must definition of the loop. *)
Definition r1Succ (b : block) : list block := match b with 1 => [2; 3] | 2 => [1] | _ => [] end.
Definition r1Pred (b : block) : list block := match b with 1 => [2] | 2 => [1] | 3 => [1] | _ => [] end.
Definition r1Loop := Loop 1 [1; 2] [].
Definition r1Writes (b : block) : list cell := match b with 2 => [cX] | _ => [] end.
Definition r1Defs (b : block) : list range := match b with 2 => [one 1] | _ => [] end.
Definition r1Run : piece := map (fun b => (b, wrTrace r1Writes b)) [1; 3].
Definition r1Real (p : piece) : Prop := exists q, r1Run = p ++ q.
Theorem C19_single_trip_refuted :
  exists trips d, 
    inputOk dioInst v1 r1Succ r1Pred idShuffle (wrDU r1Defs) exAggr exLocal trips r1Loop
      (wrRuns r1Writes) (wrEnds r1Writes) r1Real exP /\
    reducible r1Succ r1Loop /\ trips r1Loop = 1 /\
    summary dioInst r1Succ r1Pred idShuffle (wrDU r1Defs) exAggr exLocal trips true r1Loop = Some d /\
    ~ mustsSound (duDefs d) (wholeOf r1Succ (wrEnds r1Writes) r1Real r1Loop).
Proof.
  assert (TOTAL : exists d, summary dioInst r1Succ r1Pred idShuffle (wrDU r1Defs) exAggr exLocal (fun _ => 1) true r1Loop
     = Some d /\ duDefs d = mkset [one 1]).
  { eexists. split; vm_compute; reflexivity. }
  exists (fun _ => 1). destruct TOTAL as [d [Ed D]]. exists d.
  assert (ED : forall a b, times (r1Succ a) b = times (r1Pred b) a).
  { intros a b. destruct a as [|[|[|[|a]]]]; destruct b as [|[|[|[|b]]]]; reflexivity. }
  destruct (wr_sets r1Writes r1Defs exP) as [S1 [S2 S3]].
  { intros b. destruct b as [|[|[|b]]]; simpl; repeat constructor. do 3 eexists. split; [reflexivity|]. lia. }
  { intros b r c Hr Hc. destruct b as [|[|[|b]]]; simpl in Hr; try tauto. destruct Hr as [<-|[]].
    apply bytes_has in Hc. left. destruct c as [p z]. cbn [fst snd] in Hc. unfold cX. f_equal; [tauto|lia]. }
  split; [constructor|split; [|split; [|split]]].
  - exact dioInst_ok.
  - exact v1_ok.
  - intros m. apply Permutation_refl.
  - apply flat_nest; [exact ED|simpl; auto|].
    intros b p Hb NH Hp. destruct Hb as [<-|[<-|[]]]; simpl in Hp; [tauto|]. destruct Hp as [<-|[]]. simpl; auto.
  - intros k Hk. rewrite (flat_nested _ _ _ Hk). split; [|discriminate].
    intros b [<-|[<-|[]]]; [apply ri_header|]. apply ri_step with 1; [apply ri_header|simpl; tauto|simpl; tauto].
  - intros b t ->. exists []. now rewrite app_nil_r.
  - apply prefix_runs. apply (starts_follows r1Succ 1). vm_compute. intuition.
  - intros l p r _ H. split; [reflexivity|]. split; [exact H|]. tauto.
  - intros l r c _ H. discriminate.
  - exact S1.
  - exact S2.
  - intros l p Nl _ H. rewrite (flat_nested _ _ _ Nl) in *.
    apply (visits_by r1Succ (wrEnds r1Writes) r1Loop r1Run 1); [vm_compute; reflexivity|exact H].
  - clear. split.
    + intros k x Hk. rewrite (flat_nested _ _ _ Hk). apply (ranked_acyclic _ _ exRank). intros a b E.
      inversion E as [y S|u w y z SA SB J NH NE|u y S J|u y S L|NL|i Hi T]; subst.
      * destruct S as [[i [[] _]]|[_ [_ ->]]]. simpl. lia.
      * destruct SA as [[i [[] _]]|[A1 [_ ->]]], SB as [[i [[] _]]|[B1 [_ ->]]]. simpl in *.
        intuition (subst; simpl in *; lia).
      * destruct S as [[i [[] _]]|[A1 [_ ->]]]. simpl in *. intuition (subst; simpl; lia).
      * destruct S as [[i [[] _]]|[A1 [_ ->]]]. simpl in *. intuition (subst; simpl; lia).
      * simpl. lia.
      * destruct Hi.
    + intros b [<-|[<-|[]]] H; simpl in H; intuition discriminate.
  - reflexivity.
  - exact Ed.
  - clear Ed. intros M. specialize (M (events [(1, [])]) cX).
    assert (W : wholeOf r1Succ (wrEnds r1Writes) r1Real r1Loop (events [(1, [])])).
    { exists [(1, [])]. split; auto. split.
      - split; [vm_compute; auto|]. split; [repeat constructor|]. split; [repeat constructor|].
        exists 1. split; [exists [], []; reflexivity|]. right. exists 3. simpl. intuition discriminate.
      - exists [], [(3, [])]. split; [exists []; reflexivity|]. split.
        + intros b [q [t E]]. destruct q; discriminate.
        + simpl. intuition discriminate. }
    specialize (M W). rewrite D in M. destruct M.
    apply (mkset_in [one 1] cX); [okls|]. exists (one 1). split; [simpl; auto|]. apply bytes_has. simpl. lia.
Qed.
Print Assumptions C19_single_trip_refuted.

(** R2.  0 -> 1, 0 -> 2, 1 -> 3, 2 -> 3: block 1 writes 8 bytes of x, block 2
    writes 4 of them.  The 4 common bytes are must defined at the exit; they
    are what is left of the definition of block 1, so bytes 4..7 are in no set
    of the region. *)
Definition r2Succ (b : block) : list block := match b with 0 => [1; 2] | 1 => [3] | 2 => [3] | _ => [] end.
Definition r2Pred (b : block) : list block := match b with 1 => [0] | 2 => [0] | 3 => [1; 2] | _ => [] end.
Definition r2Fun := Loop 0 [0; 1; 2; 3] [].
Definition r2Cells (n : nat) : list cell := map (fun k => (1, Z.of_nat k)) (seq 0 n).
Definition r2Writes (b : block) : list cell := match b with 1 => r2Cells 8 | 2 => r2Cells 4 | _ => [] end.
Definition r2Defs (b : block) : list range := match b with 1 => [bytes 1 0 8] | 2 => [bytes 1 0 4] | _ => [] end.
Lemma r2_cells n c : In c (r2Cells n) <-> fst c = 1 /\ (0 <= snd c < Z.of_nat n)%Z.
Proof.
  unfold r2Cells. rewrite in_map_iff. split.
  - intros [k [<- H]]. apply in_seq in H. simpl. split; auto. lia.
  - intros [H1 H2]. destruct c as [p z]. cbn [fst snd] in *. exists (Z.to_nat z). split.
    + f_equal; [auto|lia].
    + apply in_seq. lia.
Qed.
Theorem C19_lost_definition_refuted :
  exists d,
    inputOk dioInst v1 r2Succ r2Pred idShuffle (wrDU r2Defs) exAggr exLocal (fun _ => 0) r2Fun
      (wrRuns r2Writes) (wrEnds r2Writes) (fun _ => False) exP /\
    reducible r2Succ r2Fun /\
    blocksMay (wrRuns r2Writes) (fun b => duDefs (wrDU r2Defs b)) (fun b => duMayDefs (wrDU r2Defs b)) /\
    summary dioInst r2Succ r2Pred idShuffle (wrDU r2Defs) exAggr exLocal (fun _ => 0) false r2Fun = Some d /\
    ~ maysSound (duDefs d) (duMayDefs d) (anyPart r2Succ (wrRuns r2Writes) (wrEnds r2Writes) r2Fun).
Proof.
  assert (TOTAL : exists d, summary dioInst r2Succ r2Pred idShuffle (wrDU r2Defs) exAggr exLocal (fun _ => 0) false r2Fun
     = Some d /\ duDefs d = mkset [bytes 1 0 4] /\ duMayDefs d = []).
  { eexists. split; [|split]; vm_compute; reflexivity. }
  destruct TOTAL as [d [Ed [D1 D2]]]. exists d.
  assert (ED : forall a b, times (r2Succ a) b = times (r2Pred b) a).
  { intros a b. destruct a as [|[|[|[|a]]]]; destruct b as [|[|[|[|b]]]]; reflexivity. }
  destruct (wr_sets r2Writes r2Defs exP) as [S1 [S2 S3]].
  { intros b. destruct b as [|[|[|b]]]; simpl; repeat constructor; do 3 eexists; (split; [reflexivity|]); lia. }
  { intros b r c Hr Hc. destruct b as [|[|[|b]]]; simpl in Hr; try tauto; destruct Hr as [<-|[]];
      apply bytes_has in Hc; apply r2_cells; simpl; intuition. }
  split; [constructor|split; [|split; [|split]]].
  - exact dioInst_ok.
  - exact v1_ok.
  - intros m. apply Permutation_refl.
  - apply flat_nest; [exact ED|simpl; auto|].
    clear. intros b p Hb NH Hp. destruct Hb as [<-|[<-|[<-|[<-|[]]]]]; simpl in Hp; simpl; tauto.
  - intros k Hk. rewrite (flat_nested _ _ _ Hk). split; [|discriminate].
    assert (R1 : reachedInside r2Succ r2Fun 1) by (apply ri_step with 0; [apply ri_header|simpl; tauto|simpl; tauto]).
    intros b [<-|[<-|[<-|[<-|[]]]]]; [apply ri_header|exact R1| |].
    + apply ri_step with 0; [apply ri_header|simpl; tauto|simpl; tauto].
    + apply ri_step with 1; [exact R1|simpl; tauto|simpl; tauto].
  - intros b t ->. exists []. now rewrite app_nil_r.
  - split; [intros p q []|intros p q b []].
  - intros l p r _ H. split; [reflexivity|]. split; [exact H|]. tauto.
  - intros l r c _ H. discriminate.
  - exact S1.
  - exact S2.
  - intros l p _ T. lia.
  - clear. split.
    + intros k x Hk. rewrite (flat_nested _ _ _ Hk). apply (ranked_acyclic _ _ exRank). intros a b E.
      inversion E as [y S|u w y z SA SB J NH NE|u y S J|u y S L|NL|i Hi T]; subst.
      * destruct S as [[i [[] _]]|[_ [_ ->]]]. simpl. lia.
      * destruct SA as [[i [[] _]]|[A1 [_ ->]]], SB as [[i [[] _]]|[B1 [_ ->]]]. simpl in *.
        intuition (subst; simpl in *; lia).
      * destruct S as [[i [[] _]]|[A1 [_ ->]]]. simpl in *. intuition (subst; simpl; lia).
      * destruct S as [[i [[] _]]|[A1 [_ ->]]]. simpl in *. intuition (subst; simpl; lia).
      * simpl. lia.
      * destruct Hi.
    + intros b [<-|[<-|[<-|[<-|[]]]]] H; simpl in H; intuition discriminate.
  - intros b t c [u E] W. left. apply S3. assert (W' : In c (r2Writes b)).
    { apply wr_written. rewrite E. apply written_app. now left. }
    destruct b as [|[|[|b]]]; cbn [r2Writes] in W'; try (destruct W'; fail); apply r2_cells in W'; eexists;
      (split; [left; reflexivity|]); apply bytes_has; split; try lia; now symmetry.
  - exact Ed.
  - clear Ed. intros M. specialize (M (events [(0, []); (1, wrTrace r2Writes 1)]) (1, 5%Z)).
    destruct M as [M|M].
    + exists [(0, []); (1, wrTrace r2Writes 1)]. split; auto. split; [vm_compute; intuition|]. split.
      * repeat (apply Forall_cons; [simpl; tauto|]); apply Forall_nil.
      * right. split; [reflexivity|]. left. split; auto. exists []. now rewrite app_nil_r.
    + vm_compute. tauto.
    + rewrite D1 in M. apply (fun W => proj1 (proj2 (mkset_in _ (1, 5%Z) W))) in M; [|okls].
      destruct M as [r [[<-|[]] H]]. apply bytes_has in H. simpl in H. lia.
    + rewrite D2 in M. now apply inSet_nil in M.
Qed.
Print Assumptions C19_lost_definition_refuted.

(** R3.  Aggregation says that the result is not the whole story (false): such
    a location is dropped if some other one lies exactly inside of the result.
    The block reads bytes 0..3 and 8..11; the second location is aggregated to
    bytes 0..11.  The reads of bytes 8..11 are lost. *)
Definition r3Fun := Loop 0 [0] [].
Definition r3Succ (b : block) : list block := [].
Definition r3DU (b : block) : du :=
  match b with 0 => mkDU [] [] (mkset [bytes 1 0 4; bytes 1 8 12]) | _ => duEmpty end.
Definition r3Aggr (l : loop) (r : range) : range * bool :=
  match rLo r with
  | SKnown _ 0%Z => (r, true)
  | _ => (bytes 1 0 12, false)
  end.
Theorem C19_dropped_use_refuted :
  exists d,
    (forall b, duOk v1 (r3DU b)) /\
    (forall l r, In r [bytes 1 0 4; bytes 1 8 12] -> forall b, covers r b -> covers (fst (r3Aggr l r)) b) /\
    summary dioInst r3Succ r3Succ idShuffle r3DU r3Aggr exLocal (fun _ => 0) false r3Fun = Some d /\
    inSet (duUses (r3DU 0)) (1, 9%Z) /\ ~ inSet (duUses d) (1, 9%Z).
Proof.
  assert (TOTAL : exists d, summary dioInst r3Succ r3Succ idShuffle r3DU r3Aggr exLocal (fun _ => 0) false r3Fun
    = Some d /\ duUses d = mkset [bytes 1 0 4]).
  { eexists. split; vm_compute; reflexivity. }
  destruct TOTAL as [d [Ed D]]. exists d.
  split; [|split; [|split; [exact Ed|split]]].
  - intros b. destruct b; (split; [|split]); cbn [r3DU duDefs duMayDefs duUses duEmpty]; okset.
  - intros l r [<-|[<-|[]]] b H; unfold covers in *; simpl in *; lia.
  - refine (proj2 (proj2 (mkset_in _ (1, 9%Z) _)) _); [okls|]. exists (bytes 1 8 12).
    split; [simpl; auto|]. apply bytes_has. simpl. lia.
  - rewrite D. intros M. apply (fun W => proj1 (proj2 (mkset_in _ (1, 9%Z) W))) in M; [|okls].
    destruct M as [r [[<-|[]] H]]. apply bytes_has in H. simpl in H. lia.
Qed.
Print Assumptions C19_dropped_use_refuted.

(** R4.  Irreducible control flow: LoopInfo finds no loop in 0 -> 1, 0 -> 2,
    1 -> 3, 2 -> 3, 3 -> 2, 3 -> 4.  Block 1 writes x.  The region is taken for
    one without cycles and is passed once. *)
Definition r4Succ (b : block) : list block :=
  match b with 0 => [1; 2] | 1 => [3] | 2 => [3] | 3 => [2; 4] | _ => [] end.
Definition r4Pred (b : block) : list block :=
  match b with 1 => [0] | 2 => [0; 3] | 3 => [1; 2] | 4 => [3] | _ => [] end.
Definition r4Fun := Loop 0 [0; 1; 2; 3; 4] [].
Definition r4Writes (b : block) : list cell := match b with 1 => [cX] | _ => [] end.
Definition r4Defs (b : block) : list range := match b with 1 => [one 1] | _ => [] end.
Definition r4Run : piece := [(0, []); (2, []); (3, []); (4, [])].
Definition r4Real (p : piece) : Prop := exists q, r4Run = p ++ q.
Theorem C18_irreducible_refuted :
  exists g vs,
    inputOk dioInst v1 r4Succ r4Pred idShuffle (wrDU r4Defs) exAggr exLocal (fun _ => 0) r4Fun
      (wrRuns r4Writes) (wrEnds r4Writes) r4Real exP /\
    reachOf dioInst r4Succ r4Pred idShuffle (wrDU r4Defs) exAggr exLocal (fun _ => 0) r4Fun = Some (g, vs) /\
    iterationTo r4Succ (wrEnds r4Writes) r4Fun r4Run 4 /\ r4Real r4Run /\
    inVal (fst (vVal vs (code (NBlock 4)))) cX /\ ~ written cX (events r4Run).
Proof.
  assert (TOTAL : exists g vs,
    reachOf dioInst r4Succ r4Pred idShuffle (wrDU r4Defs) exAggr exLocal (fun _ => 0) r4Fun = Some (g, vs) /\
    fst (vVal vs (code (NBlock 4))) = DMask (mkset [one 1])).
  { eexists. eexists. split; vm_compute; reflexivity. }
  destruct TOTAL as [g [vs [E V]]]. exists g, vs.
  destruct (wr_sets r4Writes r4Defs exP) as [S1 [S2 S3]].
  { intros b. destruct b as [|[|b]]; simpl; repeat constructor; do 3 eexists; (split; [reflexivity|]); lia. }
  { intros b r c Hr Hc. destruct b as [|[|b]]; simpl in Hr; try tauto. destruct Hr as [<-|[]].
    apply bytes_has in Hc. left. destruct c as [p z]. cbn [fst snd] in Hc. unfold cX. f_equal; [tauto|lia]. }
  split; [constructor|split; [exact E|split; [|split; [|split]]]]; clear E.
  - exact dioInst_ok.
  - exact v1_ok.
  - intros m. apply Permutation_refl.
  - apply flat_nest; [|simpl; auto|].
    + intros a b. destruct a as [|[|[|[|[|a]]]]]; destruct b as [|[|[|[|[|b]]]]]; reflexivity.
    + clear. intros b p Hb NH Hp. destruct Hb as [<-|[<-|[<-|[<-|[<-|[]]]]]]; simpl in Hp; simpl; tauto.
  - intros k Hk. rewrite (flat_nested _ _ _ Hk). split; [|discriminate].
    assert (R2 : reachedInside r4Succ r4Fun 2) by (apply ri_step with 0; [apply ri_header|simpl; tauto|simpl; tauto]).
    assert (R3 : reachedInside r4Succ r4Fun 3) by (apply ri_step with 2; [exact R2|simpl; tauto|simpl; tauto]).
    intros b [<-|[<-|[<-|[<-|[<-|[]]]]]]; [apply ri_header| |exact R2|exact R3|].
    + apply ri_step with 0; [apply ri_header|simpl; tauto|simpl; tauto].
    + apply ri_step with 3; [exact R3|simpl; tauto|simpl; tauto].
  - intros b t ->. exists []. now rewrite app_nil_r.
  - apply prefix_runs. apply (starts_follows r4Succ 0). vm_compute. intuition.
  - intros l p r _ H. split; [reflexivity|]. split; [exact H|]. tauto.
  - intros l r c _ H. discriminate.
  - exact S1.
  - exact S2.
  - intros l p _ T. lia.
  - split; [vm_compute; intuition|]. split; [repeat (apply Forall_cons; [simpl; tauto|]); apply Forall_nil|].
    split; [repeat constructor|]. split; [exists (firstn 3 r4Run), []; reflexivity|].
    vm_compute. intuition discriminate.
  - exists []. now rewrite app_nil_r.
  - rewrite V. refine (proj2 (proj2 (mkset_in _ cX _)) _); [okls|]. exists (one 1).
    split; [simpl; auto|]. apply bytes_has. simpl. lia.
  - vm_compute. tauto.
Qed.
Print Assumptions C18_irreducible_refuted.
