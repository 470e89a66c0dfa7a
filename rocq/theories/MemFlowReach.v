(** Executions against the values of reach definition analysis. *)
From Coq Require Import ZArith Bool List Arith Lia Permutation.
From Verif Require Import RangeModel RangeSpec RangeBytes MemSetModel MemSetSpec MemSetProof
  DFValueModel DFlowModel RegionModel RegionSpec RegionProof Prop_Region
  MemFlowModel MemFlowSpec MemFlowSolve MemFlowLevel MemFlowEq MemFlowCollapse MemFlowPath.
Import ListNotations.
Open Scope nat_scope.

Section Reach.
Variable dio : Z -> Z -> Z -> option (Z * Z * Z * Z).
Hypothesis Hdio : dioSpec dio.
Variable v : views.
Hypothesis Hv : viewsOk v.
Variable bsucc bpred : block -> list block.
Variable shuffle : list (block * rnode) -> list (block * rnode).
Hypothesis SH : forall m, Permutation (shuffle m) m.
Variable blockDU : block -> du.
Variable aggr : loop -> range -> range * bool.
Variable local : loop -> range -> bool.
Variable trips : loop -> nat.
Variable f : loop.
Hypothesis NO : nestOk bsucc bpred f.
Hypothesis RED : reducible bsucc f.
Hypothesis REACH : allReached bsucc f.
Variable runs ends : block -> list event -> Prop.
Hypothesis RE : forall b t, ends b t -> runs b t.
Variable real : piece -> Prop.
Hypothesis RR : realRuns bsucc real.
Variable P : cell -> Prop.
Hypothesis AG : aggrOk v aggr f.
Hypothesis LO : localOk local P f.
Hypothesis HB : forall b, duOk v (blockDU b).
Hypothesis BS : blocksSound runs ends P (fun b => duUses (blockDU b)) (fun b => duDefs (blockDU b)).
Hypothesis TR : tripsExact bsucc ends real trips f.
Hypothesis TR1 : forall l, nested f l -> trips l <> 1.
Notation edge := (regionEdge bsucc).
Notation duAt := (duOf blockDU).
Notation visits := (visits bsucc).

Lemma RP p q : real (p ++ q) -> real p.
Proof. apply RR. Qed.
Lemma RS p q b : real (p ++ q) -> lastBlock p b -> follows bsucc b q.
Proof. apply RR. Qed.

Definition sumOk (l : loop) (d : du) : Prop :=
  duOk v d /\ usesSound (duUses d) P (partOf bsucc runs ends real l) /\
  mustsSound (duDefs d) (wholeOf bsucc ends real l).
Definition mayOk (l : loop) (d : du) : Prop :=
  maysSound (duDefs d) (duMayDefs d) (anyPart bsucc runs ends l).

Section Level.
Variable l : loop.
Hypothesis N : nested f l.
Variable sums : list (block * du).
Hypothesis SD : forall h d, In (h, d) sums -> duOk v d.
Hypothesis SO : forall i, In i (lpInner l) -> sumOk i (findSum (lpHeader i) sums).
Variable g : graph.
Hypothesis G : levelGraph bsucc l g.

Lemma findSum_ok h : duOk v (findSum h sums).
Proof.
  clear SO. induction sums as [|[k d] s IH]; simpl.
  - split; [|split]; apply setOk_nil.
  - destruct (Nat.eqb k h); [eapply SD; left; reflexivity|]. apply IH. intros h' d' H.
    apply (SD h' d'). now right.
Qed.
Lemma duAt_ok n : duOk v (duAt sums n).
Proof.
  assert (E : duOk v duEmpty) by (split; [|split]; apply setOk_nil).
  destruct n; simpl; auto using findSum_ok.
Qed.

(** One visit of a node. *)
Lemma visit_uses n r c : visitOf bsucc l n r -> executed runs ends r -> happens real r -> P c ->
  exposed c (events r) -> inSet (duUses (duAt sums n)) c.
Proof.
  intros [[b [t [-> ->]]]|[i [Hi [-> [S I]]]]] X HA Pc E.
  - rewrite events_one in E. simpl. apply (proj1 (BS b) t c); auto.
    simpl in X. destruct X as [[_ X]|[X _]]; auto.
  - simpl. apply (proj1 (proj2 (SO i Hi)) (events r) c); auto.
    exists r. split; [|split; auto]. split; auto.
Qed.
(** The visit of the node is left; z is executed next. *)
Definition leftNode (n : rnode) (r z : piece) : Prop :=
  forall i, In i (lpInner l) -> n = NLoop (lpHeader i) -> leftBefore bsucc i r z.
Definition enteredNode (n : rnode) (a : piece) : Prop :=
  forall i, In i (lpInner l) -> n = NLoop (lpHeader i) -> enteredAfter i a.
Lemma visit_musts n a r z c : visitOf bsucc l n r -> completed ends r ->
  real (a ++ r ++ z) -> enteredNode n a -> leftNode n r z ->
  inSet (duDefs (duAt sums n)) c -> written c (events r).
Proof.
  intros [[b' [t [-> ->]]]|[i [Hi [-> [S I]]]]] X RA EN0 LV D.
  - rewrite events_one. simpl in D. apply (proj2 (BS b') t c); auto. now inversion X.
  - simpl in D. apply (proj2 (proj2 (SO i Hi)) (events r) c); auto.
    exists r. split; auto. specialize (LV i Hi eq_refl).
    split; [|exists a, z; repeat split; auto]. split; auto. split; auto. split; auto.
    assert (NR : r <> []) by (destruct r; [destruct S|discriminate]).
    destruct (@exists_last _ r NR) as [r' [[x tx] Er]]. exists x. split; [exists r', tx; auto|].
    destruct z as [|s z].
    + destruct LV as [b [Lb Eb]]. left. rewrite <- Eb. f_equal. eapply lastBlock_fun; [|exact Lb].
      exists r', tx. auto.
    + right. exists (fst s). split; auto. rewrite app_assoc in RA.
      apply (RS (a ++ r) (s :: z) x) in RA; [exact (proj1 RA)|].
      rewrite Er. apply lastBlock_app, lastBlock_snoc.
Qed.
Lemma visit_mays n r c :
  blocksMay runs (fun b => duDefs (blockDU b)) (fun b => duMayDefs (blockDU b)) ->
  (forall i, In i (lpInner l) -> mayOk i (findSum (lpHeader i) sums)) ->
  visitOf bsucc l n r -> executed runs ends r -> written c (events r) ->
  inSet (duDefs (duAt sums n)) c \/ inSet (duMayDefs (duAt sums n)) c.
Proof.
  intros BM SM [[b [t [-> ->]]]|[i [Hi [-> [S I]]]]] X E.
  - rewrite events_one in E. simpl. apply (BM b t c); auto.
    simpl in X. destruct X as [[_ X]|[X _]]; auto.
  - simpl. apply (SM i Hi (events r) c); auto. exists r. split; auto. split; auto.
Qed.

Variable vs : @vals rval.
Hypothesis OK : forall n, rOk v (vVal vs (code n)) /\ rOk v (vArg vs (code n)).
Hypothesis EN : forall c, ~ inVal (fst (vVal vs (code NEntry))) c.
Hypothesis ED : forall x y c, edge l x y ->
  (inVal (fst (vArg vs (code y))) c -> inVal (fst (vVal vs (code x))) c) /\
  (inVal (snd (vVal vs (code x))) c -> inVal (snd (vArg vs (code y))) c).
Hypothesis TF : forall n c, In n (gNodes g) -> n <> NEntry ->
     (inVal (fst (vVal vs (code n))) c -> inSet (duDefs (duAt sums n)) c \/ inVal (fst (vArg vs (code n))) c) /\
     (inSet (duDefs (duAt sums n)) c \/ inSet (duMayDefs (duAt sums n)) c \/ inVal (snd (vArg vs (code n))) c ->
      inVal (snd (vVal vs (code n))) c).

Lemma stands_node b n : standsFor l b n -> In n (gNodes g) /\ n <> NEntry.
Proof.
  intros S. split; [|eapply stands_not; eauto]. apply (lgNodes _ _ _ G).
  destruct S as [[i [Hi [_ ->]]]|[B1 [B2 ->]]].
  - right; right; right; left. eauto.
  - right; right; right; right. eauto.
Qed.
Lemma visits_node q n r : visits l q n r -> In n (gNodes g) /\ n <> NEntry.
Proof.
  intros V. destruct (visits_ok bsucc bpred f NO l q n r N V) as [_ [b [_ S]]].
  eapply stands_node; eauto.
Qed.
(** Control enters a node from the other one. *)
Lemma visits_entered q n r a : visits l q n r -> enteredNode n (a ++ q).
Proof.
  intros V. induction V as [t|q i r b s t Hi V IH Lb Bi J Si|q n r b s t y V IH Lb Sb J Sl Sh Sy Ne E];
    intros k Hk Ek; try discriminate.
  - apply IH; auto.
  - intros x Lx Ix. assert (x = b).
    { eapply lastBlock_fun; [exact Lx|]. apply lastBlock_app, lastBlock_app. exact Lb. }
    subst x. apply Ne. subst y.
    exact (inner_of_stands bsucc bpred f NO l k b n N Hk Ix Sb).
Qed.
(** Must definitions before and after a visit. *)
Lemma must_in q n r c a : visits l q n r -> completed ends q -> real (a ++ q ++ r) ->
  inVal (fst (vArg vs (code n))) c -> written c (events q).
Proof.
  intros V. induction V as [t|q i r b s t Hi V IH Lb Bi J Si|q n r b s t y V IH Lb Sb J Sl Sh Sy Ne E];
    intros X RA H.
  - exfalso. apply (EN c). apply (ED NEntry (NBlock (lpHeader l)) c); auto.
    apply re_entry. eapply header_stands; eauto.
  - apply IH; auto. rewrite !app_assoc in RA. apply RP in RA. now rewrite <- app_assoc in RA.
  - apply (completed_app ends) in X. destruct X as [X1 X2]. rewrite events_app. apply written_app.
    apply (ED n y c E) in H. destruct (visits_node q n r V) as [In1 NE].
    apply (TF n c In1 NE) in H. destruct H as [H|H]; [right|left].
    + destruct (visits_ok bsucc bpred f NO l q n r N V) as [VO _].
      apply (visit_musts n (a ++ q) r [(s, t)] c VO X2); auto.
      * rewrite <- !app_assoc in *. exact RA.
      * now apply (visits_entered q n r a).
      * intros i Hi En. intros Si. apply Ne. rewrite En. symmetry.
        exact (inner_of_stands bsucc bpred f NO l i s y N Hi Si Sy).
    + apply IH; auto. rewrite !app_assoc in *. now apply RP in RA.
Qed.
Lemma must_out q n r z c a : visits l q n r -> completed ends (q ++ r) ->
  real (a ++ (q ++ r) ++ z) -> leftNode n r z ->
  inVal (fst (vVal vs (code n))) c -> written c (events (q ++ r)).
Proof.
  intros V X RA LV H. apply (completed_app ends) in X. destruct X as [X1 X2].
  destruct (visits_node q n r V) as [In1 NE]. rewrite events_app. apply written_app.
  apply (TF n c In1 NE) in H. destruct H as [H|H].
  - right. destruct (visits_ok bsucc bpred f NO l q n r N V) as [VO _].
    apply (visit_musts n (a ++ q) r z c VO X2); auto.
    + rewrite <- !app_assoc in *. exact RA.
    + now apply (visits_entered q n r a).
  - left. eapply must_in; eauto. rewrite !app_assoc in *. eapply RP; eauto.
Qed.
Section May.
Hypothesis BM : blocksMay runs (fun b => duDefs (blockDU b)) (fun b => duMayDefs (blockDU b)).
Hypothesis SM : forall i, In i (lpInner l) -> mayOk i (findSum (lpHeader i) sums).
Lemma may_in q n r c : visits l q n r -> completed ends q ->
  written c (events q) -> inVal (snd (vArg vs (code n))) c.
Proof.
  intros V. induction V as [t|q i r b s t Hi V IH Lb Bi J Si|q n r b s t y V IH Lb Sb J Sl Sh Sy Ne E];
    intros X H.
  - destruct H.
  - auto.
  - apply (completed_app ends) in X. destruct X as [X1 X2]. rewrite events_app in H.
    apply written_app in H. apply (ED n y c E). destruct (visits_node q n r V) as [In1 NE].
    apply (TF n c In1 NE). destruct H as [H|H]; [right; right; auto|].
    destruct (visits_ok bsucc bpred f NO l q n r N V) as [VO _].
    destruct (visit_mays n r c BM SM VO (completed_executed runs ends r X2) H); auto.
Qed.
Lemma may_out q n r c : visits l q n r -> completed ends q -> executed runs ends r ->
  written c (events (q ++ r)) -> inVal (snd (vVal vs (code n))) c.
Proof.
  intros V X1 X2 H. destruct (visits_node q n r V) as [In1 NE]. apply (TF n c In1 NE).
  rewrite events_app in H. apply written_app in H. destruct H as [H|H].
  - right; right. eapply may_in; eauto.
  - destruct (visits_ok bsucc bpred f NO l q n r N V) as [VO _].
    destruct (visit_mays n r c BM SM VO X2 H); auto.
Qed.
(** Each written byte is in a set of definitions of some node. *)
Lemma may_node q n r c : visits l q n r -> executed runs ends (q ++ r) ->
  written c (events (q ++ r)) ->
  exists m, In m (gNodes g) /\ (inSet (duDefs (duAt sums m)) c \/ inSet (duMayDefs (duAt sums m)) c).
Proof.
  intros V. induction V as [t|q i r b s t Hi V IH Lb Bi J Si|q n r b s t y V IH Lb Sb J Sl Sh Sy Ne E];
    intros X H.
  - exists (NBlock (lpHeader l)). split.
    + eapply stands_node. eapply header_stands; eauto.
    + apply (visit_mays _ [(lpHeader l, t)] c BM SM); auto. left. eauto.
  - pose proof (vs_stay bsucc l q i r b s t Hi V Lb Bi J Si) as V'.
    assert (X' := X). rewrite app_assoc in X'. apply (executed_app runs ends) in X'; [|discriminate].
    rewrite app_assoc, events_app in H. apply written_app in H. destruct H as [H|H].
    + apply IH; auto. apply completed_executed. apply X'.
    + exists (NLoop (lpHeader i)). split; [eapply visits_node; eauto|].
      apply (executed_app runs ends) in X; [|destruct r; discriminate].
      apply (visit_mays _ (r ++ [(s, t)]) c BM SM); [|apply X|].
      * eapply (visits_ok bsucc bpred f NO); eauto.
      * rewrite events_app. apply written_app. auto.
  - pose proof (vs_go bsucc l q n r b s t y V Lb Sb J Sl Sh Sy Ne E) as V'.
    apply (executed_app runs ends) in X; [|discriminate].
    rewrite events_app in H. apply written_app in H. destruct H as [H|H].
    + apply IH; auto. apply completed_executed. apply X.
    + exists y. split; [eapply visits_node; eauto|].
      apply (visit_mays y [(s, t)] c BM SM); auto; [|apply X].
      eapply (visits_ok bsucc bpred f NO); eauto.
Qed.
End May.
(** Bytes read before they are written in one iteration. *)
Lemma uses_node q n r c a : visits l q n r -> executed runs ends (q ++ r) ->
  real (a ++ q ++ r) -> P c ->
  exposed c (events (q ++ r)) ->
  exists m, In m (gNodes g) /\ inSet (duUses (duAt sums m)) c /\ ~ inVal (fst (vArg vs (code m))) c.
Proof.
  intros V.
  assert (LAST : forall q n r, visits l q n r -> completed ends q -> executed runs ends r ->
     real (a ++ q ++ r) -> P c ->
     ~ written c (events q) -> exposed c (events r) ->
     exists m, In m (gNodes g) /\ inSet (duUses (duAt sums m)) c /\ ~ inVal (fst (vArg vs (code m))) c).
  { intros q' n' r' V' X1 X2 RA Pc W E. exists n'. split; [eapply visits_node; eauto|]. split.
    - eapply visit_uses; eauto; [eapply (visits_ok bsucc bpred f NO); eauto|].
      exists (a ++ q'). now rewrite <- app_assoc.
    - intros H. apply W. eapply must_in; eauto. }
  induction V as [t|q i r b s t Hi V IH Lb Bi J Si|q n r b s t y V IH Lb Sb J Sl Sh Sy Ne E];
    intros X RA Pc H.
  - apply (LAST [] _ _ (vs_start bsucc l t)); auto. constructor.
  - pose proof (vs_stay bsucc l q i r b s t Hi V Lb Bi J Si) as V'.
    assert (X' := X). rewrite app_assoc in X'. apply (executed_app runs ends) in X'; [|discriminate].
    apply (executed_app runs ends) in X; [|destruct r; discriminate].
    rewrite events_app in H. apply exposed_app in H. destruct H as [H|[H1 H2]].
    + apply IH; auto; [apply completed_executed; apply X'| |].
      * rewrite !app_assoc in *. eapply RP; eauto.
      * rewrite events_app. now apply exposed_left.
    + apply (LAST q _ _ V'); auto; apply X.
  - pose proof (vs_go bsucc l q n r b s t y V Lb Sb J Sl Sh Sy Ne E) as V'.
    apply (executed_app runs ends) in X; [|discriminate].
    rewrite events_app in H. apply exposed_app in H. destruct H as [H|[H1 H2]].
    + apply IH; auto; [apply completed_executed; apply X|].
      rewrite !app_assoc in *. eapply RP; eauto.
    + apply (LAST (q ++ r) _ _ V'); auto; apply X.
Qed.

(** ** The summary *)
Notation collapse isLoop := (collapseRegion dio blockDU aggr local trips isLoop l sums g vs).
Lemma level_uses isLoop : usesSound (duUses (collapse isLoop)) P (partOf bsucc runs ends real l).
Proof.
  intros t c [p [[S [I X]] [[a RA] ->]]] Pc H.
  destruct (collapse_in dio Hdio v Hv blockDU aggr local trips f AG P LO isLoop l N sums duAt_ok vs OK g)
    as [_ [CU _]].
  remember (length p) as k eqn:Ek. revert p S I X RA H Ek.
  induction k as [k IH] using lt_wf_ind. intros p S I X RA H Ek.
  destruct (last_iteration bsucc bpred f l p N S) as [p1 [p2 [-> [S2 [N2 O]]]]].
  apply Forall_app in I. destruct I as [I1 I2].
  assert (NP2 : p2 <> []) by (destruct p2; [destruct S2|discriminate]).
  destruct (executed_app runs ends p1 p2 X NP2) as [X1 X2].
  rewrite events_app in H. apply exposed_app in H. destruct H as [H|[H1 H2]].
  - destruct O as [->|[S1 _]].
    + destruct H as [t1 [t2 [E _]]]. destruct t1; discriminate.
    + apply (IH (length p1)) with (p := p1); auto.
      * rewrite app_length in Ek. destruct p2; [congruence|simpl in Ek; lia].
      * now apply completed_executed.
      * rewrite app_assoc in RA. eapply RP; eauto.
  - destruct (visits_exist bsucc bpred f NO RED l p2 N S2 I2 N2) as [q [n [r [-> V]]]].
    destruct (uses_node q n r c (a ++ p1) V X2) as [m [M1 [M2 M3]]]; auto.
    + now rewrite <- app_assoc.
    + exact (CU m c M1 Pc M2 M3).
Qed.
Lemma level_musts isLoop : (isLoop = true -> forall p, finishedRun bsucc ends real l p -> 0 < trips l ->
     In (lpHeader l) (tl (blocksOf p))) ->
  mustsSound (duDefs (collapse isLoop)) (wholeOf bsucc ends real l).
Proof.
  intros TT t c [p [LE ->]] H. assert (LE' := LE).
  destruct LE as [[S [I [X [b [Lb LV]]]]] [a [z [RA [EA LZ]]]]].
  destruct (collapse_in dio Hdio v Hv blockDU aggr local trips f AG P LO isLoop l N sums duAt_ok vs OK g)
    as [_ [_ [CD _]]].
  apply CD in H. destruct H as [H|[T H]].
  - destruct (last_iteration bsucc bpred f l p N S) as [p1 [p2 [-> [S2 [N2 _]]]]].
    apply Forall_app in I. destruct I as [I1 I2]. apply (completed_app ends) in X. destruct X as [X1 X2].
    rewrite events_app. apply written_app. right.
    destruct (visits_exist bsucc bpred f NO RED l p2 N S2 I2 N2) as [q [n [r [-> V]]]].
    destruct (visits_ok bsucc bpred f NO l q n r N V) as [_ [b' [Lb' Sb]]].
    assert (b' = b).
    { eapply lastBlock_fun; [|exact Lb]. now apply lastBlock_app, lastBlock_app. }
    subst b'. apply (must_out q n r z c (a ++ p1) V X2).
    + rewrite <- !app_assoc in *. exact RA.
    + intros i Hi En. destruct z as [|s z].
      * destruct LZ as [x [Lx Ex]]. exists b. split; auto.
        assert (x = b) by (eapply lastBlock_fun; [exact Lx|exact Lb]). now subst x.
      * intros Si. apply LZ. exact (loInside _ _ _ (NO l N) i Hi _ Si).
    + apply (TF NExit) in H; [|apply (lgNodes _ _ _ G); auto|discriminate].
      destruct H as [H|H]; [now apply inSet_nil in H|].
      apply (ED n NExit c); auto. eapply re_exit; eauto.
  - unfold hasTrips in T. apply andb_true_iff in T. destruct T as [TL T].
    apply Nat.ltb_lt in T. specialize (TT TL p LE' T).
    destruct (first_iteration bsucc bpred f l p N S TT) as [p1 [p2 [-> [S1 [N1 [J [x [p2' [-> Ex]]]]]]]]].
    apply Forall_app in I. destruct I as [I1 I2]. apply (completed_app ends) in X. destruct X as [X1 X2].
    rewrite events_app. apply written_app. left.
    destruct (visits_exist bsucc bpred f NO RED l p1 N S1 I1 N1) as [q [n [r [-> V]]]].
    destruct (visits_ok bsucc bpred f NO l q n r N V) as [_ [b' [Lb' Sb]]].
    rewrite (lastBlock_lastOf (q ++ r) b' 0) in J by (now apply lastBlock_app).
    apply (must_out q n r ((x :: p2') ++ z) c a V X1).
    + rewrite <- !app_assoc in *. exact RA.
    + intros i Hi En. cbn [app leftBefore]. rewrite Ex. exact (loOwn _ _ _ (NO l N) i Hi).
    + assert (In b' (lpBlocks l)) by (eapply standsFor_in; eauto).
      apply (TF NLatch) in H; [| |discriminate].
      * destruct H as [H|H]; [now apply inSet_nil in H|].
        apply (ED n NLatch c); auto. eapply re_back; eauto.
      * apply (lgNodes _ _ _ G). right; right; left. split; auto. exists b'. split; auto.
Qed.
Lemma level_mays isLoop :
  blocksMay runs (fun b => duDefs (blockDU b)) (fun b => duMayDefs (blockDU b)) ->
  (forall i, In i (lpInner l) -> mayOk i (findSum (lpHeader i) sums)) ->
  (forall n L, In n (gNodes g) -> In L (allLocs (duDefs (duAt sums n))) ->
     allOrNone dio (fst (vVal vs (code NExit))) L) ->
  mayOk l (collapse isLoop).
Proof.
  intros BM SM AN t c [p [[S [I X]] ->]] H.
  destruct (collapse_in dio Hdio v Hv blockDU aggr local trips f AG P LO isLoop l N sums duAt_ok vs OK g)
    as [_ [_ [_ [CM CD]]]].
  remember (length p) as k eqn:Ek. revert p S I X H Ek.
  induction k as [k IH] using lt_wf_ind. intros p S I X H Ek.
  destruct (last_iteration bsucc bpred f l p N S) as [p1 [p2 [-> [S2 [N2 O]]]]].
  apply Forall_app in I. destruct I as [I1 I2].
  assert (NP2 : p2 <> []) by (destruct p2; [destruct S2|discriminate]).
  destruct (executed_app runs ends p1 p2 X NP2) as [X1 X2].
  rewrite events_app in H. apply written_app in H. destruct H as [H|H].
  - destruct O as [->|[S1 _]]; [destruct H|].
    apply (IH (length p1)) with (p := p1); auto.
    + rewrite app_length in Ek. destruct p2; [congruence|simpl in Ek; lia].
    + now apply completed_executed.
  - destruct (visits_exist bsucc bpred f NO RED l p2 N S2 I2 N2) as [q [n [r [-> V]]]].
    destruct (may_node BM SM q n r c V X2 H) as [m [M1 [M2|M2]]]; [|right; eapply CM; eauto].
    apply (CD m c M1); auto. intros L HL. exact (AN m L M1 HL).
Qed.
Lemma level_sum isLoop : sumOk l (collapse isLoop).
Proof.
  split; [|split].
  - apply (collapse_in dio Hdio v Hv blockDU aggr local trips f AG P LO isLoop l N sums duAt_ok vs OK g).
  - apply level_uses.
  - apply level_musts. intros _ p LE T. pose proof (TR l p N T LE) as E. pose proof (TR1 l N) as NE.
    destruct LE as [[S _] _]. destruct p as [|s p]; [destruct S|]. destruct S as [Es _].
    unfold headerVisits, blocksOf, times in E. cbn [map] in E. cbn [blocksOf map tl].
    apply (count_occ_In Nat.eq_dec). rewrite Es in E. cbn [count_occ] in E.
    destruct (Nat.eq_dec (lpHeader l) (lpHeader l)) as [_|]; [|congruence]. lia.
Qed.
End Level.

(** ** All levels *)
Lemma level_reach l sums : nested f l -> (forall h d, In (h, d) sums -> duOk v d) ->
  exists g vs, reachLevel dio bsucc bpred shuffle blockDU l sums = Some (g, vs) /\
    buildLevel bsucc bpred shuffle l = Some g /\
    levelGraph bsucc l g /\
    solveReach dio blockDU sums g = Some vs /\
    (forall n, rOk v (vVal vs (code n)) /\ rOk v (vArg vs (code n))) /\
    (forall c, ~ inVal (fst (vVal vs (code NEntry))) c) /\
    (forall x y c, edge l x y ->
      (inVal (fst (vArg vs (code y))) c -> inVal (fst (vVal vs (code x))) c) /\
      (inVal (snd (vVal vs (code x))) c -> inVal (snd (vArg vs (code y))) c)) /\
    (forall n c, In n (gNodes g) -> n <> NEntry ->
     (inVal (fst (vVal vs (code n))) c -> inSet (duDefs (duAt sums n)) c \/ inVal (fst (vArg vs (code n))) c) /\
     (inSet (duDefs (duAt sums n)) c \/ inSet (duMayDefs (duAt sums n)) c \/ inVal (snd (vArg vs (code n))) c ->
      inVal (snd (vVal vs (code n))) c)).
Proof.
  intros N SD. destruct (build_level bsucc bpred shuffle SH f NO REACH l N) as [g [B G]].
  destruct (reach_equations dio Hdio v Hv blockDU bsucc bpred f NO RED l g sums N G (duAt_ok sums SD))
    as [vs [E [H1 [H2 [H3 H4]]]]].
  exists g, vs. unfold reachLevel. rewrite B, E. auto 10.
Qed.
Notation summary := (summary dio bsucc bpred shuffle blockDU aggr local trips).
Notation summaries := (summaries dio bsucc bpred shuffle blockDU aggr local trips).
Notation reachLevel := (reachLevel dio bsucc bpred shuffle blockDU).
Lemma summary_eq isLoop l : summary isLoop l =
  match summaries (lpInner l) with
  | None => None
  | Some sums =>
    match reachLevel l sums with
    | None => None
    | Some (g, vs) => Some (collapseRegion dio blockDU aggr local trips isLoop l sums g vs)
    end
  end.
Proof.
  destruct l as [h bs is]. cbn [MemFlowModel.summary lpInner].
  match goal with |- match ?X with _ => _ end = _ => assert (X = summaries is) as -> end; [|reflexivity].
  induction is as [|i is IH]; [reflexivity|]. cbn [MemFlowModel.summaries]. now rewrite <- IH.
Qed.
Lemma summaries_some is : (forall i, In i is -> exists d, summary true i = Some d) ->
  exists sums, summaries is = Some sums.
Proof.
  induction is as [|i is IH]; intros H; simpl; eauto.
  destruct (H i (or_introl eq_refl)) as [d ->]. destruct IH as [s ->]; eauto.
  intros j Hj. apply H. now right.
Qed.
Lemma summaries_in is : forall sums, summaries is = Some sums ->
  (forall h d, In (h, d) sums -> exists i, In i is /\ lpHeader i = h /\ summary true i = Some d) /\
  (NoDup (map lpHeader is) -> forall i, In i is -> summary true i = Some (findSum (lpHeader i) sums)).
Proof.
  induction is as [|i is IH]; intros sums; simpl.
  - intros E. injection E as <-. split; [intros ? ? []|intros _ ? []].
  - destruct (summary true i) as [d|] eqn:Ed; [|discriminate].
    destruct (summaries is) as [s|] eqn:Es; [|discriminate]. intros E. injection E as <-.
    destruct (IH s eq_refl) as [A B]. split.
    + intros h d' [E|H]; [injection E as <- <-; eauto|].
      destruct (A h d' H) as [j [J1 J2]]. eauto.
    + intros ND j [->|Hj]; cbn [findSum].
      * now rewrite Nat.eqb_refl.
      * inversion ND as [|? ? NI ND']; subst. destruct (Nat.eqb_spec (lpHeader i) (lpHeader j)) as [E|NE].
        -- exfalso. apply NI. rewrite E. now apply in_map.
        -- now apply B.
Qed.
Theorem summary_sound : forall l isLoop, nested f l ->
  exists d, summary isLoop l = Some d /\ sumOk l d.
Proof.
  intros l. induction l as [h bs is IH] using loop_ind2. intros isLoop N.
  set (l := Loop h bs is) in *. rewrite Forall_forall in IH.
  assert (NI : forall i, In i is -> nested f i) by (intros i Hi; eapply nested_inner; [exact N|exact Hi]).
  destruct (summaries_some is) as [sums Es].
  { intros i Hi. destruct (IH i Hi true (NI i Hi)) as [d [E _]]. eauto. }
  destruct (summaries_in is sums Es) as [A B].
  assert (SD : forall h d, In (h, d) sums -> duOk v d).
  { intros k d H. destruct (A k d H) as [i [Hi [_ E]]]. destruct (IH i Hi true (NI i Hi)) as [d' [E' [O _]]].
    assert (d' = d) by congruence. now subst. }
  assert (SO : forall i, In i (lpInner l) -> sumOk i (findSum (lpHeader i) sums)).
  { intros i Hi. destruct (IH i Hi true (NI i Hi)) as [d' [E' O]].
    rewrite (B (loHeads _ _ _ (NO l N)) i Hi) in E'. assert (d' = findSum (lpHeader i) sums) by congruence.
    now subst d'. }
  destruct (level_reach l sums N SD) as [g [vs [E [_ [G [_ [O1 [O2 [O3 O4]]]]]]]]].
  rewrite summary_eq. change (lpInner l) with is. rewrite Es, E. eexists. split; [reflexivity|].
  apply level_sum; auto.
Qed.
(** The facts of one level. *)
Theorem level_facts : forall l, nested f l ->
  exists sums g vs, summaries (lpInner l) = Some sums /\ reachLevel l sums = Some (g, vs) /\
    buildLevel bsucc bpred shuffle l = Some g /\ solveReach dio blockDU sums g = Some vs /\
    levelGraph bsucc l g /\ (forall h d, In (h, d) sums -> duOk v d) /\
    (forall i, In i (lpInner l) -> summary true i = Some (findSum (lpHeader i) sums)) /\
    (forall i, In i (lpInner l) -> sumOk i (findSum (lpHeader i) sums)) /\
    (forall n, rOk v (vVal vs (code n)) /\ rOk v (vArg vs (code n))) /\
    (forall c, ~ inVal (fst (vVal vs (code NEntry))) c) /\
    (forall x y c, edge l x y ->
      (inVal (fst (vArg vs (code y))) c -> inVal (fst (vVal vs (code x))) c) /\
      (inVal (snd (vVal vs (code x))) c -> inVal (snd (vArg vs (code y))) c)) /\
    (forall n c, In n (gNodes g) -> n <> NEntry ->
     (inVal (fst (vVal vs (code n))) c -> inSet (duDefs (duAt sums n)) c \/ inVal (fst (vArg vs (code n))) c) /\
     (inSet (duDefs (duAt sums n)) c \/ inSet (duMayDefs (duAt sums n)) c \/ inVal (snd (vArg vs (code n))) c ->
      inVal (snd (vVal vs (code n))) c)).
Proof.
  intros l N.
  assert (NI : forall i, In i (lpInner l) -> nested f i) by (intros i Hi; eapply nested_inner; eauto).
  destruct (summaries_some (lpInner l)) as [sums Es].
  { intros i Hi. destruct (summary_sound i true (NI i Hi)) as [d [E _]]. eauto. }
  destruct (summaries_in (lpInner l) sums Es) as [A B].
  assert (SD : forall h d, In (h, d) sums -> duOk v d).
  { intros k d H. destruct (A k d H) as [i [Hi [_ E]]]. destruct (summary_sound i true (NI i Hi)) as [d' [E' [O _]]].
    assert (d' = d) by congruence. now subst. }
  destruct (level_reach l sums N SD) as [g [vs [E [Bg [G [E2 [O1 [O2 [O3 O4]]]]]]]]].
  exists sums, g, vs. specialize (B (loHeads _ _ _ (NO l N))).
  repeat (split; [assumption|]). split; [|auto].
  intros i Hi. destruct (summary_sound i true (NI i Hi)) as [d' [E' O]].
    rewrite (B i Hi) in E'. assert (d' = findSum (lpHeader i) sums) by congruence. now subst d'.
Qed.
End Reach.
