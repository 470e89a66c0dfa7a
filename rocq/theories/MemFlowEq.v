(** What the equations of defined and live memory say about bytes. *)
From Coq Require Import ZArith Bool List Arith Lia Permutation.
From Verif Require Import RangeModel RangeSpec RangeBytes MemSetModel MemSetSpec MemSetProof
  DFValueModel DFlowModel RegionModel RegionSpec
  MemFlowModel MemFlowSpec MemFlowSolve MemFlowLevel.
Import ListNotations.
Open Scope nat_scope.

Section Eq.
Variable dio : Z -> Z -> Z -> option (Z * Z * Z * Z).
Hypothesis Hdio : dioSpec dio.
Variable v : views.
Hypothesis Hv : viewsOk v.

Definition locsOk (ls : list range) : Prop := Forall (fun r => exists p, locOk v p r) ls.
Definition duOk (d : du) : Prop :=
  setOk v (duDefs d) /\ setOk v (duMayDefs d) /\ setOk v (duUses d).
Definition rOk (x : rval) : Prop := valOk v (fst x) /\ valOk v (snd x).

Lemma inSet_nil c : ~ inSet [] c.
Proof. intros (l & r & [] & _). Qed.
Lemma inSet_locs s c : setOk v s -> (inSet s c <-> exists r, In r (allLocs s) /\ locHas r c).
Proof. intros H. unfold inSet, locHas. apply (allLocs_covers v); auto. Qed.
Lemma insert_in s r c : setOk v s -> (exists p, locOk v p r) ->
  setOk v (msInsert s r) /\ (inSet (msInsert s r) c <-> inSet s c \/ locHas r c).
Proof.
  intros Hs [p Hp]. destruct (msInsert_ok v s p r Hv Hs Hp) as [A B]. split; auto.
  unfold inSet, locHas. rewrite B, (sh_ptr _ _ _ _ Hp). destruct c as [q b]; simpl.
  split; (intros [H|[H1 H2]]; [auto|right; split; congruence]).
Qed.
Lemma insertAll_in s ls : setOk v s -> locsOk ls ->
  setOk v (fst (minsertAll s ls)) /\
  forall c, inSet (fst (minsertAll s ls)) c <-> inSet s c \/ exists r, In r ls /\ locHas r c.
Proof.
  intros Hs Hl. pose proof (minsertAll_ok v Hv ls s Hs Hl) as H.
  destruct (minsertAll s ls) as [s' ch]. destruct H as [A [B _]]. split; auto.
  intros c. unfold inSet, locHas. apply B.
Qed.
Lemma insertLocs_in s t : setOk v s -> setOk v t ->
  setOk v (fst (minsertAll s (allLocs t))) /\
  forall c, inSet (fst (minsertAll s (allLocs t))) c <-> inSet s c \/ inSet t c.
Proof.
  intros Hs Ht. destruct (insertAll_in s (allLocs t) Hs (allLocs_ok v t Ht)) as [A B].
  split; auto. intros c. rewrite B, (inSet_locs t c Ht). tauto.
Qed.

(** ** Values of reach definition analysis *)
Lemma merge_in x y : valOk v x -> valOk v y ->
  valOk v (fst (dfMerge x y)) /\
  forall c, inVal (fst (dfMerge x y)) c <-> inVal x c \/ inVal y c.
Proof.
  destruct x as [|s], y as [|t]; simpl; intros Hx Hy; try (split; [auto|intros; tauto]).
  pose proof (mmerge_ok v s t Hv Hx Hy) as H. destruct (mmerge s t) as [r c].
  destruct H as [A [B _]]. split; auto. intros c'. unfold inSet. apply B.
Qed.
Lemma intersect_in x y : valOk v x -> valOk v y ->
  valOk v (fst (dfIntersect dio x y)) /\
  forall c, inVal (fst (dfIntersect dio x y)) c -> inVal x c /\ inVal y c.
Proof.
  destruct x as [|s], y as [|t]; simpl; intros Hx Hy; try (split; [auto|tauto]).
  - destruct (insertLocs_in [] t (setOk_nil v) Hy) as [A B]. split; auto.
    intros c H. split; auto. apply B in H. destruct H as [H|H]; auto. now apply inSet_nil in H.
  - pose proof (mintersect_ok dio Hdio v Hv s t Hx Hy) as [A [B _]].
    destruct (mintersect dio s t) as [r ch]. simpl in *. split; auto.
    intros c. unfold inSet. apply B.
Qed.
Lemma rMeet_in x y : rOk x -> rOk y ->
  rOk (rMeet dio x y) /\
  (forall c, inVal (fst (rMeet dio x y)) c -> inVal (fst x) c /\ inVal (fst y) c) /\
  (forall c, inVal (snd (rMeet dio x y)) c <-> inVal (snd x) c \/ inVal (snd y) c).
Proof.
  intros [X1 X2] [Y1 Y2]. unfold rMeet, rOk. cbn [fst snd].
  destruct (intersect_in (fst y) (fst x) Y1 X1) as [A B].
  destruct (merge_in (snd y) (snd x) Y2 X2) as [C D].
  split; auto. split; intros c; [|rewrite D; tauto]. intros H. apply B in H. tauto.
Qed.
Lemma rTop_ok : rOk rTop.
Proof. split; simpl; [auto|apply setOk_nil]. Qed.
Lemma rBoundary_ok : rOk rBoundary.
Proof. split; simpl; apply setOk_nil. Qed.
Lemma rGather_in (s : rnode -> rval) ns : (forall n, rOk (s n)) -> forall a, rOk a ->
  let r := fold_left (fun acc c => rMeet dio (s c) acc) ns a in
  rOk r /\
  (forall c, inVal (fst r) c -> inVal (fst a) c /\ forall n, In n ns -> inVal (fst (s n)) c) /\
  (forall c, inVal (snd a) c \/ (exists n, In n ns /\ inVal (snd (s n)) c) -> inVal (snd r) c).
Proof.
  intros Hs. induction ns as [|n ns IH]; intros a Ha r; unfold r; simpl.
  - split; auto. split; [intros c H; split; [auto|intros ? []]|]. intros c [H|[? [[] _]]]; auto.
  - destruct (rMeet_in (s n) a (Hs n) Ha) as [M1 [M2 M3]].
    destruct (IH (rMeet dio (s n) a) M1) as [A [B C]]. split; auto. split.
    + intros c H. apply B in H. destruct H as [H1 H2]. apply M2 in H1. split; [tauto|].
      intros m [<-|Hm]; [tauto|auto].
    + intros c H. apply C. rewrite M3. destruct H as [H|[m [[<-|Hm] H]]]; [auto|auto|].
      right. eauto.
Qed.

Lemma keepR_top new : fst (keepR rTop new) = new.
Proof.
  unfold keepR, rTop. cbn [fst snd]. destruct new as [[|s] [|t]]; simpl; auto.
  destruct t as [|e t]; simpl; auto.
Qed.
Lemma keepL_top new : fst (keepL [] new) = new.
Proof. unfold keepL. destruct new as [|e t]; simpl; auto. Qed.
Lemma keepR_ok old new : rOk old -> rOk new -> rOk (fst (keepR old new)).
Proof. intros. unfold keepR. destruct (_ && _); auto. Qed.

Variable blockDU : block -> du.
Notation duAt := (duOf blockDU).
Definition newMust (d : du) (x : rval) : dfval :=
  fst (dfMerge (fst (dfInsertAll (DMask []) (allLocs (duDefs d)))) (fst x)).
Definition newMay (d : du) (x : rval) : dfval :=
  fst (dfMerge (fst (dfInsertAll (fst (dfInsertAll (DMask []) (allLocs (duDefs d))))
                      (allLocs (duMayDefs d)))) (snd x)).
Lemma insertAll_val x t : valOk v x -> setOk v t ->
  valOk v (fst (dfInsertAll x (allLocs t))) /\
  forall c, inVal (fst (dfInsertAll x (allLocs t))) c <-> inVal x c \/ inSet t c.
Proof.
  destruct x as [|s]; simpl; intros Hx Ht; [split; [auto|tauto]|].
  pose proof (insertLocs_in s t Hx Ht) as H. destruct (minsertAll s (allLocs t)) as [r c]. exact H.
Qed.
Lemma new_ok d x : duOk d -> rOk x -> rOk (newMust d x, newMay d x) /\
  (forall c, inVal (newMust d x) c <-> inSet (duDefs d) c \/ inVal (fst x) c) /\
  (forall c, inVal (newMay d x) c <-> inSet (duDefs d) c \/ inSet (duMayDefs d) c \/ inVal (snd x) c).
Proof.
  intros [D1 [D2 D3]] [X1 X2]. unfold newMust, newMay, rOk. cbn [fst snd].
  assert (N : valOk v (DMask [])) by (simpl; apply setOk_nil).
  destruct (insertAll_val (DMask []) (duDefs d) N D1) as [A1 A2].
  destruct (insertAll_val _ (duMayDefs d) A1 D2) as [B1 B2].
  destruct (merge_in _ (fst x) A1 X1) as [C1 C2].
  destruct (merge_in _ (snd x) B1 X2) as [E1 E2].
  assert (Z : forall c, inVal (DMask []) c <-> False).
  { intros c. split; [apply inSet_nil|tauto]. }
  split; [auto|]. split; intros c.
  - rewrite C2, A2, Z. tauto.
  - rewrite E2, B2, A2, Z. tauto.
Qed.
Lemma rTransfer_eq sums n x old : n <> NExit ->
  rTransfer blockDU sums (code n) x old = keepR old (newMust (duAt sums n) x, newMay (duAt sums n) x).
Proof. intros H. unfold rTransfer. rewrite decode_code. destruct n; try reflexivity. congruence. Qed.
Lemma rTransfer_exit sums x old : rTransfer blockDU sums (code NExit) x old = keepR old x.
Proof. reflexivity. Qed.
Lemma rTransfer_ok sums k x old : (forall n, duOk (duAt sums n)) -> rOk x -> rOk old ->
  rOk (fst (rTransfer blockDU sums k x old)).
Proof.
  intros Hd Hx Ho. rewrite <- (code_decode k).
  destruct (rnode_dec (decode k) NExit) as [->|NE].
  - rewrite rTransfer_exit. now apply keepR_ok.
  - rewrite rTransfer_eq by auto. apply keepR_ok; auto. now apply new_ok.
Qed.

(** ** The graph *)
Variable bsucc bpred : block -> list block.
Variable shuffle : list (block * rnode) -> list (block * rnode).
Variable f : loop.
Hypothesis NO : nestOk bsucc bpred f.
Hypothesis RED : reducible bsucc f.
Notation edge := (regionEdge bsucc).
Notation levelGraph := (levelGraph bsucc).

Theorem reach_equations : forall l g sums,
  nested f l -> levelGraph l g -> (forall n, duOk (duAt sums n)) ->
  exists vs, solveReach dio blockDU sums g = Some vs /\
  (forall n, rOk (vVal vs (code n)) /\ rOk (vArg vs (code n))) /\
  (forall c, ~ inVal (fst (vVal vs (code NEntry))) c) /\
  (forall x y c, edge l x y ->
     (inVal (fst (vArg vs (code y))) c -> inVal (fst (vVal vs (code x))) c) /\
     (inVal (snd (vVal vs (code x))) c -> inVal (snd (vArg vs (code y))) c)) /\
  (forall n c, In n (gNodes g) -> n <> NEntry ->
     (inVal (fst (vVal vs (code n))) c -> inSet (duDefs (duAt sums n)) c \/ inVal (fst (vArg vs (code n))) c) /\
     (inSet (duDefs (duAt sums n)) c \/ inSet (duMayDefs (duAt sums n)) c \/ inVal (snd (vArg vs (code n))) c ->
      inVal (snd (vVal vs (code n))) c)).
Proof.
  intros l g sums N G Hd.
  destruct (forward_level bsucc bpred f NO RED l rval rTop rBoundary rBoundary (rMeet dio)
              (rTransfer blockDU sums) g N G) as [vs [E [B [EQ INV]]]].
  exists vs. split; auto.
  assert (OK : forall k, rOk (vVal vs k) /\ rOk (vArg vs k)).
  { apply INV.
    - apply rBoundary_ok.
    - apply rTop_ok.
    - apply rBoundary_ok.
    - intros x y Hx Hy. now apply rMeet_in.
    - intros n x old Hx Ho. now apply rTransfer_ok. }
  split; [auto|]. split; [|split].
  - intros c. rewrite B. apply inSet_nil.
  - intros x y c Ed. destruct (edge_nodes bsucc bpred f NO l g x y N G Ed) as [_ Iy].
    destruct (EQ y Iy) as [E1 _].
    { intros ->. eapply edge_entry; eauto. }
    destruct (rGather_in (fun n => vVal vs (code n)) (gPred g y) (fun n => proj1 (OK (code n))) rTop rTop_ok)
      as [_ [M1 M2]]. rewrite E1.
    assert (Ix : In x (gPred g y)) by (apply (lgPred _ _ _ G); auto).
    split.
    + intros H. apply M1 in H. apply (proj2 H x Ix).
    + intros H. apply M2. right. eauto.
  - intros n c In1 NE. destruct (EQ n In1 NE) as [_ E2].
    destruct (rnode_dec n NExit) as [->|NX].
    + rewrite rTransfer_exit, keepR_top in E2. rewrite E2. split; [auto|].
      intros [H|[H|H]]; auto; exfalso; eapply inSet_nil; eauto.
    + rewrite rTransfer_eq, keepR_top in E2 by auto. rewrite E2. cbn [fst snd].
      destruct (new_ok (duAt sums n) (vArg vs (code n)) (Hd n) (proj2 (OK (code n)))) as [_ [A C]].
      rewrite A, C. tauto.
Qed.

(** ** Live memory *)
Lemma lMeet_in x y : setOk v x -> setOk v y ->
  setOk v (lMeet x y) /\ forall c, inSet (lMeet x y) c <-> inSet y c \/ inSet x c.
Proof. intros Hx Hy. apply insertLocs_in; auto. Qed.
Lemma lGather_in (s : rnode -> mset) ns : (forall n, setOk v (s n)) -> forall a, setOk v a ->
  let r := fold_left (fun acc c => lMeet (s c) acc) ns a in
  setOk v r /\ (forall c, inSet r c <-> inSet a c \/ exists n, In n ns /\ inSet (s n) c).
Proof.
  intros Hs. induction ns as [|n ns IH]; intros a Ha r; unfold r; simpl.
  - split; auto. intros c. split; [auto|]. intros [H|[? [[] _]]]; auto.
  - destruct (lMeet_in (s n) a (Hs n) Ha) as [M1 M2].
    destruct (IH (lMeet (s n) a) M1) as [A B]. split; auto. intros c. rewrite B, M2. split.
    + intros [[H|H]|[m [Hm H]]]; auto; right; eauto.
    + intros [H|[m [[<-|Hm] H]]]; auto. right; eauto.
Qed.
Definition newIn (d : du) (x : mset) : mset :=
  fold_left (fun s Loc => if contain dio (duDefs d) Loc then s else msInsert s Loc)
            (allLocs x) (duUses d).
Lemma newIn_in d x : duOk d -> setOk v x ->
  setOk v (newIn d x) /\
  (forall c, inSet (duUses d) c -> inSet (newIn d x) c) /\
  (forall c, inSet x c -> ~ inSet (duDefs d) c -> inSet (newIn d x) c) /\
  (forall c, inSet (newIn d x) c -> inSet (duUses d) c \/ inSet x c).
Proof.
  intros [D1 [_ D3]] Hx. unfold newIn.
  assert (K : forall ls s, locsOk ls -> setOk v s ->
     let r := fold_left (fun s Loc => if contain dio (duDefs d) Loc then s else msInsert s Loc) ls s in
     setOk v r /\ (forall c, inSet s c -> inSet r c) /\
     (forall L c, In L ls -> locHas L c -> ~ inSet (duDefs d) c -> inSet r c) /\
     (forall c, inSet r c -> inSet s c \/ exists L, In L ls /\ locHas L c)).
  { induction ls as [|L ls IH]; intros s Hl Hs r; unfold r; simpl.
    - split; auto. split; auto. split; [intros ? ? []|auto].
    - inversion Hl as [|? ? [p Hp] Hl']; subst. destruct (contain dio (duDefs d) L) eqn:E.
      + destruct (IH s Hl' Hs) as [A [B [C D]]]. split; auto. split; auto. split.
        * intros L' c [<-|HL] Hc Nc; [|eauto]. exfalso. apply Nc. unfold inSet.
          destruct Hc as [Hc1 Hc2]. rewrite (sh_ptr _ _ _ _ Hp) in Hc1. injection Hc1 as Hc1.
          rewrite <- Hc1. eapply (contain_ok dio Hdio v Hv); eauto.
        * intros c Hc. apply D in Hc. destruct Hc as [Hc|[L' [H1 H2]]]; eauto 6.
      + assert (Q : setOk v (msInsert s L)) by (apply (msInsert_ok v s p L Hv Hs Hp)).
        assert (QI : forall c, inSet (msInsert s L) c <-> inSet s c \/ locHas L c)
          by (intros c; apply insert_in; eauto).
        destruct (IH (msInsert s L) Hl' Q) as [A [B [C D]]]. split; auto. split; [|split].
        * intros c Hc. apply B, QI. auto.
        * intros L' c [<-|HL] Hc Nc; [|eauto]. apply B, QI. auto.
        * intros c Hc. apply D in Hc. destruct Hc as [Hc|[L' [H1 H2]]]; [|eauto 6].
          apply QI in Hc. destruct Hc; eauto 6. }
  destruct (K (allLocs x) (duUses d) (allLocs_ok v x Hx) D3) as [A [B [C D]]].
  split; auto. split; auto. split.
  - intros c Hc Nc. apply (inSet_locs x c Hx) in Hc. destruct Hc as [L [H1 H2]]. eauto.
  - intros c Hc. apply D in Hc. rewrite (inSet_locs x c Hx). tauto.
Qed.
Lemma keepL_ok old new : setOk v old -> setOk v new -> setOk v (fst (keepL old new)).
Proof. intros. unfold keepL. destruct (mset_eqb _ _); auto. Qed.
Lemma lTransfer_eq sums n x old : n <> NEntry ->
  lTransfer dio blockDU sums (code n) x old = keepL old (newIn (duAt sums n) x).
Proof. intros H. unfold lTransfer. rewrite decode_code. destruct n; try reflexivity. congruence. Qed.
Lemma lTransfer_ok sums k x old : (forall n, duOk (duAt sums n)) -> setOk v x -> setOk v old ->
  setOk v (fst (lTransfer dio blockDU sums k x old)).
Proof.
  intros Hd Hx Ho. rewrite <- (code_decode k).
  destruct (rnode_dec (decode k) NEntry) as [->|NE].
  - unfold lTransfer. rewrite decode_code. now apply keepL_ok.
  - rewrite lTransfer_eq by auto. apply keepL_ok; auto. now apply newIn_in.
Qed.
Theorem live_equations : forall l g sums inV outV,
  nested f l -> levelGraph l g -> (forall n, duOk (duAt sums n)) -> setOk v inV -> setOk v outV ->
  exists vs, solveLive dio blockDU sums g inV outV = Some vs /\
  (forall n, setOk v (vVal vs (code n)) /\ setOk v (vArg vs (code n))) /\
  (forall c, inSet (vVal vs (code NExit)) c <-> inSet inV c \/ inSet outV c) /\
  (forall x y c, edgeX bsucc l x y -> inSet (vVal vs (code y)) c -> inSet (vArg vs (code x)) c) /\
  (forall n c, In n (gNodes g) -> n <> NEntry -> n <> NExit ->
     inSet (duUses (duAt sums n)) c \/ (inSet (vArg vs (code n)) c /\ ~ inSet (duDefs (duAt sums n)) c) ->
     inSet (vVal vs (code n)) c) /\
  (forall x c, In x (gNodes g) -> x <> NExit -> inSet (vArg vs (code x)) c ->
     exists y, edgeX bsucc l x y /\ inSet (vVal vs (code y)) c) /\
  (forall n c, In n (gNodes g) -> n <> NEntry -> n <> NExit -> inSet (vVal vs (code n)) c ->
     inSet (duUses (duAt sums n)) c \/ inSet (vArg vs (code n)) c).
Proof.
  intros l g sums inV outV N G Hd Hi Ho.
  assert (BO : setOk v (lBoundary inV outV) /\
     forall c, inSet (lBoundary inV outV) c <-> inSet inV c \/ inSet outV c).
  { unfold lBoundary. destruct (lMeet_in inV [] Hi (setOk_nil v)) as [A B].
    destruct (lMeet_in outV _ Ho A) as [C D]. split; auto. intros c. rewrite D, B.
    pose proof (inSet_nil c). tauto. }
  destruct (backward_level bsucc bpred f NO RED l mset [] (lBoundary inV outV) [] lMeet
              (lTransfer dio blockDU sums) g N G) as [vs [E [B [EQ INV]]]].
  exists vs. split; auto.
  assert (OK : forall k, setOk v (vVal vs k) /\ setOk v (vArg vs k)).
  { apply INV; try apply setOk_nil.
    - apply BO.
    - intros x y Hx Hy. now apply lMeet_in.
    - intros n x old Hx Hold. now apply lTransfer_ok. }
  destruct (expand_edges bsucc l g G) as [XS _].
  assert (GA : forall x c, In x (gNodes g) -> x <> NExit ->
     (inSet (vArg vs (code x)) c <-> exists y, edgeX bsucc l x y /\ inSet (vVal vs (code y)) c)).
  { intros x c Ix NX. destruct (EQ x Ix NX) as [E1 _].
    destruct (lGather_in (fun n => vVal vs (code n)) (gSucc (expandLive g) x)
                (fun n => proj1 (OK (code n))) [] (setOk_nil v)) as [_ M]. rewrite E1, M.
    pose proof (inSet_nil c) as NC. split.
    - intros [H|[y [H1 H2]]]; [tauto|]. exists y. split; auto. now apply XS.
    - intros [y [H1 H2]]. right. exists y. split; auto. now apply XS. }
  assert (VA : forall n, In n (gNodes g) -> n <> NEntry -> n <> NExit ->
     vVal vs (code n) = newIn (duAt sums n) (vArg vs (code n))).
  { intros n In1 NE NX. destruct (EQ n In1 NX) as [_ E2].
    now rewrite lTransfer_eq, keepL_top in E2 by auto. }
  split; [auto|]. split; [|split; [|split; [|split]]].
  - intros c. rewrite B. apply BO.
  - intros x y c Ed H. destruct (edgeX_nodes bsucc bpred f NO l g x y N G Ed) as [Ix _].
    apply GA; auto.
    + intros ->. eapply edgeX_exit; eauto.
    + eauto.
  - intros n c In1 NE NX H. rewrite (VA n In1 NE NX).
    destruct (newIn_in (duAt sums n) (vArg vs (code n)) (Hd n) (proj2 (OK (code n)))) as [_ [A [C _]]].
    destruct H as [H|[H1 H2]]; auto.
  - intros x c Ix NX H. now apply GA.
  - intros n c In1 NE NX H. rewrite (VA n In1 NE NX) in H.
    destruct (newIn_in (duAt sums n) (vArg vs (code n)) (Hd n) (proj2 (OK (code n)))) as [_ [_ [_ D]]].
    auto.
Qed.
End Eq.
