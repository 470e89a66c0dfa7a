(** The single pass of the solver computes a solution of the equations. *)
From Coq Require Import ZArith Bool List Arith Lia.
From Verif Require Import RangeModel MemSetModel DFValueModel DFlowModel DFlowSpec
  RegionModel RegionSpec MemFlowModel Prop_DFlow.
Import ListNotations.
Open Scope nat_scope.

Lemma setValue_same {V} (s : node -> V) n x : setValue s n x n = x.
Proof. unfold setValue. now rewrite Nat.eqb_refl. Qed.
Lemma setValue_other {V} (s : node -> V) n x m : m <> n -> setValue s n x m = s m.
Proof. intros H. unfold setValue. destruct (Nat.eqb_spec m n); congruence. Qed.

Section Topo.
  Context {V : Type}.
  Variable top boundary e : V.
  Variable meet : V -> V -> V.
  Variable tf : node -> V -> V -> V * bool.
  Variable children : node -> list node.
  Notation gather := (gatherK top meet children).
  Notation eval := (evalK top meet tf children).

  Lemma gather_ext (s s' : node -> V) n :
    (forall c, In c (children n) -> s c = s' c) -> gather s n = gather s' n.
  Proof.
    unfold gatherK. generalize top as a. induction (children n) as [|c l IH]; intros a H; simpl; auto.
    rewrite (H c) by (now left). apply IH. intros; apply H; now right.
  Qed.
  Lemma fold_other ns : forall st m, ~ In m ns ->
    vVal (fst (fold_left eval ns st)) m = vVal (fst st) m /\
    vArg (fst (fold_left eval ns st)) m = vArg (fst st) m.
  Proof.
    induction ns as [|n ns IH]; intros st m H; simpl; auto.
    destruct (IH (eval st n) m) as [A B]; [intros Q; apply H; now right|].
    rewrite A, B. destruct st as [s ch]. unfold evalK.
    destruct (tf n _ _) as [x c]. simpl.
    rewrite !setValue_other; auto; intros ->; apply H; now left.
  Qed.
  Lemma fold_solves ns : forall st, NoDup ns ->
    (forall n, In n ns -> vVal (fst st) n = top) ->
    (forall before n after c, ns = before ++ n :: after -> In c (children n) ->
       ~ In c (n :: after)) ->
    forall n, In n ns ->
      let s := fst (fold_left eval ns st) in
      vArg s n = gather (vVal s) n /\ vVal s n = fst (tf n (vArg s n) top).
  Proof.
    induction ns as [|m ns IH]; intros st ND T C n In1 s; [destruct In1|].
    inversion ND as [|? ? NI ND']; subst.
    unfold s. simpl. destruct (Nat.eq_dec n m) as [->|NE].
    - destruct (fold_other ns (eval st m) m NI) as [A B].
      assert (G : gather (vVal (fst (fold_left eval ns (eval st m)))) m = gather (vVal (fst st)) m).
      { apply gather_ext. intros c Hc. pose proof (C [] m ns c eq_refl Hc) as Q.
        destruct (fold_other ns (eval st m) c) as [A1 _]; [intros X; apply Q; now right|].
        rewrite A1. destruct st as [s0 ch]. unfold evalK. destruct (tf m _ _) as [x d]. simpl.
        apply setValue_other. intros ->. apply Q. now left. }
      rewrite G, A, B. destruct st as [s0 ch]. unfold evalK.
      specialize (T m (or_introl eq_refl)). simpl in T.
      destruct (tf m (gather (vVal s0) m) (vVal s0 m)) as [x d] eqn:E. simpl.
      rewrite !setValue_same. split; auto. rewrite T in E. rewrite E. reflexivity.
    - destruct In1 as [->|In1]; [congruence|].
      apply IH; auto.
      + intros k Hk. destruct st as [s0 ch]. unfold evalK. destruct (tf m _ _) as [x d]. simpl.
        rewrite setValue_other by (intros ->; auto). apply (T k). now right.
      + intros before k after c E Hc. apply (C (m :: before) k after c); auto. now rewrite E.
  Qed.

  (** An invariant of all values. *)
  Variable P : V -> Prop.
  Hypothesis Pe : P e.
  Hypothesis Ptop : P top.
  Hypothesis Pboundary : P boundary.
  Hypothesis Pmeet : forall x y, P x -> P y -> P (meet x y).
  Hypothesis Ptf : forall n v old, P v -> P old -> P (fst (tf n v old)).
  Definition allP (s : @vals V) : Prop := forall n, P (vVal s n) /\ P (vArg s n).
  Lemma gather_P s n : (forall m, P (s m)) -> P (gather s n).
  Proof.
    intros H. unfold gatherK. revert Ptop. generalize top as a.
    induction (children n) as [|c l IH]; intros a Ha; simpl; auto.
  Qed.
  Lemma eval_P st n : allP (fst st) -> allP (fst (eval st n)).
  Proof.
    destruct st as [s ch]. intros H. unfold evalK.
    assert (G : P (gather (vVal s) n)) by (apply gather_P; intros m; apply H).
    pose proof (Ptf n (gather (vVal s) n) (vVal s n) G (proj1 (H n))) as Q.
    destruct (tf n _ _) as [x c]. simpl in *. intros m. simpl. unfold setValue.
    destruct (Nat.eqb m n); split; auto; apply H.
  Qed.
  Lemma fold_P ns : forall st, allP (fst st) -> allP (fst (fold_left eval ns st)).
  Proof. induction ns; intros st H; simpl; auto. apply IHns, eval_P, H. Qed.
  Lemma init_P ns entry : allP (initK top boundary e ns entry).
  Proof.
    intros n. unfold initK. simpl. split; auto. unfold setValue at 1.
    destruct (Nat.eqb n entry); auto.
    assert (Q : forall m, P ((fun _ : node => e) m)) by auto. revert Q.
    generalize (fun _ : node => e) as s. induction ns as [|k ns IH]; intros s Q; simpl; auto.
    apply IH. intros m. unfold setValue. destruct (Nat.eqb m k); auto.
  Qed.
End Topo.

(** The whole solver on an acyclic region. *)
Theorem solveK_ok : forall V (top boundary e : V) meet tf d r fuel U,
  gtChildren d r (gtEntry d r) = [] ->
  mutuallyInverse (gtChildren d r) (gtInverseChildren d r) ->
  acyclicFrom (gtInverseChildren d r) (gtEntry d r) ->
  closedUnder (gtInverseChildren d r) U -> In (gtEntry d r) U -> length U < fuel ->
  exists s, solveK top boundary meet tf (gtChildren d r) e d r fuel = Some s /\
    vVal s (gtEntry d r) = boundary /\
    (forall n, path (gtInverseChildren d r) (gtEntry d r) n -> n <> gtEntry d r ->
       vArg s n = gatherK top meet (gtChildren d r) (vVal s) n /\
       vVal s n = fst (tf n (vArg s n) top)) /\
    forall P : V -> Prop, P e -> P top -> P boundary ->
      (forall x y, P x -> P y -> P (meet x y)) ->
      (forall n v old, P v -> P old -> P (fst (tf n v old))) ->
      forall n, P (vVal s n) /\ P (vArg s n).
Proof.
  intros V top boundary e meet tf d r fuel U CE INV AC CU IU L.
  unfold solveK.
  assert (E : isDAG (gtChildren d r) fuel (gtEntry d r) = Some true).
  { destruct fuel; [lia|]. unfold isDAG, findBackEdge. cbn [findBackEdgeFrom]. now rewrite CE. }
  rewrite E.
  destruct (C02_order (gtInverseChildren d r) (gtEntry d r) U fuel AC CU IU L)
    as [ord [EO [ND [IN [HD TO]]]]].
  rewrite EO. eexists. split; [reflexivity|].
  destruct ord as [|x ns]; [discriminate|]. injection HD as ->. cbn [tl].
  inversion ND as [|? ? NI ND']; subst.
  set (en := gtEntry d r) in *.
  assert (I0 : forall n, In n ns -> vVal (initK top boundary e ns en) n = top).
  { intros n Hn. unfold initK. simpl. rewrite setValue_other by (intros ->; auto).
    generalize (fun _ : node => e) as s. clear -Hn. induction ns as [|k ns IH]; intros s; [destruct Hn|].
    simpl. destruct (in_dec Nat.eq_dec n ns) as [Y|N]; [auto|].
    destruct Hn as [->|Hn]; [|tauto].
    assert (Q : forall ns s, ~ In n ns ->
       fold_left (fun (s0 : node -> V) k => setValue s0 k top) ns s n = s n).
    { clear. induction ns as [|k ns IH]; intros s N; simpl; auto. rewrite IH.
      - apply setValue_other. intros ->. apply N. now left.
      - intros Q. apply N. now right. }
    rewrite Q by auto. apply setValue_same. }
  split; [|split].
  - destruct (fold_other top meet tf (gtChildren d r) ns (initK top boundary e ns en, false) en NI)
      as [A _]. rewrite A. simpl. apply setValue_same.
  - intros n Pn Nn.
    assert (In1 : In n ns). { apply IN in Pn. destruct Pn as [->|]; [congruence|auto]. }
    apply (fold_solves top meet tf (gtChildren d r) ns); auto.
    intros before k after c Es Hc Q.
    assert (Pk : path (gtInverseChildren d r) en k).
    { apply IN. right. rewrite Es. apply in_app_iff. right. now left. }
    assert (Pc : path (gtInverseChildren d r) en c).
    { destruct Q as [<-|Q]; [auto|]. apply IN. right. rewrite Es. apply in_app_iff. right. now right. }
    assert (B : In c (en :: before)).
    { apply (TO (en :: before) c k after); [now rewrite Es|auto|]. apply INV. exact Hc. }
    rewrite Es in ND. change (en :: before ++ k :: after) with ((en :: before) ++ k :: after) in ND.
    clear -ND B Q. induction (en :: before) as [|y l IH]; [destruct B|].
    inversion ND as [|? ? N1 N2]; subst. destruct B as [->|B]; [|auto].
    apply N1. apply in_app_iff. now right.
  - intros P Pe Pt Pb Pm Ptf. apply (fold_P top meet tf (gtChildren d r) P Pt Pm Ptf).
    apply (init_P top boundary e P); auto.
Qed.

Lemma decode_code n : decode (code n) = n.
Proof.
  destruct n as [| | |b|h]; try reflexivity.
  - change (code (NBlock b)) with (S (S (S (2 * b)))). cbn [decode].
    rewrite Nat.even_mul. simpl orb. cbn iota. f_equal.
    apply (Nat.div2_double b).
  - change (code (NLoop h)) with (S (S (S (S (2 * h))))). cbn [decode].
    replace (Nat.even (S (2 * h))) with false.
    + f_equal. apply (Nat.div2_succ_double h).
    + symmetry. rewrite Nat.even_succ, Nat.odd_mul. reflexivity.
Qed.
Lemma code_inj a b : code a = code b -> a = b.
Proof. intros H. rewrite <- (decode_code a), H. apply decode_code. Qed.
