(* Proofs about the iterative solver (C01). *)
From Coq Require Import List Arith Bool Lia Wf_nat.
Import ListNotations.
From Verif Require Import DFlowModel DFlowSpec.

Lemma setValue_same : forall V (s : node -> V) n v, setValue s n v n = v.
Proof. intros. unfold setValue. now rewrite Nat.eqb_refl. Qed.

Lemma setValue_other : forall V (s : node -> V) n v m,
  m <> n -> setValue s n v m = s m.
Proof.
  intros. unfold setValue. apply Nat.eqb_neq in H. now rewrite H.
Qed.

Section Lattice.
  Context {V : Type} (le : V -> V -> Prop) (F : framework V).
  Hypothesis SL : semilattice le (fwTop F) (fwMeet F).

  Lemma fold_meet_lower : forall (s : node -> V) cs acc,
    le (fold_left (fun a c => fwMeet F (s c) a) cs acc) acc /\
    (forall p, In p cs ->
       le (fold_left (fun a c => fwMeet F (s c) a) cs acc) (s p)).
  Proof.
    induction cs as [|c cs IH]; simpl; intros acc.
    - split; [apply (slRefl _ _ _ SL)|tauto].
    - destruct (IH (fwMeet F (s c) acc)) as [H1 H2]. split.
      + eapply slTrans; eauto. apply (slLower2 _ _ _ SL).
      + intros p [->|Hp]; auto.
        eapply slTrans; eauto. apply (slLower1 _ _ _ SL).
  Qed.

  Lemma fold_meet_greatest : forall (s : node -> V) cs acc z,
    le z acc -> (forall p, In p cs -> le z (s p)) ->
    le z (fold_left (fun a c => fwMeet F (s c) a) cs acc).
  Proof.
    induction cs as [|c cs IH]; simpl; intros acc z Hz H; auto.
    apply IH; auto. apply (slGreatest _ _ _ SL); auto.
  Qed.

  Lemma gather_meet : forall children s n,
    isMeetOf le s (children n) (gather F children s n).
  Proof.
    intros. unfold gather. split.
    - intros p Hp. now apply fold_meet_lower.
    - intros z Hz. apply fold_meet_greatest; auto. apply (slTop _ _ _ SL).
  Qed.

  Lemma meetOf_mono : forall s t from m k,
    (forall p, In p from -> le (s p) (t p)) ->
    isMeetOf le s from m -> isMeetOf le t from k -> le m k.
  Proof.
    intros s t from m k H [H1 _] [_ H2]. apply H2. intros p Hp.
    eapply slTrans; [exact SL|apply H1|apply H]; auto.
  Qed.

  Lemma meetOf_eqv : forall s t from m k,
    (forall p, In p from -> eqv le (s p) (t p)) ->
    isMeetOf le s from m -> isMeetOf le t from k -> eqv le m k.
  Proof.
    intros s t from m k H Hm Hk. split.
    - eapply meetOf_mono; [|exact Hm|exact Hk]. intros; now apply H.
    - eapply meetOf_mono; [|exact Hk|exact Hm]. intros; now apply H.
  Qed.

  Lemma gather_mono : forall children s t n,
    (forall p, In p (children n) -> le (s p) (t p)) ->
    le (gather F children s n) (gather F children t n).
  Proof.
    intros. eapply meetOf_mono; [exact H|apply gather_meet|apply gather_meet].
  Qed.

  Lemma gather_eqv : forall children s t n,
    (forall p, In p (children n) -> eqv le (s p) (t p)) ->
    eqv le (gather F children s n) (gather F children t n).
  Proof.
    intros. eapply meetOf_eqv; [exact H|apply gather_meet|apply gather_meet].
  Qed.

  Lemma eqv_refl : forall x, eqv le x x.
  Proof. split; apply (slRefl _ _ _ SL). Qed.

  Lemma eqv_trans : forall x y z, eqv le x y -> eqv le y z -> eqv le x z.
  Proof.
    intros x y z [A B] [C D].
    split; eapply slTrans; eauto.
  Qed.

  Lemma eqv_sym : forall x y, eqv le x y -> eqv le y x.
  Proof. intros x y [A B]. now split. Qed.

  Lemma equationAt_gather : forall tf children s n,
    eqv le (s n) (tf n (gather F children s n)) ->
    equationAt le tf children s n.
  Proof.
    intros. exists (gather F children s n). split; auto. apply gather_meet.
  Qed.

  Lemma equationAt_gather_inv : forall tf children s n,
    respectful le tf -> equationAt le tf children s n ->
    eqv le (s n) (tf n (gather F children s n)).
  Proof.
    intros tf children s n R [m [Hm E]].
    eapply eqv_trans; [exact E|]. apply R.
    eapply meetOf_eqv; [|exact Hm|apply gather_meet].
    intros; apply eqv_refl.
  Qed.

  Lemma monotone_respectful : forall tf, monotone le tf -> respectful le tf.
  Proof. intros tf M n x y [A B]. split; now apply M. Qed.
End Lattice.

Section Iterative.
  Context {V : Type} (le : V -> V -> Prop) (F : framework V).
  Variable children : node -> list node.
  Hypothesis SL : semilattice le (fwTop F) (fwMeet F).

  (* A pass without changes keeps all values up to the equivalence. *)
  Lemma pass_unchanged : forall ns s b s',
    changedSound le (fwChanged F) ->
    fold_left (evalNode F children) ns (s, b) = (s', false) ->
    b = false /\ forall n, eqv le (s n) (s' n).
  Proof.
    intros ns. induction ns as [|n ns IH]; simpl; intros s b s' CS H.
    - inversion H; subst. split; auto. intros; now apply (eqv_refl le F).
    - apply IH in H as [H1 H2]; auto.
      apply orb_false_iff in H1 as [H1 H3]. apply CS in H1. split; auto.
      intros m. eapply (eqv_trans le F); [exact SL| |apply H2].
      destruct (Nat.eq_dec m n) as [->|N].
      + now rewrite setValue_same.
      + rewrite setValue_other by auto. now apply (eqv_refl le F).
  Qed.

  (* After a pass without changes each equation holds. *)
  Lemma pass_fixpoint : forall ns s b s' n,
    changedSound le (fwChanged F) -> respectful le (fwTransfer F) ->
    fold_left (evalNode F children) ns (s, b) = (s', false) ->
    In n ns -> eqv le (s' n) (fwTransfer F n (gather F children s' n)).
  Proof.
    intros ns. induction ns as [|m ns IH]; simpl; intros s b s' n CS R H Hn;
      [tauto|].
    destruct (pass_unchanged _ _ _ _ CS H) as [Hb Hs'].
    destruct (in_dec Nat.eq_dec n ns) as [I|I].
    - eapply IH; eauto.
    - destruct Hn as [->|Hn]; [|tauto].
      set (v := fwTransfer F n (gather F children s n)) in *.
      assert (E1 : eqv le v (s' n)).
      { specialize (Hs' n). now rewrite setValue_same in Hs'. }
      eapply (eqv_trans le F); [exact SL|apply eqv_sym; exact E1|].
      unfold v. apply R. apply (gather_eqv le F SL). intros p _.
      apply orb_false_iff in Hb as [Hb _]. apply CS in Hb.
      eapply (eqv_trans le F); [exact SL| |apply Hs'].
      destruct (Nat.eq_dec p n) as [->|N].
      + rewrite setValue_same. exact Hb.
      + rewrite setValue_other by auto. now apply (eqv_refl le F).
  Qed.

  Lemma pass_outside : forall ns st s' b' n,
    fold_left (evalNode F children) ns st = (s', b') -> ~ In n ns ->
    s' n = fst st n.
  Proof.
    intros ns. induction ns as [|m ns IH]; simpl; intros [s b] s' b' n H N.
    - inversion H; reflexivity.
    - apply IH with (n := n) in H; [|tauto]. rewrite H. simpl.
      rewrite setValue_other; auto; intro; subst; tauto.
  Qed.

  Lemma init_entry : forall entry s0 ns,
    initValues F entry s0 ns entry = fwBoundary F.
  Proof. intros. unfold initValues. apply setValue_same. Qed.

  Lemma init_node : forall entry s0 ns n,
    n <> entry -> In n ns -> initValues F entry s0 ns n = fwTop F.
  Proof.
    intros entry s0 ns n N I. unfold initValues.
    rewrite setValue_other by auto.
    assert (G : forall l s,
      (In n l \/ s n = fwTop F) ->
      fold_left (fun s n => setValue s n (fwTop F)) l s n = fwTop F).
    { induction l as [|a l IH]; simpl; intros s H.
      - tauto.
      - apply IH. destruct (Nat.eq_dec n a) as [->|D].
        + right. apply setValue_same.
        + rewrite setValue_other by auto. intuition congruence. }
    apply G. auto.
  Qed.

  Lemma init_other : forall entry s0 ns n,
    n <> entry -> ~ In n ns -> initValues F entry s0 ns n = s0 n.
  Proof.
    intros entry s0 ns n N I. unfold initValues.
    rewrite setValue_other by auto.
    revert s0 I. induction ns as [|a l IH]; simpl; intros s0 I; auto.
    rewrite IH by tauto. apply setValue_other. intro; subst; tauto.
  Qed.

  Variable nodes : list node.

  Lemma iterate_inv : forall (P : (node -> V) -> Prop) fuel s s',
    (forall s s' b, P s -> onePass F children nodes s = (s', b) -> P s') ->
    P s -> iterate F children nodes fuel s = Some s' -> P s'.
  Proof.
    intros P fuel. induction fuel as [|f IH]; simpl; intros s s' HP Hs H;
      [discriminate|].
    destruct (onePass F children nodes s) as [t b] eqn:E.
    destruct b.
    - eapply IH; [exact HP| |exact H]. eapply HP; eauto.
    - inversion H; subst. eapply HP; eauto.
  Qed.

  Lemma iterate_last : forall fuel s s',
    iterate F children nodes fuel s = Some s' ->
    exists t, onePass F children nodes t = (s', false).
  Proof.
    induction fuel as [|f IH]; simpl; intros s s' H; [discriminate|].
    destruct (onePass F children nodes s) as [t b] eqn:E.
    destruct b; [eauto|]. inversion H; subst. eauto.
  Qed.

  (* Invariant of the whole run with respect to a (pre-)solution t. *)
  Lemma pass_above : forall (U : list node) (t : node -> V) ns st s' b',
    monotone le (fwTransfer F) ->
    (forall n, In n ns -> le (t n) (fwTransfer F n (gather F children t n))) ->
    (forall n, In n ns -> incl (children n) U) ->
    (forall n, In n U -> le (t n) (fst st n)) ->
    fold_left (evalNode F children) ns st = (s', b') ->
    forall n, In n U -> le (t n) (s' n).
  Proof.
    intros U t ns. induction ns as [|m ns IH]; simpl;
      intros [s b] s' b' M HT HI HS H.
    - inversion H; subst. exact HS.
    - eapply IH; [exact M| | | |exact H]; auto. simpl. intros n IU.
      destruct (Nat.eq_dec n m) as [->|N].
      + rewrite setValue_same.
        eapply slTrans; [exact SL|apply HT; auto|]. apply M.
        apply (gather_mono le F SL). intros p Hp. apply HS.
        apply (HI m); auto.
      + rewrite setValue_other by auto. now apply HS.
  Qed.

  (* Values only go down. *)
  Definition decreasing (s : node -> V) : Prop :=
    forall n, In n nodes -> le (fwTransfer F n (gather F children s n)) (s n).

  Lemma eval_decreasing : forall s m b s' b',
    monotone le (fwTransfer F) -> decreasing s -> In m nodes ->
    evalNode F children (s, b) m = (s', b') ->
    decreasing s' /\ forall n, le (s' n) (s n).
  Proof.
    intros s m b s' b' M D Im H. inversion H; subst; clear H.
    assert (L : forall n, le (setValue s m
       (fwTransfer F m (gather F children s m)) n) (s n)).
    { intros n. destruct (Nat.eq_dec n m) as [->|N].
      - rewrite setValue_same. auto.
      - rewrite setValue_other by auto. apply (slRefl _ _ _ SL). }
    split; auto. intros n In'.
    destruct (Nat.eq_dec n m) as [->|N].
    - rewrite setValue_same. apply M. apply (gather_mono le F SL). auto.
    - rewrite setValue_other by auto.
      eapply slTrans; [exact SL| |apply (D n In')].
      apply M. apply (gather_mono le F SL). auto.
  Qed.

  (* One pass: the values go down, and strictly at some node if the flag is
     raised. *)
  Lemma pass_decreasing : forall ns s b s' b',
    monotone le (fwTransfer F) -> changedExact le (fwChanged F) ->
    incl ns nodes -> decreasing s ->
    fold_left (evalNode F children) ns (s, b) = (s', b') ->
    decreasing s' /\ (forall n, le (s' n) (s n)) /\
    (b' = true -> b = true \/ exists n, In n ns /\ below le (s' n) (s n)).
  Proof.
    intros ns. induction ns as [|m ns IH]; intros s b s' b' M CE I D H.
    - simpl in H. inversion H; subst. split; auto. split; auto.
      intros; apply (slRefl _ _ _ SL).
    - cbn [fold_left] in H.
      destruct (evalNode F children (s, b) m) as [s1 b1] eqn:E1.
      destruct (eval_decreasing s m b s1 b1) as [D1 L1]; auto.
      { apply I; now left. }
      apply IH in H as [D2 [L2 B2]]; auto;
        [|intros x Hx; apply I; now right].
      split; auto. split.
      { intros n. eapply slTrans; eauto. }
      intros Hb'. destruct (B2 Hb') as [Hb1|[n [In1 Bn]]].
      + simpl in E1. inversion E1; subst.
        apply orb_true_iff in H1 as [C|C]; auto.
        right. exists m. split; [now left|].
        assert (NE : ~ eqv le (s m)
                 (fwTransfer F m (gather F children s m))).
        { intro Q. apply (CE m) in Q. congruence. }
        split; [eapply slTrans; eauto|].
        intro Q. apply NE. split; [|apply D; apply I; now left].
        eapply slTrans; [exact SL|exact Q|].
        eapply slTrans; [exact SL|apply L2|]. rewrite setValue_same.
        apply (slRefl _ _ _ SL).
      + right. exists n. split; [now right|]. destruct Bn as [Q1 Q2].
        split; [eapply slTrans; eauto|].
        intro Q. apply Q2. eapply slTrans; eauto.
  Qed.
End Iterative.

(* Well-foundedness of the pointwise order on tuples. *)
Section Product.
  Context {V : Type} (le : V -> V -> Prop).
  Hypothesis le_refl : forall x, le x x.
  Hypothesis le_trans : forall x y z, le x y -> le y z -> le x z.

  Definition leAll (xs ys : list V) : Prop := Forall2 le xs ys.

  Inductive ltAll : list V -> list V -> Prop :=
  | lt_here : forall x y xs ys, below le x y -> leAll xs ys ->
      ltAll (x :: xs) (y :: ys)
  | lt_later : forall x y xs ys, le x y -> ltAll xs ys ->
      ltAll (x :: xs) (y :: ys).

  Lemma leAll_trans : forall xs ys zs,
    leAll xs ys -> leAll ys zs -> leAll xs zs.
  Proof.
    induction xs; intros ys zs H1 H2; inversion H1; subst;
      inversion H2; subst; constructor; eauto.
    eapply IHxs; eauto.
  Qed.

  Lemma below_le : forall x y z, below le x y -> le y z -> below le x z.
  Proof.
    intros x y z [A B] C. split; eauto.
  Qed.

  Lemma ltAll_le : forall xs ys zs, ltAll xs ys -> leAll ys zs -> ltAll xs zs.
  Proof.
    intros xs ys zs H. revert zs.
    induction H; intros zs L; inversion L; subst.
    - apply lt_here; [eapply below_le; eauto|eapply leAll_trans; eauto].
    - apply lt_later; eauto.
  Qed.

  Lemma acc_down : forall xs ys, Acc ltAll ys -> leAll xs ys -> Acc ltAll xs.
  Proof.
    intros xs ys [A] L. constructor. intros z Hz. apply A.
    eapply ltAll_le; eauto.
  Qed.

  Lemma ltAll_wf : well_founded (below le) -> well_founded ltAll.
  Proof.
    intros W xs. induction xs as [|x xs IH].
    - constructor. intros y H. inversion H.
    - assert (G : forall x, Acc (below le) x -> forall ys, Acc ltAll ys ->
        forall x' ys', le x' x -> leAll ys' ys -> Acc ltAll (x' :: ys')).
      { clear x xs IH. intros x Hx. induction Hx as [x _ IHx].
        intros ys Hys. induction Hys as [ys Hys IHys].
        intros x' ys' Lx Ly. constructor. intros z Hz.
        inversion Hz; subst.
        - eapply IHx with (ys := xs).
          + eapply below_le; eauto.
          + eapply acc_down; [|eapply leAll_trans; eauto].
            constructor; auto.
          + apply le_refl.
          + clear - le_refl. induction xs; constructor; auto.
        - eapply IHys with (y := xs).
          + eapply ltAll_le; eauto.
          + eauto.
          + clear - le_refl. induction xs; constructor; auto. }
      eapply G; eauto.
      clear - le_refl. induction xs; constructor; auto.
  Qed.

  Lemma map_leAll : forall (s t : node -> V) ns,
    (forall n, le (s n) (t n)) -> leAll (map s ns) (map t ns).
  Proof. induction ns; simpl; intros; constructor; auto. apply IHns; auto. Qed.

  Lemma map_ltAll : forall (s t : node -> V) ns n,
    (forall n, le (s n) (t n)) -> In n ns -> below le (s n) (t n) ->
    ltAll (map s ns) (map t ns).
  Proof.
    induction ns as [|m ns IH]; simpl; intros n L I B; [tauto|].
    destruct I as [->|I].
    - apply lt_here; auto. now apply map_leAll.
    - apply lt_later; eauto.
  Qed.
End Product.

Section Termination.
  Context {V : Type} (le : V -> V -> Prop) (F : framework V).
  Variable children : node -> list node.
  Variable nodes : list node.
  Hypothesis SL : semilattice le (fwTop F) (fwMeet F).
  Hypothesis M : monotone le (fwTransfer F).
  Hypothesis CE : changedExact le (fwChanged F).

  Lemma iterate_terminates : forall s,
    well_founded (below le) -> decreasing le F children nodes s ->
    exists fuel s', iterate F children nodes fuel s = Some s'.
  Proof.
    intros s W.
    assert (W' : well_founded (ltAll le)).
    { apply ltAll_wf; auto; [apply (slRefl _ _ _ SL)|].
      intros; eapply slTrans; eauto. }
    remember (map s nodes) as k eqn:Ek. revert s Ek.
    induction (W' k) as [k _ IH]. intros s -> D.
    destruct (onePass F children nodes s) as [s1 b1] eqn:E.
    destruct (pass_decreasing le F children SL nodes nodes s false s1 b1
                M CE (incl_refl _) D E) as [D1 [L1 B1]].
    destruct b1.
    - destruct (B1 eq_refl) as [Q|[n [I B]]]; [discriminate|].
      destruct (IH (map s1 nodes)) with (s := s1) as [f [s' H]]; auto.
      { eapply map_ltAll; eauto. }
      exists (S f), s'. simpl. now rewrite E.
    - exists 1, s1. simpl. now rewrite E.
  Qed.

  Definition total (rank : V -> nat) (s : node -> V) (ns : list node) : nat :=
    list_sum (map (fun n => rank (s n)) ns).

  Lemma total_le : forall rank s t ns,
    (forall x y, le x y -> rank x <= rank y) ->
    (forall n, le (s n) (t n)) -> total rank s ns <= total rank t ns.
  Proof.
    intros rank s t ns R L. unfold total. induction ns; simpl; auto.
    specialize (R _ _ (L a)). lia.
  Qed.

  Lemma total_lt : forall rank s t ns n,
    (forall x y, le x y -> rank x <= rank y) ->
    (forall x y, below le x y -> rank x < rank y) ->
    (forall n, le (s n) (t n)) -> In n ns -> below le (s n) (t n) ->
    total rank s ns < total rank t ns.
  Proof.
    intros rank s t ns n R R' L. unfold total.
    induction ns as [|a ns IH]; simpl; intros I B; [tauto|].
    pose proof (total_le rank s t ns R L) as T. unfold total in T.
    specialize (R _ _ (L a)). destruct I as [->|I].
    - specialize (R' _ _ B). lia.
    - specialize (IH I B). lia.
  Qed.

  Lemma iterate_bound : forall rank fuel s,
    (forall x y, le x y -> rank x <= rank y) ->
    (forall x y, below le x y -> rank x < rank y) ->
    decreasing le F children nodes s ->
    total rank s nodes < fuel ->
    exists s', iterate F children nodes fuel s = Some s'.
  Proof.
    intros rank fuel. induction fuel as [|f IH]; intros s R R' D T; [lia|].
    simpl. destruct (onePass F children nodes s) as [s1 b1] eqn:E.
    destruct (pass_decreasing le F children SL nodes nodes s false s1 b1
                M CE (incl_refl _) D E) as [D1 [L1 B1]].
    destruct b1; eauto.
    destruct (B1 eq_refl) as [Q|[n [I B]]]; [discriminate|].
    apply IH; auto.
    pose proof (total_lt rank s1 s nodes n R R' L1 I B). lia.
  Qed.
End Termination.
