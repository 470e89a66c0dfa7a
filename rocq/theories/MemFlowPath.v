(** Executions of a loop are sequences of visits of the nodes of its region. *)
From Coq Require Import ZArith Bool List Arith Lia Permutation.
From Verif Require Import RegionModel RegionSpec RegionProof
  MemFlowModel MemFlowSpec MemFlowSolve MemFlowLevel.
Import ListNotations.
Open Scope nat_scope.

(** ** Events *)
Lemma events_app p q : events (p ++ q) = events p ++ events q.
Proof. unfold events. now rewrite map_app, concat_app. Qed.
Lemma events_one (b : block) t : events [(b, t)] = t.
Proof. unfold events. simpl. apply app_nil_r. Qed.
Lemma written_app c a b : written c (a ++ b) <-> written c a \/ written c b.
Proof. unfold written. apply in_app_iff. Qed.
Lemma exposed_app c a b : exposed c (a ++ b) -> exposed c a \/ (~ written c a /\ exposed c b).
Proof.
  intros [t1 [t2 [E W]]]. apply app_eq_app in E. destruct E as [l [[-> E]|[-> E]]].
  - destruct l as [|x l].
    + right. rewrite app_nil_r in *. simpl in E. subst b. split; auto.
      exists [], t2. now split.
    + simpl in E. injection E as <- ->. left. exists t1, l. split; auto.
  - right. split; [intros H; apply W, written_app; auto|]. exists l, t2. split; auto.
    intros H. apply W, written_app. auto.
Qed.
Lemma exposed_left c a b : exposed c a -> exposed c (a ++ b).
Proof.
  intros [t1 [t2 [-> W]]]. exists t1, (t2 ++ b). split; auto. now rewrite <- app_assoc.
Qed.
Lemma exposed_written_dec c a : {written c a} + {~ written c a}.
Proof.
  apply in_dec. decide equality; decide equality; try apply Z.eq_dec; apply Nat.eq_dec.
Defined.
Lemma exposed_right c a b : ~ written c a -> exposed c b -> exposed c (a ++ b).
Proof.
  intros W [t1 [t2 [-> W2]]]. exists (a ++ t1), t2. split; [now rewrite <- app_assoc|].
  rewrite written_app. tauto.
Qed.

Section Path.
Variable bsucc bpred : block -> list block.
Variable runs ends : block -> list event -> Prop.
Hypothesis RE : forall b t, ends b t -> runs b t.

(** ** Pieces *)
Definition lastOf (b : block) (p : piece) : block := last (map fst p) b.
Lemma lastOf_snoc b p s : lastOf b (p ++ [s]) = fst s.
Proof. unfold lastOf. rewrite map_app. apply last_last. Qed.
Lemma last_cons (l : list block) : forall x d, last (x :: l) d = last l x.
Proof.
  induction l as [|y l IH]; intros x d; [reflexivity|].
  transitivity (last (y :: l) d); [reflexivity|]. now rewrite !IH.
Qed.
Lemma lastOf_cons b s p : lastOf b (s :: p) = lastOf (fst s) p.
Proof. apply last_cons. Qed.
Lemma follows_app b p q : follows bsucc b (p ++ q) <-> follows bsucc b p /\ follows bsucc (lastOf b p) q.
Proof.
  revert b. induction p as [|s p IH]; intros b.
  - simpl. tauto.
  - rewrite lastOf_cons. cbn [app follows]. rewrite IH. tauto.
Qed.
Lemma startsAt_app b p q : p <> [] ->
  (startsAt bsucc b (p ++ q) <-> startsAt bsucc b p /\ follows bsucc (lastOf b p) q).
Proof.
  intros H. destruct p as [|s p]; [congruence|]. rewrite lastOf_cons. cbn [app startsAt].
  split; [intros [<- F]; apply follows_app in F|intros [[<- F1] F2]; split; auto; apply follows_app]; tauto.
Qed.
Lemma executed_app p q : executed runs ends (p ++ q) -> q <> [] ->
  completed ends p /\ executed runs ends q.
Proof.
  intros H Q. induction p as [|s p IH]; [split; [constructor|auto]|].
  cbn [app executed] in H. destruct H as [[E _]|[H1 H2]].
  - destruct p; [|discriminate]. simpl in E. congruence.
  - destruct (IH H2) as [A B]. split; [constructor; auto|auto].
Qed.
Lemma completed_executed p : completed ends p -> executed runs ends p.
Proof. induction 1; simpl; auto. Qed.
Lemma completed_app p q : completed ends (p ++ q) <-> completed ends p /\ completed ends q.
Proof. unfold completed. apply Forall_app. Qed.
Lemma lastBlock_lastOf p b d : lastBlock p b -> lastOf d p = b.
Proof. intros [q [t ->]]. apply lastOf_snoc. Qed.
Lemma lastBlock_fun p b c : lastBlock p b -> lastBlock p c -> b = c.
Proof. intros H1 H2. rewrite <- (lastBlock_lastOf p b 0 H1). now apply lastBlock_lastOf. Qed.
Lemma lastBlock_snoc p b t : lastBlock (p ++ [(b, t)]) b.
Proof. exists p, t. reflexivity. Qed.
Lemma lastBlock_one (b : block) (t : list event) : lastBlock [(b, t)] b.
Proof. exists [], t. reflexivity. Qed.
Lemma lastBlock_app p q b : lastBlock q b -> lastBlock (p ++ q) b.
Proof. intros [r [t ->]]. exists (p ++ r), t. now rewrite app_assoc. Qed.

Variable f : loop.
Hypothesis NO : nestOk bsucc bpred f.
Hypothesis RED : reducible bsucc f.
Notation edge := (regionEdge bsucc).

(** The last visited node of the region, the visit and what was before it. *)
Inductive visits (l : loop) : piece -> rnode -> piece -> Prop :=
| vs_start t : visits l [] (NBlock (lpHeader l)) [(lpHeader l, t)]
| vs_stay q i r b s t : In i (lpInner l) -> visits l q (NLoop (lpHeader i)) r ->
    lastBlock r b -> In b (lpBlocks i) -> In s (bsucc b) -> In s (lpBlocks i) ->
    visits l q (NLoop (lpHeader i)) (r ++ [(s, t)])
| vs_go q n r b s t y : visits l q n r -> lastBlock r b -> standsFor l b n -> In s (bsucc b) ->
    In s (lpBlocks l) -> s <> lpHeader l -> standsFor l s y -> n <> y -> edge l n y ->
    visits l (q ++ r) y [(s, t)].

(** What a visit of a node is. *)
Definition visitOf (l : loop) (n : rnode) (r : piece) : Prop :=
  (exists b t, n = NBlock b /\ r = [(b, t)]) \/
  (exists i, In i (lpInner l) /\ n = NLoop (lpHeader i) /\
     startsAt bsucc (lpHeader i) r /\ inside i r).

Lemma header_stands l : nested f l -> standsFor l (lpHeader l) (NBlock (lpHeader l)).
Proof.
  intros N. pose proof (NO l N) as OK. right. split; [apply (loHeader _ _ _ OK)|].
  split; [intros i Hi; apply (loOwn _ _ _ OK i Hi)|reflexivity].
Qed.
Lemma pred_of b s : bsucc b <> [] -> In s (bsucc b) -> (forall l, nested f l -> In b (bpred s)) .
Proof.
  intros _ H l N. pose proof (loEdges _ _ _ (NO l N) b s) as E. unfold times in E.
  apply (count_occ_In Nat.eq_dec). rewrite <- E. now apply (count_occ_In Nat.eq_dec).
Qed.
Lemma entered_at_header l i b s : nested f l -> In i (lpInner l) -> In s (bsucc b) ->
  In s (lpBlocks i) -> ~ In b (lpBlocks i) -> s = lpHeader i.
Proof.
  intros N Hi J Is Nb. destruct (Nat.eq_dec s (lpHeader i)) as [|NE]; auto. exfalso.
  apply Nb. assert (Ni : nested f i) by (eapply nested_inner; eauto).
  apply (loEntered _ _ _ (NO i Ni) s b Is NE). apply (pred_of b s) with (l := i); auto.
  intros E. now rewrite E in J.
Qed.
Lemma inner_of_stands l i b n : nested f l -> In i (lpInner l) -> In b (lpBlocks i) ->
  standsFor l b n -> n = NLoop (lpHeader i).
Proof.
  intros N Hi Hb [[j [Hj [Bj ->]]]|[_ [H _]]]; [|exfalso; exact (H i Hi Hb)].
  now rewrite (loApart _ _ _ (NO l N) i j b Hi Hj Hb Bj).
Qed.
Lemma stands_inner l i b : nested f l -> In i (lpInner l) -> standsFor l b (NLoop (lpHeader i)) ->
  In b (lpBlocks i).
Proof.
  intros N Hi [[j [Hj [Bj E]]]|[_ [_ E]]]; [|discriminate]. injection E as E.
  assert (i = j); [|subst; auto].
  assert (ND := loHeads _ _ _ (NO l N)). clear -ND Hi Hj E.
  induction (lpInner l) as [|a is IH]; [destruct Hi|]. inversion ND as [|? ? NI ND']; subst.
  destruct Hi as [->|Hi], Hj as [->|Hj]; auto; exfalso; apply NI.
  - rewrite E. now apply in_map.
  - rewrite <- E. now apply in_map.
Qed.
Lemma visits_ok l q n r : nested f l -> visits l q n r ->
  visitOf l n r /\ (exists b, lastBlock r b /\ standsFor l b n).
Proof.
  intros N V. induction V as [t|q i r b s t Hi V IH Lb Bi J Si|q n r b s t y V IH Lb Sb J Sl Sh Sy Ne E].
  - split; [left; eauto|]. exists (lpHeader l). split; [apply lastBlock_one|now apply header_stands].
  - destruct IH as [[[b' [t' [E _]]]|[j [Hj [E [S I]]]]] _]; [discriminate|]. injection E as E.
    split; [right|].
    + exists i. split; auto. split; auto.
      assert (j = i) as ->.
      { symmetry. assert (SJ : standsFor l (lpHeader j) (NLoop (lpHeader i))).
        { left. exists j. split; [auto|]. split; [|congruence].
          apply (loHeader _ _ _ (NO j (nested_inner f l j N Hj))). }
        apply (loApart _ _ _ (NO l N) i j (lpHeader j) Hi Hj); [eapply stands_inner; eauto|].
        apply (loHeader _ _ _ (NO j (nested_inner f l j N Hj))). }
      split.
      * assert (r <> []) by (destruct r; [destruct S|discriminate]).
        apply startsAt_app; auto. split; auto. rewrite (lastBlock_lastOf r b _ Lb). simpl. auto.
      * apply Forall_app. split; auto.
    + exists s. split; [apply lastBlock_snoc|]. left. eauto.
  - split.
    + destruct Sy as [[i [Hi [Bi ->]]]|[_ [_ ->]]]; [right|left; eauto]. exists i.
      split; auto. split; auto.
      assert (s = lpHeader i).
      { apply (entered_at_header l i b s); auto. intros H. apply Ne.
        apply (inner_of_stands l i b n); auto. }
      subst s. split; [simpl; auto|]. constructor; auto.
    + exists s. split; [apply lastBlock_one|auto].
Qed.
Lemma visits_exist l p : nested f l -> startsAt bsucc (lpHeader l) p -> inside l p ->
  ~ In (lpHeader l) (tl (blocksOf p)) ->
  exists q n r, p = q ++ r /\ visits l q n r.
Proof.
  intros N. induction p as [|s p IH] using rev_ind; [intros []|]. intros S I NH.
  destruct p as [|s0 p0].
  - simpl in S. destruct s as [b t]. destruct S as [E _]. simpl in E. subst b.
    exists [], (NBlock (lpHeader l)), [(lpHeader l, t)]. split; auto. constructor.
  - remember (s0 :: p0) as p eqn:Ep.
    assert (NP : p <> []) by (subst; discriminate).
    apply (startsAt_app _ p [s] NP) in S. destruct S as [S F].
    apply Forall_app in I. destruct I as [I1 I2]. inversion I2 as [|? ? Is _]; subst x l0.
    destruct (IH S I1) as [q [n [r [E V]]]].
    { intros H. apply NH. subst p. simpl. unfold blocksOf in *. rewrite map_app.
      apply in_or_app. auto. }
    assert (HNH : fst s <> lpHeader l).
    { intros H. apply NH. subst p. simpl. unfold blocksOf. rewrite map_app.
      apply in_or_app. right. simpl. auto. }
    destruct (visits_ok l q n r N V) as [_ [b [Lb Sb]]].
    assert (LB : lastOf (lpHeader l) p = b).
    { apply lastBlock_lastOf. rewrite E. now apply lastBlock_app. }
    rewrite LB in F. simpl in F. destruct F as [J _]. destruct s as [s t]. cbn [fst] in *.
    destruct (block_next bsucc bpred f NO RED l b n s N Sb J)
      as [[i [Hi [En [Bi Si]]]]|[[Eh _]|[[No _]|[y [_ [_ [Sy [Ne Ed]]]]]]]]; try contradiction.
    + subst n. exists q, (NLoop (lpHeader i)), (r ++ [(s, t)]). split.
      * now rewrite E, app_assoc.
      * eapply vs_stay; eauto.
    + exists (q ++ r), y, [(s, t)]. split; [now rewrite E|]. eapply vs_go; eauto.
Qed.

(** The last iteration of a loop. *)
Lemma last_iteration l p : nested f l -> startsAt bsucc (lpHeader l) p ->
  exists p1 p2, p = p1 ++ p2 /\ startsAt bsucc (lpHeader l) p2 /\
    ~ In (lpHeader l) (tl (blocksOf p2)) /\
    (p1 = [] \/ (startsAt bsucc (lpHeader l) p1 /\ In (lpHeader l) (bsucc (lastOf 0 p1)))).
Proof.
  intros N. induction p as [|s p IH] using rev_ind; [intros []|]. intros S.
  destruct p as [|s0 p0].
  - exists [], [s]. split; [auto|]. split; [auto|]. split; [intros []|auto].
  - remember (s0 :: p0) as p eqn:Ep.
    assert (NP : p <> []) by (subst; discriminate).
    apply (startsAt_app _ p [s] NP) in S. destruct S as [S F].
    assert (LL : lastOf (lpHeader l) p = lastOf 0 p).
    { subst p. now rewrite !lastOf_cons. }
    rewrite LL in F.
    destruct (Nat.eq_dec (fst s) (lpHeader l)) as [E|NE].
    + exists p, [s]. split; auto. split; [simpl; auto|]. split; [intros []|].
      right. split; auto. rewrite <- E. apply F.
    + destruct (IH S) as [p1 [p2 [E2 [S2 [N2 O2]]]]].
      exists p1, (p2 ++ [s]). split; [now rewrite E2, app_assoc|].
      assert (NP2 : p2 <> []) by (destruct p2; [destruct S2|discriminate]).
      split; [|split; auto].
      * apply startsAt_app; auto. split; auto.
        assert (lastOf (lpHeader l) p2 = lastOf 0 p) as ->; auto.
        rewrite E2. unfold lastOf. rewrite map_app. destruct p2 as [|x p2]; [congruence|].
        clear. destruct (@exists_last _ (map fst (x :: p2)) ltac:(discriminate)) as [a [z ->]].
        now rewrite app_assoc, !last_last.
      * unfold blocksOf. rewrite map_app. destruct p2 as [|x p2]; [congruence|].
        simpl. intros H. apply in_app_or in H. destruct H as [H|[H|[]]]; auto.
Qed.
Lemma startsAt_prefix l p1 p2 : p1 <> [] -> startsAt bsucc (lpHeader l) (p1 ++ p2) ->
  startsAt bsucc (lpHeader l) p1.
Proof. intros H S. apply startsAt_app in S; tauto. Qed.
(** The first iteration of a loop which visits the header again. *)
Lemma first_iteration l p : nested f l -> startsAt bsucc (lpHeader l) p ->
  In (lpHeader l) (tl (blocksOf p)) ->
  exists p1 p2, p = p1 ++ p2 /\ startsAt bsucc (lpHeader l) p1 /\
    ~ In (lpHeader l) (tl (blocksOf p1)) /\ In (lpHeader l) (bsucc (lastOf 0 p1)) /\
    exists x b, p2 = x :: b /\ fst x = lpHeader l.
Proof.
  intros N S H. destruct p as [|s p]; [destruct S|].
  cbn [blocksOf map tl] in H. destruct S as [Es F].
  assert (K : forall q : piece, exists a b : piece, q = a ++ b /\ ~ In (lpHeader l) (map fst a) /\
     (In (lpHeader l) (map fst q) -> exists x b', b = x :: b' /\ fst x = lpHeader l)).
  { clear. induction q as [|x q IH].
    - exists [], []. split; [auto|]. split; [auto|intros []].
    - destruct (Nat.eq_dec (fst x) (lpHeader l)) as [E|NE].
      + exists [], (x :: q). split; auto. split; [intros []|]. eauto.
      + destruct IH as [a [b [-> [A B]]]]. exists (x :: a), b. split; auto.
        split; [simpl; intros [|]; auto|]. intros [|H]; [congruence|auto]. }
  destruct (K p) as [a [b [E [A B]]]]. destruct (B H) as [x [b' [-> Ex]]].
  exists (s :: a), (x :: b'). split; [simpl; congruence|]. split.
  - split; auto. rewrite E in F. apply follows_app in F. tauto.
  - split; [exact A|]. split; [|eauto]. rewrite E in F. apply follows_app in F. destruct F as [_ F].
    rewrite lastOf_cons. simpl in F. rewrite <- Ex. rewrite Es. apply F.
Qed.
End Path.
