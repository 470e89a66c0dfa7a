(** Proofs about parallel executions of loops *)
From Coq Require Import List Bool Arith ZArith Permutation Sorted Lia.
From Verif Require Import ParLoopModel ParLoopSpec.
Import ListNotations.

Section Sem.
Variable op : nat -> Z -> Z -> Z.
Variable ident : nat -> Z.
Variable body : nat -> prog.
Variable m0 : mem.
Variable priv : nat -> bool.
Variable red : nat -> option nat.
Variable N : nat.
Hypothesis Hop : reductionOp op ident.
Notation M := (seqMem op body m0).
Notation tr := (trace op body m0).
Notation acc := (accessed op body m0).
Notation wrt := (written op body m0).
Hypothesis Horig : forall i e, i < N -> In e (tr i) -> origOf e = true -> priv (cellOf e) = false.
Hypothesis Hshared : forall c, priv c = false -> sharedCell op body m0 N c.
Hypothesis Hpriv : forall c, priv c = true -> red c = None -> privateCell op body m0 N c.
Hypothesis Hred : forall c k, red c = Some k -> reductionCell op body m0 N k c.
Hypothesis Hredp : forall c k, red c = Some k -> priv c = true.

Lemma upd_same m c v : upd m c v c = v.
Proof. unfold upd. now rewrite Nat.eqb_refl. Qed.
Lemma upd_other m c v x : x <> c -> upd m c v x = m x.
Proof. intros H. unfold upd. now apply Nat.eqb_neq in H as ->. Qed.

Definition wrs (evs : list event) (c : nat) : Prop := exists e, In e evs /\ cellOf e = c /\ isWrite e = true.
Lemma run_frame p : forall m c, ~ wrs (snd (run op p m)) c -> fst (run op p m) c = m c.
Proof.
  induction p as [|o x k IH|o x v k IH|o x r v k IH]; intros m c H; cbn [run fst snd] in *; [reflexivity| | |].
  - apply IH. intros (e & A & B). apply H. exists e. split; [now right|exact B].
  - rewrite IH. { apply upd_other. intros ->. apply H. exists (EWr o x). repeat split. now left. }
    intros (e & A & B). apply H. exists e. split; [now right|exact B].
  - rewrite IH. { apply upd_other. intros ->. apply H. exists (EUp o x r v). repeat split. now left. }
    intros (e & A & B). apply H. exists e. split; [now right|exact B].
Qed.
Lemma seq_frame c a b : a <= b -> (forall i, a <= i -> i < b -> ~ wrt i c) -> M b c = M a c.
Proof.
  induction 1 as [|b Hab IH]; intros H; [reflexivity|].
  cbn [seqMem]. rewrite run_frame. { apply IH. intros i A B. apply H; lia. }
  apply (H b); lia.
Qed.

(** contributions of updates *)
Definition cstep (k c : nat) (a : Z) (e : event) : Z :=
  match e with EUp _ c' _ v => if Nat.eqb c' c then op k a v else a | _ => a end.
Definition contr (k c : nat) (a : Z) (evs : list event) : Z := fold_left (cstep k c) evs a.
Lemma op_id_l k a : op k (ident k) a = a.
Proof. destruct (Hop k) as (C & _ & U). rewrite C. apply U. Qed.
Lemma contr_acc k c evs : forall a, contr k c a evs = op k a (contr k c (ident k) evs).
Proof.
  destruct (Hop k) as (C & A & U). unfold contr.
  induction evs as [|e evs IH]; intros a; cbn [fold_left]; [now rewrite U|].
  rewrite IH, (IH (cstep k c (ident k) e)).
  assert (E : cstep k c a e = op k a (cstep k c (ident k) e)).
  { destruct e as [o x|o x|o x r v]; cbn [cstep]; try now rewrite U.
    destruct (x =? c); [|now rewrite U]. now rewrite op_id_l. }
  rewrite E. now rewrite A.
Qed.
Lemma run_contr k c p : forall m, (forall e, In e (snd (run op p m)) -> cellOf e = c -> exists o v, e = EUp o c k v) ->
  fst (run op p m) c = contr k c (m c) (snd (run op p m)).
Proof.
  unfold contr.
  induction p as [|o x f IH|o x v f IH|o x r v f IH]; intros m H; cbn [run fst snd fold_left cstep] in *; [reflexivity| | |].
  - apply IH. intros e A. apply H. now right.
  - rewrite IH. 2: { intros e A. apply H. now right. }
    rewrite upd_other; [reflexivity|]. intros ->. destruct (H (EWr o x)) as (? & ? & E); [now left|reflexivity|discriminate].
  - rewrite IH. 2: { intros e A. apply H. now right. }
    destruct (Nat.eqb_spec x c) as [->|Hn].
    + destruct (H (EUp o c r v)) as (? & ? & E); [now left|reflexivity|]. injection E as <- -> <-. now rewrite upd_same.
    + rewrite upd_other; [reflexivity|congruence].
Qed.
Definition csum (k c : nat) (its : list nat) : Z := fold_left (fun a i => contr k c a (tr i)) its (ident k).
Lemma csum_acc k c its : forall a, fold_left (fun a i => contr k c a (tr i)) its a = op k a (csum k c its).
Proof.
  destruct (Hop k) as (C & A & U). unfold csum.
  induction its as [|i its IH]; intros a; cbn [fold_left]; [now rewrite U|].
  rewrite IH, (IH (contr k c (ident k) (tr i))). rewrite (contr_acc k c (tr i) a). now rewrite A.
Qed.
Lemma csum_app k c a b : csum k c (a ++ b) = op k (csum k c a) (csum k c b).
Proof. unfold csum at 1. rewrite fold_left_app. apply csum_acc. Qed.
Lemma csum_perm k c a b : Permutation a b -> csum k c a = csum k c b.
Proof.
  destruct (Hop k) as (C & A & U).
  intros P. induction P as [|x a b P IH|x y a|a b d P1 IH1 P2 IH2]; [reflexivity| | |congruence].
  - change (x :: a) with ([x] ++ a). change (x :: b) with ([x] ++ b). now rewrite !csum_app, IH.
  - change (y :: x :: a) with ([y] ++ [x] ++ a). change (x :: y :: a) with ([x] ++ [y] ++ a).
    now rewrite !csum_app, !A, (C (csum k c [y])).
Qed.
Lemma seq_contr c k n : red c = Some k -> n <= N -> M n c = op k (m0 c) (csum k c (seq 0 n)).
Proof.
  intros Hr Hn. rewrite <- csum_acc. induction n as [|n IH]; [reflexivity|].
  rewrite seq_S, fold_left_app. cbn [fold_left seqMem plus]. rewrite <- IH; [|lia].
  rewrite (run_contr k c); [reflexivity|]. intros e He Hc. apply (Hred c k Hr n ltac:(lia) e He Hc).
Qed.

(** ** A state of a thread corresponds to a moment of sequential execution of the same iteration *)
Definition at_ (i : nat) (evs : list event) (p : prog) (s : mem) : Prop :=
  fst (run op p s) = M (S i) /\ evs ++ snd (run op p s) = tr i.
Record cur := Cur { uIter : nat; uEvs : list event; uMem : mem }.
Definition curOk (sh : mem) (t : thread) (u : cur) : Prop :=
  uIter u < N /\ at_ (uIter u) (uEvs u) (tProg t) (uMem u)
  /\ (forall c, priv c = true -> red c = None -> (exists o, In (EWr o c) (uEvs u)) -> tPriv t c = uMem u c)
  /\ (forall c, priv c = false -> acc (uIter u) c -> sh c = uMem u c).
Definition threadOk (sh : mem) (part : list nat) (t : thread) : Prop :=
  exists done (u : option cur),
    part = done ++ (match u with Some u => [uIter u] | None => [] end) ++ tIters t
    /\ (forall i, In i done -> forall c, priv c = false -> wrt i c -> sh c = M (S i) c)
    /\ (forall i, In i (tIters t) -> forall c, priv c = false -> acc i c -> sh c = M i c)
    /\ match u with
       | None => done = [] /\ tProg t = Done /\ forall c k, red c = Some k -> tPriv t c = ident k
       | Some u => curOk sh t u /\ forall c k, red c = Some k -> tPriv t c = contr k c (csum k c done) (uEvs u)
       end.
(** shared cells which are not written keep their values *)
Definition sharedOk (sh : mem) : Prop := forall c, priv c = false -> (forall i, i < N -> ~ wrt i c) -> sh c = m0 c.
Definition inv (parts : list (list nat)) (sh : mem) (ts : list thread) : Prop :=
  Forall2 (threadOk sh) parts ts /\ sharedOk sh.

(** threads of other iterations do not notice an update of a shared cell *)
Lemma thread_frame sh sh' i part t : (forall c, sh' c <> sh c -> priv c = false /\ wrt i c) -> i < N ->
  (forall j, In j part -> j < N /\ j <> i) -> threadOk sh part t -> threadOk sh' part t.
Proof.
  intros Hd Hi Hp (done & u & E & A & B & C).
  assert (K : forall j c, In j part -> priv c = false -> acc j c -> sh' c = sh c).
  { intros j c Hj Hc Ha. destruct (Z.eq_dec (sh' c) (sh c)) as [e|n]; [exact e|].
    destruct (Hd c n) as [_ W]. destruct (Hp j Hj) as [Hjn Hji].
    exfalso. apply (Hshared c Hc i j Hi Hjn ltac:(congruence) W Ha). }
  exists done, u. split; [exact E|]. split; [|split].
  - intros j Hj c Hc W. rewrite (K j c); [now apply A| |exact Hc|].
    + rewrite E. apply in_or_app. now left.
    + destruct W as (e & W1 & W2 & _). now exists e.
  - intros j Hj c Hc Ha. rewrite (K j c); [now apply B| |exact Hc|exact Ha].
    rewrite E. apply in_or_app. right. apply in_or_app. now right.
  - destruct u as [u|]; [|exact C]. destruct C as [(C1 & C2 & C3 & C4) C5]. split; [|exact C5].
    repeat split; try assumption; try apply C2. intros c Hc Ha. rewrite (K (uIter u) c); [now apply C4| |exact Hc|exact Ha].
    rewrite E. apply in_or_app. right. now left.
Qed.

(** the next event of an iteration *)
Lemma at_event i evs p s e rest : i < N -> at_ i evs p s -> snd (run op p s) = e :: rest -> In e (tr i) /\ tr i = evs ++ e :: rest.
Proof.
  intros Hi (_ & A) E. rewrite E in A. split; [|congruence]. rewrite <- A. apply in_elt.
Qed.
Lemma event_acc i e : In e (tr i) -> acc i (cellOf e).
Proof. intros H. now exists e. Qed.
Lemma event_wrt i e : In e (tr i) -> isWrite e = true -> wrt i (cellOf e).
Proof. intros H. now exists e. Qed.

Lemma app_cons_last {A} (a : list A) x b : a ++ x :: b = (a ++ [x]) ++ b.
Proof. now rewrite <- app_assoc. Qed.

Lemma step_thread sh part t sh' t' :
  (forall j, In j part -> j < N) -> NoDup part -> threadOk sh part t -> tstep op body priv sh t = Some (sh', t') ->
  threadOk sh' part t' /\ (sh' = sh \/ exists i, In i part /\ forall c, sh' c <> sh c -> priv c = false /\ wrt i c).
Proof.
  intros Hp Hnd (done & u & E & A & B & C) H.
  destruct u as [u|].
  2: { destruct C as (-> & Hd & R). unfold tstep in H. rewrite Hd in H.
       destruct (tIters t) as [|i is] eqn:Hi; [discriminate|]. injection H as <- <-.
       split; [|now left]. exists [], (Some (Cur i [] (M i))). cbn [uIter uEvs uMem tIters tProg tPriv].
       split; [exact E|]. split; [intros j []|]. split; [intros j Hj; apply B; now right|].
       split; [|exact R]. split; [apply Hp; rewrite E; now left|]. split; [split; reflexivity|].
       cbn [uIter uEvs uMem tPriv]. split; [intros c _ _ (o & [])|]. intros c Hc. apply B; [now left|exact Hc]. }
  destruct C as [(Hi & Hat & C3 & C4) R].
  destruct u as [i evs s]. cbn [uIter uEvs uMem] in *.
  assert (Hin : In i part) by (rewrite E; apply in_or_app; right; now left).
  assert (Hdone : forall j, In j done -> j < N /\ j <> i).
  { intros j Hj. split; [apply Hp; rewrite E; apply in_or_app; now left|]. intros ->. rewrite E in Hnd.
    apply NoDup_remove_2 in Hnd. apply Hnd. apply in_or_app. now left. }
  assert (Hrest : forall j, In j (tIters t) -> j < N /\ j <> i).
  { intros j Hj. split; [apply Hp; rewrite E; apply in_or_app; right; now right|]. intros ->. rewrite E in Hnd.
    apply NoDup_remove_2 in Hnd. apply Hnd. apply in_or_app. now right. }
  unfold tstep in H. destruct (tProg t) as [|o c k|o c v k|o c r v k] eqn:Ep.
  - (* next iteration *)
    destruct (tIters t) as [|i' is] eqn:Hits; [discriminate|]. injection H as <- <-. split; [|now left].
    destruct Hat as [Ha1 Ha2]. cbn [run fst snd] in Ha1, Ha2. rewrite app_nil_r in Ha2. subst s evs.
    exists (done ++ [i]), (Some (Cur i' [] (M i'))). cbn [uIter uEvs uMem tIters tProg tPriv].
    split; [rewrite E, <- app_assoc; reflexivity|]. split; [|split].
    + intros j Hj c Hc W. apply in_app_or in Hj as [Hj|[<-|[]]]; [now apply A|].
      apply C4; [exact Hc|]. destruct W as (e & W1 & W2 & _). now exists e.
    + intros j Hj. apply B. now right.
    + split. { repeat split; cbn [uIter uEvs uMem tPriv].
               - apply Hp. rewrite E. apply in_or_app. right. right. now left.
               - intros c _ _ (o & []).
               - intros c Hc Ha. apply B; [now left|exact Hc|exact Ha]. }
      intros c k Hk. rewrite (R c k Hk). cbn [contr fold_left]. unfold csum. now rewrite fold_left_app.
  - (* read *)
    injection H as <- <-. split; [|now left].
    destruct (at_event i evs _ s (ERd o c) _ Hi Hat eq_refl) as [He Htr].
    assert (Ev : (if priv c && negb o then tPriv t c else sh c) = s c).
    { destruct (priv c) eqn:Hpc; cbn [andb].
      - destruct o; [specialize (Horig i _ Hi He eq_refl); cbn [cellOf] in Horig; congruence|]. cbn [negb].
        destruct (red c) as [k0|] eqn:Hrc.
        + destruct (Hred c k0 Hrc i Hi _ He eq_refl) as (? & ? & X). discriminate.
        + apply C3; [exact Hpc|exact Hrc|]. destruct (Hpriv c Hpc Hrc i Hi _ _ _ Htr eq_refl) as [(? & X)|X]; [discriminate|exact X].
      - apply C4; [exact Hpc|]. exact (event_acc i _ He). }
    rewrite Ev. exists done, (Some (Cur i (evs ++ [ERd o c]) s)). cbn [uIter uEvs uMem tIters tProg tPriv].
    split; [exact E|]. split; [exact A|]. split; [exact B|].
    split. { repeat split; cbn [uIter uEvs uMem tPriv]; [exact Hi|exact (proj1 Hat)| | |exact C4].
             - destruct Hat as [_ Ha]. cbn [run snd] in Ha. rewrite app_cons_last in Ha. exact Ha.
             - intros x Hx Hr (o' & Ho). apply in_app_or in Ho as [Ho|[Ho|[]]]; [|discriminate]. apply C3; [exact Hx|exact Hr|now exists o']. }
    intros x k1 Hk. rewrite (R x k1 Hk). unfold contr. rewrite fold_left_app. reflexivity.
  - (* write *)
    destruct (at_event i evs _ s (EWr o c) _ Hi Hat eq_refl) as [He Htr].
    assert (Hat' : at_ i (evs ++ [EWr o c]) k (upd s c v)).
    { split; [exact (proj1 Hat)|]. destruct Hat as [_ Ha]. cbn [run snd] in Ha. rewrite app_cons_last in Ha. exact Ha. }
    assert (Hrc : red c = None).
    { destruct (red c) as [k0|] eqn:Hrc; [|reflexivity]. destruct (Hred c k0 Hrc i Hi _ He eq_refl) as (? & ? & X). discriminate. }
    assert (R' : forall x k1, red x = Some k1 -> contr k1 x (csum k1 x done) (evs ++ [EWr o c]) = contr k1 x (csum k1 x done) evs).
    { intros x k1 _. unfold contr. now rewrite fold_left_app. }
    destruct (priv c) eqn:Hpc; cbn [andb] in H.
    + destruct o; [specialize (Horig i _ Hi He eq_refl); cbn [cellOf] in Horig; congruence|]. cbn [negb] in H. injection H as <- <-.
      split; [|now left]. exists done, (Some (Cur i (evs ++ [EWr false c]) (upd s c v))). cbn [uIter uEvs uMem tIters tProg tPriv].
      split; [exact E|]. split; [exact A|]. split; [exact B|]. split.
      * repeat split; cbn [uIter uEvs uMem tPriv tProg]; [exact Hi|exact (proj1 Hat')|exact (proj2 Hat')| |].
        -- intros x Hx Hr (o' & Ho). unfold upd. destruct (Nat.eqb_spec x c) as [->|Hn]; [reflexivity|].
           apply C3; [exact Hx|exact Hr|]. apply in_app_or in Ho as [Ho|[Ho|[]]]; [now exists o'|congruence].
        -- intros x Hx Ha. rewrite upd_other; [now apply C4|]. intros ->. congruence.
      * intros x k1 Hk. rewrite R' by exact Hk. rewrite upd_other; [now apply R|]. intros ->. congruence.
    + injection H as <- <-.
      assert (Hd : forall x, upd sh c v x <> sh x -> priv x = false /\ wrt i x).
      { intros x Hx. assert (Hxc : x = c). { destruct (Nat.eq_dec x c) as [Hxc|Hxc]; [exact Hxc|]. exfalso. apply Hx. now apply upd_other. }
        rewrite Hxc. split; [exact Hpc|exact (event_wrt i _ He eq_refl)]. }
      split; [|right; exists i; split; [exact Hin|exact Hd]].
      exists done, (Some (Cur i (evs ++ [EWr o c]) (upd s c v))). cbn [uIter uEvs uMem tIters tProg tPriv].
      split; [exact E|]. split; [|split; [|split]].
      * intros j Hj x Hx W. destruct (Hdone j Hj) as [J1 J2]. rewrite upd_other; [now apply (A j)|]. intros ->.
        destruct W as (e & W1 & W2 & _). apply (Hshared c Hx i j Hi J1 ltac:(congruence) (event_wrt i _ He eq_refl)). now exists e.
      * intros j Hj x Hx Ha. destruct (Hrest j Hj) as [J1 J2]. rewrite upd_other; [now apply (B j)|]. intros ->.
        exact (Hshared c Hx i j Hi J1 ltac:(congruence) (event_wrt i _ He eq_refl) Ha).
      * repeat split; cbn [uIter uEvs uMem tPriv tProg]; [exact Hi|exact (proj1 Hat')|exact (proj2 Hat')| |].
        -- intros x Hx Hr (o' & Ho). rewrite upd_other; [|intros ->; congruence].
           apply C3; [exact Hx|exact Hr|]. apply in_app_or in Ho as [Ho|[Ho|[]]]; [now exists o'|]. injection Ho as _ ->. congruence.
        -- intros x Hx Ha. unfold upd. destruct (x =? c); [reflexivity|now apply C4].
      * intros x k1 Hk. rewrite R' by exact Hk. now apply R.
  - (* update *)
    destruct (at_event i evs _ s (EUp o c r v) _ Hi Hat eq_refl) as [He Htr].
    assert (Hat' : at_ i (evs ++ [EUp o c r v]) k (upd s c (op r (s c) v))).
    { split; [exact (proj1 Hat)|]. destruct Hat as [_ Ha]. cbn [run snd] in Ha. rewrite app_cons_last in Ha. exact Ha. }
    assert (R' : forall x k1, x <> c -> contr k1 x (csum k1 x done) (evs ++ [EUp o c r v]) = contr k1 x (csum k1 x done) evs).
    { intros x k1 Hn. unfold contr. rewrite fold_left_app. cbn [fold_left cstep]. apply Nat.eqb_neq in Hn. now rewrite Nat.eqb_sym, Hn. }
    destruct (priv c) eqn:Hpc; cbn [andb] in H.
    + destruct o; [specialize (Horig i _ Hi He eq_refl); cbn [cellOf] in Horig; congruence|]. cbn [negb] in H. injection H as <- <-.
      split; [|now left]. exists done, (Some (Cur i (evs ++ [EUp false c r v]) (upd s c (op r (s c) v)))). cbn [uIter uEvs uMem tIters tProg tPriv].
      split; [exact E|]. split; [exact A|]. split; [exact B|]. split.
      * repeat split; cbn [uIter uEvs uMem tPriv tProg]; [exact Hi|exact (proj1 Hat')|exact (proj2 Hat')| |].
        -- intros x Hx Hr (o' & Ho). unfold upd. destruct (Nat.eqb_spec x c) as [->|Hn].
           ++ f_equal. apply C3; [exact Hx|exact Hr|].
              destruct (Hpriv c Hx Hr i Hi _ _ _ Htr eq_refl) as [(? & X)|X]; [discriminate|exact X].
           ++ apply C3; [exact Hx|exact Hr|]. apply in_app_or in Ho as [Ho|[Ho|[]]]; [now exists o'|congruence].
        -- intros x Hx Ha. rewrite upd_other; [now apply C4|]. intros ->. congruence.
      * intros x k1 Hk. destruct (Nat.eq_dec x c) as [->|Hn].
        -- rewrite upd_same, (R c k1 Hk). destruct (Hred c k1 Hk i Hi _ He eq_refl) as (? & ? & X). injection X as -> -> ->.
           unfold contr. rewrite fold_left_app. cbn [fold_left cstep]. now rewrite Nat.eqb_refl.
        -- rewrite R' by exact Hn. rewrite upd_other by exact Hn. now apply R.
    + injection H as <- <-.
      assert (Hd : forall x, upd sh c (op r (sh c) v) x <> sh x -> priv x = false /\ wrt i x).
      { intros x Hx. assert (Hxc : x = c). { destruct (Nat.eq_dec x c) as [Hxc|Hxc]; [exact Hxc|]. exfalso. apply Hx. now apply upd_other. }
        rewrite Hxc. split; [exact Hpc|exact (event_wrt i _ He eq_refl)]. }
      split; [|right; exists i; split; [exact Hin|exact Hd]].
      exists done, (Some (Cur i (evs ++ [EUp o c r v]) (upd s c (op r (s c) v)))). cbn [uIter uEvs uMem tIters tProg tPriv].
      split; [exact E|]. split; [|split; [|split]].
      * intros j Hj x Hx W. destruct (Hdone j Hj) as [J1 J2]. rewrite upd_other; [now apply (A j)|]. intros ->.
        destruct W as (e & W1 & W2 & _). apply (Hshared c Hx i j Hi J1 ltac:(congruence) (event_wrt i _ He eq_refl)). now exists e.
      * intros j Hj x Hx Ha. destruct (Hrest j Hj) as [J1 J2]. rewrite upd_other; [now apply (B j)|]. intros ->.
        exact (Hshared c Hx i j Hi J1 ltac:(congruence) (event_wrt i _ He eq_refl) Ha).
      * repeat split; cbn [uIter uEvs uMem tPriv tProg]; [exact Hi|exact (proj1 Hat')|exact (proj2 Hat')| |].
        -- intros x Hx Hr (o' & Ho). rewrite upd_other; [|intros ->; congruence].
           apply C3; [exact Hx|exact Hr|]. apply in_app_or in Ho as [Ho|[Ho|[]]]; [now exists o'|congruence].
        -- intros x Hx Ha. unfold upd. destruct (Nat.eqb_spec x c) as [->|Hn]; [|now apply C4]. f_equal. now apply C4.
      * intros x k1 Hk. rewrite R'. { now apply R. } intros ->. specialize (Hredp c k1 Hk). congruence.
Qed.

Lemma NoDup_mid {A} (a b c : list A) : NoDup (a ++ b ++ c) -> NoDup b.
Proof.
  intros H. induction a as [|x a IH]; cbn [app] in H; [|apply IH; now inversion H].
  induction b as [|x b IH]; [constructor|]. cbn [app] in H. inversion H as [|? ? H1 H2]; subst. constructor; [|now apply IH].
  intros Hx. apply H1. apply in_or_app. now left.
Qed.
Lemma parts_ok parts : distributed N parts -> forall pre part post, parts = pre ++ part :: post ->
  (forall j, In j part -> j < N) /\ NoDup part /\ (forall p j, In p (pre ++ post) -> In j p -> j < N /\ ~ In j part).
Proof.
  intros [P S] pre part post ->. rewrite concat_app in P. cbn [concat] in P.
  assert (ND : NoDup (concat pre ++ part ++ concat post)) by (apply (Permutation_NoDup (Permutation_sym P)), seq_NoDup).
  assert (BD : forall j, In j (concat pre ++ part ++ concat post) -> j < N).
  { intros j Hj. apply (Permutation_in _ P) in Hj. apply in_seq in Hj. lia. }
  split; [|split].
  - intros j Hj. apply BD. apply in_or_app. right. apply in_or_app. now left.
  - exact (NoDup_mid _ _ _ ND).
  - intros p j Hp Hj. apply in_app_or in Hp.
    assert (Hc : In j (concat pre ++ concat post)).
    { apply in_or_app. destruct Hp as [Hp|Hp]; [left|right]; apply in_concat; now exists p. }
    split.
    + apply BD. apply in_or_app. apply in_app_or in Hc as [Hc|Hc]; [now left|right; apply in_or_app; now right].
    + intros Hin. apply in_split in Hin as (a & b & ->).
      assert (E : concat pre ++ (a ++ j :: b) ++ concat post = (concat pre ++ a) ++ j :: (b ++ concat post)).
      { now rewrite <- !app_assoc, <- app_comm_cons. }
      rewrite E in ND. apply NoDup_remove_2 in ND. apply ND.
      apply in_or_app. apply in_app_or in Hc as [Hc|Hc]; [left; apply in_or_app; now left|right; apply in_or_app; now right].
Qed.

Lemma inv_steps parts : distributed N parts -> forall sh ts sh' ts', psteps op body priv sh ts sh' ts' -> inv parts sh ts -> inv parts sh' ts'.
Proof.
  intros HD sh ts sh' ts' H. induction H as [sh ts|sh pre t post sh1 t1 sh2 ts2 Hs _ IH]; intros HI; [exact HI|].
  apply IH. destruct HI as [F G].
  apply Forall2_app_inv_r in F as (ppre & prest & F1 & F2 & E). inversion F2 as [|part ? ppost ? Ft F3]; subst.
  destruct (parts_ok _ HD ppre part ppost eq_refl) as (K1 & K2 & K3).
  destruct (step_thread sh part t sh1 t1 K1 K2 Ft Hs) as [T1 D].
  assert (Fr : forall p x, In p (ppre ++ ppost) -> threadOk sh p x -> threadOk sh1 p x).
  { intros p x Hp Hx. destruct D as [->|(i & Di & Dd)]; [exact Hx|].
    apply (thread_frame sh sh1 i p x Dd (K1 i Di)); [|exact Hx]. intros j Hj. destruct (K3 p j Hp Hj) as [J1 J2]. split; [exact J1|]. intros ->. now apply J2. }
  split.
  - apply Forall2_app; [|constructor; [exact T1|]].
    + clear -F1 Fr. assert (Fr' : forall p x, In p ppre -> threadOk sh p x -> threadOk sh1 p x).
      { intros p x Hp. apply Fr. apply in_or_app. now left. }
      clear Fr. induction F1; constructor; [apply Fr'; [now left|assumption]|]. apply IHF1. intros p z Hp. apply Fr'. now right.
    + clear -F3 Fr. assert (Fr' : forall p x, In p ppost -> threadOk sh p x -> threadOk sh1 p x).
      { intros p x Hp. apply Fr. apply in_or_app. now right. }
      clear Fr. induction F3; constructor; [apply Fr'; [now left|assumption]|]. apply IHF3. intros p z Hp. apply Fr'. now right.
  - intros c Hc Hw. rewrite <- (G c Hc Hw). destruct D as [->|(i & Di & Dd)]; [reflexivity|].
    destruct (Z.eq_dec (sh1 c) (sh c)) as [e|n]; [exact e|]. exfalso. destruct (Dd c n) as [_ W]. exact (Hw i (K1 i Di) W).
Qed.

Lemma inv_start first parts ts : distributed N parts -> Forall2 (starts ident m0 first red) parts ts -> inv parts m0 ts.
Proof.
  intros HD F. split; [|now intros c _ _].
  assert (BD : forall p j, In p parts -> In j p -> j < N).
  { intros p j Hp Hj. apply in_split in Hp as (a & b & ->). now apply (proj1 (parts_ok _ HD a p b eq_refl)). }
  clear HD. induction F as [|part t parts ts (H1 & H2 & H3 & H4) F IH]; constructor.
  2: { apply IH. intros p j Hp. apply BD. now right. }
  exists [], None. cbn [app]. split; [symmetry; exact H1|]. split; [intros i []|]. split; [|repeat split; assumption].
  intros i Hi c Hc Ha. rewrite H1 in Hi. symmetry. apply (seq_frame c 0 i); [lia|].
  intros j _ Hj W. assert (i < N) by (apply (BD part); [now left|exact Hi]).
  apply (Hshared c Hc j i ltac:(lia) ltac:(lia) ltac:(lia) W Ha).
Qed.

(** at the end *)
Lemma end_thread sh part t : threadOk sh part t -> finished t ->
  (forall i, In i part -> forall c, priv c = false -> wrt i c -> sh c = M (S i) c)
  /\ (forall c k, red c = Some k -> tPriv t c = csum k c part)
  /\ (forall d i, part = d ++ [i] -> forall c, priv c = true -> red c = None -> (exists o, In (EWr o c) (tr i)) -> tPriv t c = M (S i) c).
Proof.
  intros (done & u & E & A & B & C) [F1 F2]. rewrite F1, app_nil_r in E. destruct u as [u|].
  - destruct C as [(Hi & Hat & C3 & C4) R]. rewrite F2 in Hat. destruct Hat as [Ha1 Ha2]. cbn [run fst snd] in Ha1, Ha2. rewrite app_nil_r in Ha2.
    split; [|split].
    + intros i Hin c Hc W. rewrite E in Hin. apply in_app_or in Hin as [Hin|[<-|[]]]; [now apply A|]. rewrite <- Ha1. apply C4; [exact Hc|].
      destruct W as (e & W1 & W2 & _). now exists e.
    + intros c k Hk. rewrite (R c k Hk), E, Ha2. unfold csum. now rewrite fold_left_app.
    + intros d i Ed c Hc Hr Ho. rewrite E in Ed. apply app_inj_tail in Ed as [-> <-]. rewrite <- Ha1. apply C3; [exact Hc|exact Hr|]. now rewrite Ha2.
  - destruct C as (-> & _ & R). rewrite E. split; [|split].
    + intros i [].
    + intros c k Hk. apply R. exact Hk.
    + intros d i Ed. now apply app_cons_not_nil in Ed.
Qed.

Lemma sorted_last (l : list nat) x : StronglySorted lt l -> In x l -> (forall y, In y l -> y <= x) -> exists d, l = d ++ [x].
Proof.
  intros HS Hx Hm. induction l as [|a l IH]; [destruct Hx|]. inversion HS as [|? ? S1 S2]; subst.
  destruct l as [|b l].
  - destruct Hx as [->|[]]. now exists [].
  - destruct IH as [d Ed]; [exact S1| |intros y Hy; apply Hm; now right|].
    + destruct Hx as [->|Hx]; [|exact Hx]. rewrite Forall_forall in S2. specialize (S2 b (or_introl eq_refl)). specialize (Hm b (or_intror (or_introl eq_refl))). lia.
    + exists (a :: d). now rewrite Ed.
Qed.

Lemma fold_red k c ts parts a : Forall2 (fun p t => tPriv t c = csum k c p) parts ts ->
  fold_left (fun a t => op k a (tPriv t c)) ts a = op k a (csum k c (concat parts)).
Proof.
  destruct (Hop k) as (_ & A & U). intros F. revert a. induction F as [|p t parts ts H F IH]; intros a; cbn [fold_left concat].
  - now rewrite U.
  - rewrite IH, H, csum_app, A. reflexivity.
Qed.

Lemma in_isIn x l : In x l <-> isIn x l = true.
Proof.
  unfold isIn. rewrite existsb_exists. split.
  - intros H. exists x. split; [exact H|apply Nat.eqb_refl].
  - intros (y & H & E). apply Nat.eqb_eq in E. now subst.
Qed.

(** red cells are shared with nobody: shared memory at a private cell is not changed *)
Lemma step_private sh t sh' t' i part c : threadOk sh part t -> (forall j, In j part -> j < N) -> priv c = true ->
  tstep op body priv sh t = Some (sh', t') -> In i part -> sh' c = sh c.
Proof.
  intros (done & u & E & A & B & C) Hp Hc H Hin. unfold tstep in H. destruct u as [u|].
  2: { destruct C as (_ & Hd & _). rewrite Hd in H. destruct (tIters t); [discriminate|]. now injection H as <- _. }
  destruct C as [(Hi & Hat & C3 & C4) R]. destruct (tProg t) as [|o x k|o x v k|o x r v k] eqn:Ep.
  - destruct (tIters t); [discriminate|]. now injection H as <- _.
  - now injection H as <- _.
  - destruct (priv x && negb o) eqn:Hx; injection H as <- _; [reflexivity|]. apply upd_other. intros <-.
    rewrite Hc in Hx. cbn [andb] in Hx. apply negb_false_iff in Hx. subst o.
    destruct (at_event _ _ _ _ (EWr true c) _ Hi Hat eq_refl) as [He _]. specialize (Horig _ _ Hi He eq_refl). cbn [cellOf] in Horig. congruence.
  - destruct (priv x && negb o) eqn:Hx; injection H as <- _; [reflexivity|]. apply upd_other. intros <-.
    rewrite Hc in Hx. cbn [andb] in Hx. apply negb_false_iff in Hx. subst o.
    destruct (at_event _ _ _ _ (EUp true c r v) _ Hi Hat eq_refl) as [He _]. specialize (Horig _ _ Hi He eq_refl). cbn [cellOf] in Horig. congruence.
Qed.
Lemma steps_private parts : distributed N parts -> forall sh ts sh' ts', psteps op body priv sh ts sh' ts' -> inv parts sh ts ->
  forall c, priv c = true -> sh' c = sh c.
Proof.
  intros HD sh ts sh' ts' H. induction H as [sh ts|sh pre t post sh1 t1 sh2 ts2 Hs Hrest IH]; intros HI c Hc; [reflexivity|].
  assert (HI1 : inv parts sh1 (pre ++ t1 :: post)).
  { apply (inv_steps parts HD sh (pre ++ t :: post)); [|exact HI]. econstructor; [exact Hs|constructor]. }
  rewrite (IH HI1 c Hc). destruct HI as [F G].
  apply Forall2_app_inv_r in F as (ppre & prest & F1 & F2 & E). inversion F2 as [|part ? ppost ? Ft F3]; subst.
  destruct (parts_ok _ HD ppre part ppost eq_refl) as (K1 & K2 & K3).
  destruct part as [|i part].
  - destruct Ft as (done & u & E' & _ & _ & C). destruct u as [u|]; [now apply app_cons_not_nil in E'|].
    destruct C as (-> & Hd & _). cbn [app] in E'. unfold tstep in Hs. rewrite Hd, <- E' in Hs. discriminate.
  - apply (step_private sh t sh1 t1 i (i :: part) c Ft K1 Hc Hs). now left.
Qed.

Lemma writer_dec c n : (exists i, i < n /\ wrt i c) \/ forall i, i < n -> ~ wrt i c.
Proof.
  induction n as [|n [(i & Hi & W)|IH]]; [right; intros i Hi; lia|left; exists i; split; [lia|exact W]|].
  destruct (existsb (fun e => Nat.eqb (cellOf e) c && isWrite e) (tr n)) eqn:E.
  - left. exists n. split; [lia|]. apply existsb_exists in E as (e & E1 & E2). apply andb_true_iff in E2 as [E2 E3]. apply Nat.eqb_eq in E2. now exists e.
  - right. intros i Hi W. destruct (Nat.eq_dec i n) as [->|Hn]; [|apply (IH i); [lia|exact W]].
    destruct W as (e & W1 & W2 & W3). assert (X : existsb (fun e => Nat.eqb (cellOf e) c && isWrite e) (tr n) = true); [|congruence].
    apply existsb_exists. exists e. split; [exact W1|]. rewrite W2, W3, Nat.eqb_refl. reflexivity.
Qed.

Theorem parallel_ok first last parts ts sh ts' :
  distributed N parts -> Forall2 (starts ident m0 first red) parts ts ->
  psteps op body priv m0 ts sh ts' -> Forall finished ts' ->
  (forall c, last c = true -> priv c = true) ->
  forall c, (priv c = true -> red c = None -> last c = true /\ lastCell op body m0 N c) ->
  parFinal op last red N parts sh ts' c = M N c.
Proof.
  intros HD HS Hst Hfin Hlp c Hcls.
  pose proof (inv_start first parts ts HD HS) as I0.
  pose proof (steps_private parts HD _ _ _ _ Hst I0) as SP.
  pose proof (inv_steps parts HD _ _ _ _ Hst I0) as [F G].
  assert (F' : Forall2 (fun p t => threadOk sh p t /\ finished t) parts ts').
  { clear -F Hfin. induction F; inversion Hfin; subst; constructor; auto. }
  unfold parFinal. destruct (red c) as [k|] eqn:Hr.
  - rewrite (fold_red k c ts' parts).
    + rewrite (SP c (Hredp c k Hr)), (seq_contr c k N Hr (le_n N)). f_equal. apply csum_perm. exact (proj1 HD).
    + clear -F' Hr Hop Hred. induction F' as [|p t ps ts' [T Fi] F' IH]; constructor; [|exact IH].
      now apply (end_thread sh p t T Fi).
  - destruct (priv c) eqn:Hp.
    + destruct (Hcls eq_refl eq_refl) as [-> HL].
      destruct N as [|n] eqn:EN.
      * cbn [Nat.eqb seqMem]. assert (sh c = m0 c) by (apply SP; exact Hp). destruct (find _ _); assumption.
      * cbn [pred Nat.eqb].
        assert (Hn : In n (concat parts)). { apply (Permutation_in n (Permutation_sym (proj1 HD))). apply in_seq. lia. }
        destruct (find (fun x => isIn n (fst x)) (combine parts ts')) as [[p t]|] eqn:Ef.
        -- apply find_some in Ef as [Ein Eis]. cbn [fst snd] in *. apply in_isIn in Eis.
           assert (HT : threadOk sh p t /\ finished t).
           { clear -F' Ein. induction F'; [destruct Ein|]. destruct Ein as [Ein|Ein]; [injection Ein as <- <-; assumption|now apply IHF']. }
           destruct (end_thread sh p t (proj1 HT) (proj2 HT)) as (_ & _ & L).
           assert (Hpi : In p parts) by (eapply in_combine_l; exact Ein).
           destruct (sorted_last p n) as [d Ed].
           ++ destruct HD as [_ SS]. rewrite Forall_forall in SS. now apply SS.
           ++ exact Eis.
           ++ intros y Hy. assert (In y (seq 0 (S n))). { apply (Permutation_in y (proj1 HD)). apply in_concat. now exists p. } apply in_seq in H. lia.
           ++ apply (L d n Ed c Hp Hr). destruct (HL n eq_refl) as [o Ho]. now exists o.
        -- exfalso. apply in_concat in Hn as (p & Hp1 & Hp2).
           assert (Hex : exists t, In (p, t) (combine parts ts')).
           { clear -F' Hp1. induction F'; [destruct Hp1|]. destruct Hp1 as [<-|Hp1]; [eexists; now left|]. destruct (IHF' Hp1) as [t Ht]. exists t. now right. }
           destruct Hex as [t Ht]. pose proof (find_none _ _ Ef _ Ht) as Hno. cbn [fst] in Hno. apply in_isIn in Hp2. congruence.
    + assert (Hl : last c = false). { destruct (last c) eqn:E; [|reflexivity]. specialize (Hlp c E). congruence. }
      rewrite Hl.
      destruct (writer_dec c N) as [(i & Hi & W)|NW].
      * assert (Hn : In i (concat parts)). { apply (Permutation_in i (Permutation_sym (proj1 HD))). apply in_seq. lia. }
        apply in_concat in Hn as (p & Hp1 & Hp2).
        assert (Hex : exists t, threadOk sh p t /\ finished t).
        { clear -F' Hp1. induction F'; [destruct Hp1|]. destruct Hp1 as [<-|Hp1]; [eexists; eassumption|exact (IHF' Hp1)]. }
        destruct Hex as (t & T1 & T2). destruct (end_thread sh p t T1 T2) as (L & _ & _).
        rewrite (L i Hp2 c Hp W). symmetry. apply seq_frame; [lia|]. intros j J1 J2 W2.
        apply (Hshared c Hp i j Hi J2 ltac:(lia) W). destruct W2 as (e & W3 & W4 & _). now exists e.
      * rewrite (G c Hp NW). symmetry. apply (seq_frame c 0 N); [lia|]. intros j _ Hj. now apply NW.
Qed.
End Sem.
