(** Proofs about executions of ordered loops *)
From Coq Require Import List Bool Arith ZArith Permutation Sorted Relations Lia.
From Verif Require Import ParLoopModel ParLoopSpec ParLoopSem OrdModel OrdSpec.
Import ListNotations.

Section Sem.
Variable op : nat -> Z -> Z -> Z.
Variable ident : nat -> Z.
Variable body : nat -> prog.
Variable m0 : mem.
Variable priv : nat -> bool.
Variable red : nat -> option nat.
Variable N : nat.
Variable waits : nat -> nat -> Prop.
Hypothesis Hop : reductionOp op ident.
Notation M := (seqMem op body m0).
Notation tr := (trace op body m0).
Notation acc := (accessed op body m0).
Notation wrt := (written op body m0).
Notation contr := (contr op).
Notation csum := (csum op ident body m0).
Notation at_ := (at_ op body m0).
Hypothesis Horig : forall i e, i < N -> In e (tr i) -> origOf e = true -> priv (cellOf e) = false.
Hypothesis Hconf : forall c i j, priv c = false -> j < i -> i < N -> (wrt j c /\ acc i c) \/ (acc j c /\ wrt i c) -> clos_trans nat waits i j.
Hypothesis Hpriv : forall c, priv c = true -> red c = None -> privateCell op body m0 N c.
Hypothesis Hred : forall c k, red c = Some k -> reductionCell op body m0 N k c.
Hypothesis Hredp : forall c k, red c = Some k -> priv c = true.

Inductive status := SNew | SRun (evs : list event) (s : mem) | SFin.

(** private memory of a running iteration *)
Definition privOk (pv : mem) (evs : list event) (s : mem) : Prop :=
  forall c, priv c = true -> red c = None -> (exists o, In (EWr o c) evs) -> pv c = s c.
Definition redOk (pv : mem) (base : nat -> nat -> Z) (evs : list event) : Prop :=
  forall c k, red c = Some k -> pv c = contr k c (base k c) evs.

Definition threadOk (G : nat -> status) (part : list nat) (t : othread) : Prop :=
  exists done,
    part = done ++ (match oCur t with Some (i, _) => [i] | None => [] end) ++ oIters t
    /\ (forall i, In i done -> G i = SFin)
    /\ (forall i, In i (oIters t) -> G i = SNew)
    /\ match oCur t with
       | Some (i, p) => exists evs s, G i = SRun evs s /\ at_ i evs p s /\ privOk (oPriv t) evs s
                        /\ redOk (oPriv t) (fun k c => csum k c done) evs
       | None => (forall c k, red c = Some k -> oPriv t c = csum k c done)
                 /\ (forall d i, done = d ++ [i] -> forall c, priv c = true -> red c = None -> (exists o, In (EWr o c) (tr i)) -> oPriv t c = M (S i) c)
       end.
Record inv (parts : list (list nat)) (fin : list nat) (sh : mem) (ts : list othread) (G : nat -> status) : Prop := {
  iBound : forall i, N <= i -> G i = SNew;
  iFin : forall i, In i fin -> G i = SFin;
  iWaits : forall i j, G i <> SNew -> waits i j -> G j = SFin;
  iRun : forall i evs s, G i = SRun evs s -> forall c, priv c = false -> acc i c -> sh c = s c;
  iDone : forall i c, i < N -> G i = SFin -> priv c = false -> wrt i c ->
    (forall k, i < k -> k < N -> wrt k c -> G k = SNew) -> sh c = M (S i) c;
  iNone : forall c, priv c = false -> (forall k, k < N -> wrt k c -> G k = SNew) -> sh c = m0 c;
  iPriv : forall c, priv c = true -> sh c = m0 c;
  iThreads : Forall2 (threadOk G) parts ts
}.
Lemma waits_trans parts fin sh ts G : inv parts fin sh ts G -> forall i j, clos_trans nat waits i j -> G i <> SNew -> G j = SFin.
Proof.
  intros HI i j H. induction H as [i j H|i j k H1 IH1 H2 IH2]; intros Hi.
  - exact (iWaits _ _ _ _ _ HI i j Hi H).
  - apply IH2. rewrite (IH1 Hi). discriminate.
Qed.
(** of two iterations with a conflict the later one starts after the end of the earlier one *)
Lemma conflict parts fin sh ts G c i j : inv parts fin sh ts G -> priv c = false -> j < i -> i < N ->
  (wrt j c /\ acc i c) \/ (acc j c /\ wrt i c) -> G i <> SNew -> G j = SFin.
Proof. intros HI Hc Hji Hi Hx. apply (waits_trans _ _ _ _ _ HI). exact (Hconf c i j Hc Hji Hi Hx). Qed.
Lemma wrt_acc i c : wrt i c -> acc i c.
Proof. intros (e & A & B & _). now exists e. Qed.

(** an action of a running iteration *)
Lemma act_step sh i evs p s pv done sh' p' pv' :
  i < N -> at_ i evs p s -> privOk pv evs s -> redOk pv (fun k c => csum k c done) evs ->
  (forall c, priv c = false -> acc i c -> sh c = s c) ->
  tstep op body priv sh (Thread [] p pv) = Some (sh', Thread [] p' pv') ->
  exists evs' s', at_ i evs' p' s' /\ privOk pv' evs' s' /\ redOk pv' (fun k c => csum k c done) evs'
    /\ (forall c, priv c = false -> acc i c -> sh' c = s' c)
    /\ (forall c, sh' c <> sh c -> priv c = false /\ wrt i c).
Proof.
  intros Hi Hat C3 R C4 H. unfold tstep in H. cbn [tProg tIters tPriv] in H.
  destruct p as [|o c k|o c v k|o c r v k]; [discriminate| | |].
  - (* read *)
    injection H as <- <- <-.
    destruct (at_event op body m0 N i evs _ s (ERd o c) _ Hi Hat eq_refl) as [He Htr].
    assert (Ev : (if priv c && negb o then pv c else sh c) = s c).
    { destruct (priv c) eqn:Hpc; cbn [andb].
      - destruct o; [specialize (Horig i _ Hi He eq_refl); cbn [cellOf] in Horig; congruence|]. cbn [negb].
        destruct (red c) as [k0|] eqn:Hrc.
        + destruct (Hred c k0 Hrc i Hi _ He eq_refl) as (? & ? & X). discriminate.
        + apply C3; [exact Hpc|exact Hrc|]. destruct (Hpriv c Hpc Hrc i Hi _ _ _ Htr eq_refl) as [(? & X)|X]; [discriminate|exact X].
      - apply C4; [exact Hpc|]. exact (event_acc op body m0 i _ He). }
    rewrite Ev. exists (evs ++ [ERd o c]), s.
    split. { split; [exact (proj1 Hat)|]. destruct Hat as [_ Ha]. cbn [run snd] in Ha. rewrite app_cons_last in Ha. exact Ha. }
    split. { intros x Hx Hr (o' & Ho). apply in_app_or in Ho as [Ho|[Ho|[]]]; [|discriminate]. apply C3; [exact Hx|exact Hr|now exists o']. }
    split. { intros x k1 Hk. rewrite (R x k1 Hk). unfold ParLoopSem.contr. rewrite fold_left_app. reflexivity. }
    split; [exact C4|]. intros x Hx. now contradiction Hx.
  - (* write *)
    destruct (at_event op body m0 N i evs _ s (EWr o c) _ Hi Hat eq_refl) as [He Htr].
    assert (Hat' : at_ i (evs ++ [EWr o c]) k (upd s c v)).
    { split; [exact (proj1 Hat)|]. destruct Hat as [_ Ha]. cbn [run snd] in Ha. rewrite app_cons_last in Ha. exact Ha. }
    assert (Hrc : red c = None).
    { destruct (red c) as [k0|] eqn:Hrc; [|reflexivity]. destruct (Hred c k0 Hrc i Hi _ He eq_refl) as (? & ? & X). discriminate. }
    assert (R' : forall x k1, red x = Some k1 -> contr k1 x (csum k1 x done) (evs ++ [EWr o c]) = contr k1 x (csum k1 x done) evs).
    { intros x k1 _. unfold ParLoopSem.contr. now rewrite fold_left_app. }
    destruct (priv c) eqn:Hpc; cbn [andb] in H.
    + destruct o; [specialize (Horig i _ Hi He eq_refl); cbn [cellOf] in Horig; congruence|]. cbn [negb] in H. injection H as <- <- <-.
      eexists (evs ++ [EWr _ c]), (upd s c v). split; [exact Hat'|].
      split; [|split; [|split]].
      * intros x Hx Hr (o' & Ho). unfold upd. destruct (Nat.eqb_spec x c) as [->|Hn]; [reflexivity|].
        apply C3; [exact Hx|exact Hr|]. apply in_app_or in Ho as [Ho|[Ho|[]]]; [now exists o'|congruence].
      * intros x k1 Hk. rewrite R' by exact Hk. rewrite upd_other; [now apply R|]. intros ->. congruence.
      * intros x Hx Ha. rewrite upd_other; [now apply C4|]. intros ->. congruence.
      * intros x Hx. now contradiction Hx.
    + injection H as <- <- <-.
      eexists (evs ++ [EWr _ c]), (upd s c v). split; [exact Hat'|]. split; [|split; [|split]].
      * intros x Hx Hr (o' & Ho). rewrite upd_other; [|intros ->; congruence].
        apply C3; [exact Hx|exact Hr|]. apply in_app_or in Ho as [Ho|[Ho|[]]]; [now exists o'|]. injection Ho as _ ->. congruence.
      * intros x k1 Hk. rewrite R' by exact Hk. now apply R.
      * intros x Hx Ha. unfold upd. destruct (x =? c); [reflexivity|now apply C4].
      * intros x Hx. assert (Hxc : x = c). { destruct (Nat.eq_dec x c) as [Hxc|Hxc]; [exact Hxc|]. exfalso. apply Hx. now apply upd_other. }
        rewrite Hxc. split; [exact Hpc|exact (event_wrt op body m0 i _ He eq_refl)].
  - (* update *)
    destruct (at_event op body m0 N i evs _ s (EUp o c r v) _ Hi Hat eq_refl) as [He Htr].
    assert (Hat' : at_ i (evs ++ [EUp o c r v]) k (upd s c (op r (s c) v))).
    { split; [exact (proj1 Hat)|]. destruct Hat as [_ Ha]. cbn [run snd] in Ha. rewrite app_cons_last in Ha. exact Ha. }
    assert (R' : forall x k1, x <> c -> contr k1 x (csum k1 x done) (evs ++ [EUp o c r v]) = contr k1 x (csum k1 x done) evs).
    { intros x k1 Hn. unfold ParLoopSem.contr. rewrite fold_left_app. cbn [fold_left cstep]. apply Nat.eqb_neq in Hn. now rewrite Nat.eqb_sym, Hn. }
    destruct (priv c) eqn:Hpc; cbn [andb] in H.
    + destruct o; [specialize (Horig i _ Hi He eq_refl); cbn [cellOf] in Horig; congruence|]. cbn [negb] in H. injection H as <- <- <-.
      eexists (evs ++ [EUp _ c r v]), (upd s c (op r (s c) v)). split; [exact Hat'|].
      split; [|split; [|split]].
      * intros x Hx Hr (o' & Ho). unfold upd. destruct (Nat.eqb_spec x c) as [->|Hn].
        -- f_equal. apply C3; [exact Hx|exact Hr|].
           destruct (Hpriv c Hx Hr i Hi _ _ _ Htr eq_refl) as [(? & X)|X]; [discriminate|exact X].
        -- apply C3; [exact Hx|exact Hr|]. apply in_app_or in Ho as [Ho|[Ho|[]]]; [now exists o'|congruence].
      * intros x k1 Hk. destruct (Nat.eq_dec x c) as [->|Hn].
        -- rewrite upd_same, (R c k1 Hk). destruct (Hred c k1 Hk i Hi _ He eq_refl) as (? & ? & X). injection X as -> -> ->.
           unfold ParLoopSem.contr. rewrite fold_left_app. cbn [fold_left cstep]. now rewrite Nat.eqb_refl.
        -- rewrite R' by exact Hn. rewrite upd_other by exact Hn. now apply R.
      * intros x Hx Ha. rewrite upd_other; [now apply C4|]. intros ->. congruence.
      * intros x Hx. now contradiction Hx.
    + injection H as <- <- <-.
      eexists (evs ++ [EUp _ c r v]), (upd s c (op r (s c) v)). split; [exact Hat'|]. split; [|split; [|split]].
      * intros x Hx Hr (o' & Ho). rewrite upd_other; [|intros ->; congruence].
        apply C3; [exact Hx|exact Hr|]. apply in_app_or in Ho as [Ho|[Ho|[]]]; [now exists o'|congruence].
      * intros x k1 Hk. rewrite R'. { now apply R. } intros ->. specialize (Hredp c k1 Hk). congruence.
      * intros x Hx Ha. unfold upd. destruct (Nat.eqb_spec x c) as [->|Hn]; [|now apply C4]. f_equal. now apply C4.
      * intros x Hx. assert (Hxc : x = c). { destruct (Nat.eq_dec x c) as [Hxc|Hxc]; [exact Hxc|]. exfalso. apply Hx. now apply upd_other. }
        rewrite Hxc. split; [exact Hpc|exact (event_wrt op body m0 i _ He eq_refl)].
Qed.

(** ** Steps *)
Definition setG (G : nat -> status) (i : nat) (x : status) : nat -> status := fun j => if Nat.eqb j i then x else G j.
Lemma setG_same G i x : setG G i x i = x.
Proof. unfold setG. now rewrite Nat.eqb_refl. Qed.
Lemma setG_other G i x j : j <> i -> setG G i x j = G j.
Proof. intros H. unfold setG. now apply Nat.eqb_neq in H as ->. Qed.
Lemma thread_frame G i x part t : ~ In i part -> threadOk G part t -> threadOk (setG G i x) part t.
Proof.
  intros Hi (done & E & A & B & C). exists done. split; [exact E|].
  assert (K : forall j, In j part -> setG G i x j = G j) by (intros j Hj; apply setG_other; intros ->; contradiction).
  split; [|split].
  - intros j Hj. rewrite K; [now apply A|]. rewrite E. apply in_or_app. now left.
  - intros j Hj. rewrite K; [now apply B|]. rewrite E. apply in_or_app. right. apply in_or_app. now right.
  - destruct (oCur t) as [[j p]|]; [|exact C]. destruct C as (evs & s & C1 & C2). exists evs, s. split; [|exact C2].
    rewrite K; [exact C1|]. rewrite E. apply in_or_app. right. now left.
Qed.
Lemma Forall2_frame {A B} (R R' : A -> B -> Prop) l l' : (forall x y, In x l -> R x y -> R' x y) -> Forall2 R l l' -> Forall2 R' l l'.
Proof.
  intros H F. induction F as [|x y l l' Hx F IH]; constructor; [apply H; [now left|exact Hx]|].
  apply IH. intros a b Ha. apply H. now right.
Qed.
Lemma threads_set parts ppre part ppost pre post t1 G i x :
  distributed N parts -> parts = ppre ++ part :: ppost -> In i part ->
  Forall2 (threadOk G) ppre pre -> Forall2 (threadOk G) ppost post -> threadOk (setG G i x) part t1 ->
  Forall2 (threadOk (setG G i x)) parts (pre ++ t1 :: post).
Proof.
  intros HD E Hi F1 F2 Ht. destruct (parts_ok N parts HD ppre part ppost E) as (_ & _ & K). rewrite E.
  apply Forall2_app; [|constructor; [exact Ht|]].
  - apply (Forall2_frame (threadOk G)); [|exact F1]. intros p y Hp. apply thread_frame. intros Hx. apply (proj2 (K p i (in_or_app _ _ _ (or_introl Hp)) Hx) Hi).
  - apply (Forall2_frame (threadOk G)); [|exact F2]. intros p y Hp. apply thread_frame. intros Hx. apply (proj2 (K p i (in_or_app _ _ _ (or_intror Hp)) Hx) Hi).
Qed.
(** the last writer of a cell before an iteration *)
Lemma last_writer c n : (exists i, i < n /\ wrt i c /\ forall k, i < k -> k < n -> ~ wrt k c) \/ forall i, i < n -> ~ wrt i c.
Proof.
  induction n as [|n IH]; [right; intros i Hi; lia|].
  destruct (existsb (fun e => Nat.eqb (cellOf e) c && isWrite e) (tr n)) eqn:E.
  - left. exists n. split; [lia|]. split; [|intros k; lia].
    apply existsb_exists in E as (e & E1 & E2). apply andb_true_iff in E2 as [E2 E3]. apply Nat.eqb_eq in E2. now exists e.
  - assert (Hn : ~ wrt n c).
    { intros (e & W1 & W2 & W3). assert (X : existsb (fun e => Nat.eqb (cellOf e) c && isWrite e) (tr n) = true); [|congruence].
      apply existsb_exists. exists e. split; [exact W1|]. rewrite W2, W3, Nat.eqb_refl. reflexivity. }
    destruct IH as [(i & H1 & H2 & H3)|IH].
    + left. exists i. split; [lia|]. split; [exact H2|]. intros k K1 K2. destruct (Nat.eq_dec k n) as [->|Hk]; [exact Hn|]. apply H3; lia.
    + right. intros i Hi. destruct (Nat.eq_dec i n) as [->|Hk]; [exact Hn|]. apply IH. lia.
Qed.
Lemma start_mem parts fin sh ts G i c : inv parts fin sh ts G -> i < N -> G i = SNew -> (forall j, waits i j -> G j = SFin) ->
  priv c = false -> acc i c -> sh c = M i c.
Proof.
  intros HI Hi Hn Hw Hc Ha.
  assert (Hw' : forall j, clos_trans nat waits i j -> G j = SFin).
  { intros j H. apply clos_trans_t1n in H. inversion H as [y H1|y z H1 H2]; subst; [now apply Hw|].
    apply clos_t1n_trans in H2. apply (waits_trans _ _ _ _ _ HI y j H2). rewrite (Hw y H1). discriminate. }
  assert (Later : forall k, i < k -> k < N -> wrt k c -> G k = SNew).
  { intros k K1 K2 W. destruct (G k) eqn:E; [reflexivity| |]; (assert (X : G i = SFin) by
      (apply (conflict _ _ _ _ _ c k i HI Hc K1 K2); [right; now split|rewrite E; discriminate]); congruence). }
  destruct (last_writer c i) as [(j & J1 & J2 & J3)|NW].
  - rewrite (iDone _ _ _ _ _ HI j c ltac:(lia)); [| |exact Hc|exact J2|].
    + symmetry. apply seq_frame; [lia|]. intros k K1 K2. apply J3; lia.
    + apply Hw'. apply (Hconf c i j Hc J1 Hi). left. now split.
    + intros k K1 K2 W. destruct (lt_eq_lt_dec k i) as [[L| ->]|L]; [|exact Hn|now apply Later]. exfalso. now apply (J3 k).
  - rewrite (iNone _ _ _ _ _ HI c Hc).
    + symmetry. apply (seq_frame op body m0 c 0 i); [lia|]. intros k _ K. now apply NW.
    + intros k K W. destruct (lt_eq_lt_dec k i) as [[L| ->]|L]; [|exact Hn|now apply Later]. exfalso. now apply (NW k).
Qed.

Lemma inv_step parts fin sh pre t post fin1 sh1 t1 G : distributed N parts ->
  inv parts fin sh (pre ++ t :: post) G -> ostep op body priv waits fin sh t fin1 sh1 t1 ->
  exists G', inv parts fin1 sh1 (pre ++ t1 :: post) G'.
Proof.
  intros HD HI Hs. pose proof (iThreads _ _ _ _ _ HI) as F.
  apply Forall2_app_inv_r in F as (ppre & prest & F1 & F2 & E). inversion F2 as [|part z ppost w Ft F3 Ez1 Ez2]; subst prest z w.
  destruct (parts_ok N parts HD ppre part ppost E) as (K1 & K2 & _).
  destruct Hs as [fin sh i its pv Hw|fin sh its i p pv sh' p' pv' Ha|fin sh its i pv].
  - (* start *)
    destruct Ft as (done & Ep & A & B & R & L). cbn [oCur oIters oPriv app] in *.
    assert (Hin : In i part) by (rewrite Ep; apply in_elt). pose proof (K1 i Hin) as Hi.
    assert (Hn : G i = SNew) by (apply B; now left).
    assert (Hw' : forall j, waits i j -> G j = SFin) by (intros j Hj; apply (iFin _ _ _ _ _ HI); now apply Hw).
    assert (SO : forall j, G j = SFin -> setG G i (SRun [] (M i)) j = SFin).
    { intros j Hj. rewrite setG_other; [exact Hj|]. intros ->. congruence. }
    assert (SN : forall j, setG G i (SRun [] (M i)) j = SNew -> G j = SNew).
    { intros j Hj. unfold setG in Hj. destruct (j =? i); [discriminate|exact Hj]. }
    exists (setG G i (SRun [] (M i))). constructor.
    + intros j Hj. rewrite setG_other by lia. now apply (iBound _ _ _ _ _ HI).
    + intros j Hj. apply SO. now apply (iFin _ _ _ _ _ HI).
    + intros j k Hj Hjk. apply SO. destruct (Nat.eq_dec j i) as [->|Hne]; [now apply Hw'|]. rewrite setG_other in Hj by exact Hne. exact (iWaits _ _ _ _ _ HI j k Hj Hjk).
    + intros j evs s Hj c Hc Ha. destruct (Nat.eq_dec j i) as [->|Hne].
      * rewrite setG_same in Hj. injection Hj as <- <-. exact (start_mem _ _ _ _ _ i c HI Hi Hn Hw' Hc Ha).
      * rewrite setG_other in Hj by exact Hne. exact (iRun _ _ _ _ _ HI j evs s Hj c Hc Ha).
    + intros j c Hj Hf Hc W Hk. apply (iDone _ _ _ _ _ HI j c Hj); [|exact Hc|exact W|].
      * unfold setG in Hf. destruct (j =? i); [discriminate|exact Hf].
      * intros k L1 L2 Wk. apply SN. now apply Hk.
    + intros c Hc Hk. apply (iNone _ _ _ _ _ HI c Hc). intros k L1 Wk. apply SN. now apply Hk.
    + exact (iPriv _ _ _ _ _ HI).
    + apply (threads_set parts ppre part ppost pre post _ G i _ HD E Hin F1 F3).
      exists done. cbn [oCur oIters oPriv]. split; [exact Ep|]. rewrite Ep in K2. pose proof (NoDup_remove_2 _ _ _ K2) as ND. split; [|split].
      * intros j Hj. rewrite setG_other; [now apply A|]. intros ->. apply ND. apply in_or_app. now left.
      * intros j Hj. rewrite setG_other; [apply B; now right|]. intros ->. apply ND. apply in_or_app. now right.
      * exists [], (M i). rewrite setG_same. split; [reflexivity|]. split; [split; reflexivity|]. split; [intros c _ _ (o & [])|]. intros c k Hk. exact (R c k Hk).
  - (* action *)
    destruct Ft as (done & Ep & A & B & evs & s & C1 & C2 & C3 & C4). cbn [oCur oIters oPriv app] in *.
    assert (Hin : In i part) by (rewrite Ep; apply in_elt). pose proof (K1 i Hin) as Hi.
    destruct (act_step sh i evs p s pv done sh' p' pv' Hi C2 C3 C4 (iRun _ _ _ _ _ HI i evs s C1) Ha) as (evs' & s' & D1 & D2 & D3 & D4 & D5).
    assert (SO : forall j, G j = SFin -> setG G i (SRun evs' s') j = SFin).
    { intros j Hj. rewrite setG_other; [exact Hj|]. intros ->. congruence. }
    assert (SN : forall j, setG G i (SRun evs' s') j = SNew <-> G j = SNew).
    { intros j. unfold setG. destruct (Nat.eqb_spec j i) as [->|_]; [|tauto]. rewrite C1. split; discriminate. }
    exists (setG G i (SRun evs' s')). constructor.
    + intros j Hj. rewrite setG_other by lia. now apply (iBound _ _ _ _ _ HI).
    + intros j Hj. apply SO. now apply (iFin _ _ _ _ _ HI).
    + intros j k Hj Hjk. apply SO. apply (iWaits _ _ _ _ _ HI j k); [|exact Hjk]. intros Hx. apply Hj. now apply SN.
    + intros j evs0 s0 Hj c Hc Hac. destruct (Nat.eq_dec j i) as [->|Hne].
      * rewrite setG_same in Hj. injection Hj as <- <-. now apply D4.
      * rewrite setG_other in Hj by exact Hne. rewrite <- (iRun _ _ _ _ _ HI j evs0 s0 Hj c Hc Hac).
        destruct (Z.eq_dec (sh' c) (sh c)) as [e|ne]; [exact e|]. exfalso. destruct (D5 c ne) as [_ W].
        assert (Hj' : j < N). { destruct (le_lt_dec N j) as [L|L]; [|exact L]. rewrite (iBound _ _ _ _ _ HI j L) in Hj. discriminate. }
        destruct (lt_eq_lt_dec j i) as [[L| ->]|L]; [|now apply Hne|].
        -- assert (X : G j = SFin) by (apply (conflict _ _ _ _ _ c i j HI Hc L Hi); [right; now split|rewrite C1; discriminate]). congruence.
        -- assert (X : G i = SFin) by (apply (conflict _ _ _ _ _ c j i HI Hc L Hj'); [left; now split|rewrite Hj; discriminate]). congruence.
    + intros j c Hj Hf Hc W Hk.
      assert (Hne : j <> i) by (intros ->; rewrite setG_same in Hf; discriminate). rewrite setG_other in Hf by exact Hne.
      rewrite <- (iDone _ _ _ _ _ HI j c Hj Hf Hc W).
      2: { intros k L1 L2 Wk. apply SN. now apply Hk. }
      destruct (Z.eq_dec (sh' c) (sh c)) as [e|ne]; [exact e|]. exfalso. destruct (D5 c ne) as [_ W2].
      destruct (lt_eq_lt_dec j i) as [[L| ->]|L]; [|now apply Hne|].
      * assert (X : setG G i (SRun evs' s') i = SNew) by (now apply Hk). rewrite setG_same in X. discriminate.
      * assert (X : G i = SFin) by (apply (conflict _ _ _ _ _ c j i HI Hc L Hj); [left; split; [exact W2|now apply wrt_acc]|rewrite Hf; discriminate]). congruence.
    + intros c Hc Hk. rewrite <- (iNone _ _ _ _ _ HI c Hc).
      2: { intros k L1 Wk. apply SN. now apply Hk. }
      destruct (Z.eq_dec (sh' c) (sh c)) as [e|ne]; [exact e|]. exfalso. destruct (D5 c ne) as [_ W2].
      assert (X : setG G i (SRun evs' s') i = SNew) by (now apply Hk). rewrite setG_same in X. discriminate.
    + intros c Hc. rewrite <- (iPriv _ _ _ _ _ HI c Hc). destruct (Z.eq_dec (sh' c) (sh c)) as [e|ne]; [exact e|]. destruct (D5 c ne) as [X _]. congruence.
    + apply (threads_set parts ppre part ppost pre post _ G i _ HD E Hin F1 F3).
      exists done. cbn [oCur oIters oPriv app]. split; [exact Ep|]. rewrite Ep in K2. pose proof (NoDup_remove_2 _ _ _ K2) as ND. split; [|split].
      * intros j Hj. apply SO. now apply A.
      * intros j Hj. apply SN. now apply B.
      * exists evs', s'. rewrite setG_same. now repeat (split; [assumption || reflexivity|]).
  - (* end *)
    destruct Ft as (done & Ep & A & B & evs & s & C1 & C2 & C3 & C4). cbn [oCur oIters oPriv app] in *.
    assert (Hin : In i part) by (rewrite Ep; apply in_elt). pose proof (K1 i Hin) as Hi.
    destruct C2 as [Ha1 Ha2]. cbn [run fst snd] in Ha1, Ha2. rewrite app_nil_r in Ha2.
    assert (SO : forall j, G j = SFin -> setG G i SFin j = SFin).
    { intros j Hj. unfold setG. destruct (j =? i); [reflexivity|exact Hj]. }
    assert (SN : forall j, setG G i SFin j = SNew <-> G j = SNew).
    { intros j. unfold setG. destruct (Nat.eqb_spec j i) as [->|_]; [|tauto]. rewrite C1. split; discriminate. }
    exists (setG G i SFin). constructor.
    + intros j Hj. rewrite setG_other by lia. now apply (iBound _ _ _ _ _ HI).
    + intros j [<-|Hj]; [apply setG_same|]. apply SO. now apply (iFin _ _ _ _ _ HI).
    + intros j k Hj Hjk. apply SO. apply (iWaits _ _ _ _ _ HI j k); [|exact Hjk]. intros Hx. apply Hj. now apply SN.
    + intros j evs0 s0 Hj. unfold setG in Hj. destruct (j =? i); [discriminate|]. exact (iRun _ _ _ _ _ HI j evs0 s0 Hj).
    + intros j c Hj Hf Hc W Hk. destruct (Nat.eq_dec j i) as [->|Hne].
      * rewrite (iRun _ _ _ _ _ HI i evs s C1 c Hc (wrt_acc i c W)). now rewrite Ha1.
      * rewrite setG_other in Hf by exact Hne. apply (iDone _ _ _ _ _ HI j c Hj Hf Hc W). intros k L1 L2 Wk. apply SN. now apply Hk.
    + intros c Hc Hk. apply (iNone _ _ _ _ _ HI c Hc). intros k L1 Wk. apply SN. now apply Hk.
    + exact (iPriv _ _ _ _ _ HI).
    + apply (threads_set parts ppre part ppost pre post _ G i _ HD E Hin F1 F3).
      exists (done ++ [i]). cbn [oCur oIters oPriv app]. split; [now rewrite <- app_assoc|]. split; [|split; [|split]].
      * intros j Hj. apply in_app_or in Hj as [Hj|[<-|[]]]; [apply SO; now apply A|apply setG_same].
      * intros j Hj. apply SN. now apply B.
      * intros c k Hk. rewrite (C4 c k Hk), Ha2. unfold ParLoopSem.csum. now rewrite fold_left_app.
      * intros d j Ed c Hc Hr Ho. apply app_inj_tail in Ed as [-> <-]. rewrite <- Ha1. apply C3; [exact Hc|exact Hr|]. now rewrite Ha2.
Qed.

Lemma inv_steps parts : distributed N parts -> forall fin sh ts fin' sh' ts', osteps op body priv waits fin sh ts fin' sh' ts' ->
  forall G, inv parts fin sh ts G -> exists G', inv parts fin' sh' ts' G'.
Proof.
  intros HD fin sh ts fin' sh' ts' H. induction H as [fin sh ts|fin sh pre t post fin1 sh1 t1 fin2 sh2 ts2 Hs _ IH]; intros G HI; [now exists G|].
  destruct (inv_step parts fin sh pre t post fin1 sh1 t1 G HD HI Hs) as [G' HI']. exact (IH G' HI').
Qed.
Lemma inv_start first parts ts : Forall2 (ostarts ident m0 first red) parts ts -> inv parts [] m0 ts (fun _ => SNew).
Proof.
  intros F. constructor; try reflexivity.
  - intros i [].
  - intros i j H. now contradiction H.
  - discriminate.
  - discriminate.
  - induction F as [|part t parts ts (H1 & H2 & H3 & H4 & H5) F IH]; constructor; [|exact IH].
    exists []. rewrite H1. cbn [app plain tIters tPriv] in *. split; [now symmetry|]. split; [intros i []|]. split; [reflexivity|].
    split; [exact H5|]. intros d i E. now apply app_cons_not_nil in E.
Qed.
Lemma end_thread G part t : threadOk G part t -> ofinished t ->
  (forall i, In i part -> G i = SFin)
  /\ (forall c k, red c = Some k -> oPriv t c = csum k c part)
  /\ (forall d i, part = d ++ [i] -> forall c, priv c = true -> red c = None -> (exists o, In (EWr o c) (tr i)) -> oPriv t c = M (S i) c).
Proof.
  intros (done & E & A & B & C) [F1 F2]. rewrite F1, F2 in *. cbn [app] in E. rewrite app_nil_r in E. subst part. split; [exact A|exact C].
Qed.

Theorem ordered_ok first last parts ts fin sh ts' :
  distributed N parts -> Forall2 (ostarts ident m0 first red) parts ts ->
  osteps op body priv waits [] m0 ts fin sh ts' -> Forall ofinished ts' ->
  (forall c, last c = true -> priv c = true) ->
  forall c, (priv c = true -> red c = None -> last c = true /\ lastCell op body m0 N c) ->
  parFinal op last red N parts sh (map plain ts') c = M N c.
Proof.
  intros HD HS Hst Hfin Hlp c Hcls.
  pose proof (inv_start first parts ts HS) as I0.
  destruct (inv_steps parts HD _ _ _ _ _ _ Hst _ I0) as [G HI].
  pose proof (iThreads _ _ _ _ _ HI) as F. pose proof (iPriv _ _ _ _ _ HI) as SP.
  assert (F' : Forall2 (fun p t => threadOk G p t /\ ofinished t) parts ts').
  { clear -F Hfin. induction F; inversion Hfin; subst; constructor; auto. }
  assert (AF : forall i, i < N -> G i = SFin).
  { intros i Hi. assert (Hn : In i (concat parts)). { apply (Permutation_in i (Permutation_sym (proj1 HD))). apply in_seq. lia. }
    apply in_concat in Hn as (p & Hp1 & Hp2).
    assert (Hex : exists t, threadOk G p t /\ ofinished t).
    { clear -F' Hp1. induction F'; [destruct Hp1|]. destruct Hp1 as [<-|Hp1]; [eexists; eassumption|exact (IHF' Hp1)]. }
    destruct Hex as (t & T1 & T2). now apply (proj1 (end_thread G p t T1 T2)). }
  unfold parFinal. destruct (red c) as [k|] eqn:Hr.
  - rewrite (fold_red op ident body m0 Hop k c (map plain ts') parts).
    + rewrite (SP c (Hredp c k Hr)), (seq_contr op ident body m0 red N Hop Hred c k N Hr (le_n N)). f_equal. apply csum_perm; [exact Hop|exact (proj1 HD)].
    + clear -F' Hr Hop Hred. induction F' as [|p t ps ts' [T Fi] F' IH]; cbn [map]; constructor; [|exact IH].
      now apply (end_thread G p t T Fi).
  - destruct (priv c) eqn:Hp.
    + destruct (Hcls eq_refl eq_refl) as [-> HL].
      destruct N as [|n] eqn:EN.
      * cbn [Nat.eqb seqMem]. assert (sh c = m0 c) by (apply SP; exact Hp). destruct (find _ _); assumption.
      * cbn [pred Nat.eqb].
        assert (Hn : In n (concat parts)). { apply (Permutation_in n (Permutation_sym (proj1 HD))). apply in_seq. lia. }
        destruct (find (fun x => isIn n (fst x)) (combine parts (map plain ts'))) as [[p t]|] eqn:Ef.
        -- apply find_some in Ef as [Ein Eis]. cbn [fst snd] in *. apply in_isIn in Eis.
           assert (HT : exists u, t = plain u /\ threadOk G p u /\ ofinished u).
           { clear -F' Ein. induction F' as [|p0 u ps us [T0 U0] F' IH]; [destruct Ein|]. cbn [map combine] in Ein.
             destruct Ein as [Ein|Ein]; [injection Ein as <- <-; now exists u|now apply IH]. }
           destruct HT as (u & -> & T0 & U0).
           destruct (end_thread G p u T0 U0) as (_ & _ & L).
           assert (Hpi : In p parts) by (eapply in_combine_l; exact Ein).
           destruct (sorted_last p n) as [d Ed].
           ++ destruct HD as [_ SS]. rewrite Forall_forall in SS. now apply SS.
           ++ exact Eis.
           ++ intros y Hy. assert (Hys : In y (seq 0 (S n))). { apply (Permutation_in y (proj1 HD)). apply in_concat. now exists p. } apply in_seq in Hys. lia.
           ++ cbn [plain tPriv]. apply (L d n Ed c Hp Hr). destruct (HL n eq_refl) as [o Ho]. now exists o.
        -- exfalso. apply in_concat in Hn as (p & Hp1 & Hp2).
           assert (Hex : exists t, In (p, t) (combine parts (map plain ts'))).
           { clear -F' Hp1. induction F' as [|p0 u ps us _ F' IH]; [destruct Hp1|]. cbn [map combine]. destruct Hp1 as [<-|Hp1]; [eexists; now left|]. destruct (IH Hp1) as [t Ht]. exists t. now right. }
           destruct Hex as [t Ht]. pose proof (find_none _ _ Ef _ Ht) as Hno. cbn [fst] in Hno. apply in_isIn in Hp2. congruence.
    + assert (Hl : last c = false). { destruct (last c) eqn:El; [|reflexivity]. specialize (Hlp c El). congruence. }
      rewrite Hl.
      destruct (last_writer c N) as [(i & Hi & W & Hlw)|NW].
      * rewrite (iDone _ _ _ _ _ HI i c Hi (AF i Hi) Hp W).
        -- symmetry. apply seq_frame; [lia|]. intros j J1 J2. apply Hlw; lia.
        -- intros k L1 L2 Wk. exfalso. now apply (Hlw k).
      * rewrite (iNone _ _ _ _ _ HI c Hp).
        -- symmetry. apply (seq_frame op body m0 c 0 N); [lia|]. intros j _ Hj. now apply NW.
        -- intros k L1 Wk. exfalso. now apply (NW k).
Qed.

End Sem.

(** ** Progress *)
Section Progress.
Variable op : nat -> Z -> Z -> Z.
Variable body : nat -> prog.
Variable priv : nat -> bool.
Variable N : nat.
Variable waits : nat -> nat -> Prop.
Definition partOk (fin : list nat) (part : list nat) (t : othread) : Prop :=
  exists done, part = done ++ (match oCur t with Some (i, _) => [i] | None => [] end) ++ oIters t /\ forall i, In i done -> In i fin.
Lemma part_step fin sh t fin1 sh1 t1 : ostep op body priv waits fin sh t fin1 sh1 t1 ->
  (forall i, In i fin -> In i fin1) /\ forall part, partOk fin part t -> partOk fin1 part t1.
Proof.
  intros [f s i its pv Hw|f s its i p pv sh' p' pv' Ha|f s its i pv].
  - split; [auto|]. intros part (d & E & A). exists d. cbn [oCur oIters app] in *. now split.
  - split; [auto|]. intros part (d & E & A). exists d. cbn [oCur oIters app] in *. now split.
  - split; [now right|]. intros part (d & E & A). exists (d ++ [i]). cbn [oCur oIters app] in *. split; [now rewrite <- app_assoc|].
    intros j Hj. apply in_app_or in Hj as [Hj|[<-|[]]]; [right; now apply A|now left].
Qed.
Lemma parts_steps parts : forall fin sh ts fin' sh' ts', osteps op body priv waits fin sh ts fin' sh' ts' ->
  Forall2 (partOk fin) parts ts -> Forall2 (partOk fin') parts ts'.
Proof.
  intros fin sh ts fin' sh' ts' H. induction H as [fin sh ts|fin sh pre t post fin1 sh1 t1 fin2 sh2 ts2 Hs _ IH]; intros F; [exact F|].
  apply IH. apply Forall2_app_inv_r in F as (ppre & prest & F1 & F2 & ->). inversion F2 as [|part ? ppost ? Ft F3]; subst.
  destruct (part_step _ _ _ _ _ _ Hs) as [S1 S2].
  assert (Fr : forall p x, partOk fin p x -> partOk fin1 p x).
  { intros p x (d & E & A). exists d. split; [exact E|]. intros i Hi. apply S1. now apply A. }
  apply Forall2_app; [|constructor; [now apply S2|]]; eapply Forall2_frame; try eassumption; intros; now apply Fr.
Qed.
Lemma find_cur ts : (exists pre t post i p, ts = pre ++ t :: post /\ oCur t = Some (i, p)) \/ Forall (fun t => oCur t = None) ts.
Proof.
  induction ts as [|t ts [(pre & u & post & i & p & -> & H)|IH]]; [now right| |].
  - left. exists (t :: pre), u, post, i, p. now split.
  - destruct (oCur t) as [[i p]|] eqn:E; [left; now exists [], t, ts, i, p|right; now constructor].
Qed.
Lemma least (l : list nat) : l <> [] -> exists m, In m l /\ forall x, In x l -> m <= x.
Proof.
  induction l as [|a l IH]; [now intros H|]. intros _. destruct l as [|b l].
  - exists a. split; [now left|]. intros x [<-|[]]. lia.
  - destruct IH as (m & M1 & M2); [discriminate|]. destruct (le_lt_dec a m) as [L|L].
    + exists a. split; [now left|]. intros x [<-|Hx]; [lia|]. specialize (M2 x Hx). lia.
    + exists m. split; [now right|]. intros x [<-|Hx]; [lia|]. now apply M2.
Qed.
Lemma sorted_suffix (a b : list nat) : StronglySorted lt (a ++ b) -> StronglySorted lt b.
Proof. induction a as [|x a IH]; cbn [app]; [auto|]. intros H. inversion H; subst. now apply IH. Qed.
Theorem ordered_progress ident m0 first red parts ts fin sh ts' :
  (forall i j, waits i j -> j < i) ->
  distributed N parts -> Forall2 (ostarts ident m0 first red) parts ts ->
  osteps op body priv waits [] m0 ts fin sh ts' ->
  Forall ofinished ts' \/
  exists pre t post fin1 sh1 t1, ts' = pre ++ t :: post /\ ostep op body priv waits fin sh t fin1 sh1 t1.
Proof.
  intros Hw [HP HSo] HS Hst.
  assert (F : Forall2 (partOk fin) parts ts').
  { apply (parts_steps parts _ _ _ _ _ _ Hst). apply (Forall2_frame (ostarts ident m0 first red)); [|exact HS].
    intros p t _ (H1 & H2 & _). exists []. rewrite H1. cbn [app plain tIters] in *. split; [now symmetry|intros i []]. }
  destruct (find_cur ts') as [(pre & t & post & i & p & -> & Hc)|HN].
  { right. destruct t as [its cu pv]. cbn [oCur] in Hc. subst cu.
    destruct p as [|o c k|o c v k|o c r v k].
    - exists pre, (OThread its (Some (i, Done)) pv), post, (i :: fin), sh, (OThread its None pv). split; [reflexivity|constructor].
    - exists pre, (OThread its (Some (i, Rd o c k)) pv), post, fin. eexists. eexists. split; [reflexivity|]. apply OAct. reflexivity.
    - exists pre, (OThread its (Some (i, Wr o c v k)) pv), post, fin.
      destruct (priv c && negb o) eqn:E; (eexists; eexists; split; [reflexivity|]; apply OAct; unfold tstep; cbn [tProg tIters tPriv]; rewrite E; reflexivity).
    - exists pre, (OThread its (Some (i, Up o c r v k)) pv), post, fin.
      destruct (priv c && negb o) eqn:E; (eexists; eexists; split; [reflexivity|]; apply OAct; unfold tstep; cbn [tProg tIters tPriv]; rewrite E; reflexivity). }
  destruct (concat (map oIters ts')) as [|x0 xs] eqn:EC.
  { left. rewrite Forall_forall in *. intros t Ht. split; [|now apply HN].
    destruct (oIters t) as [|y ys] eqn:E; [reflexivity|]. exfalso.
    assert (X : In y (concat (map oIters ts'))). { apply in_concat. exists (oIters t). split; [now apply in_map|]. rewrite E. now left. }
    rewrite EC in X. destruct X. }
  right. destruct (least (concat (map oIters ts'))) as (m & M1 & M2); [rewrite EC; discriminate|].
  pose proof M1 as M1'. apply in_concat in M1 as (its & I1 & I2). apply in_map_iff in I1 as (t & <- & Ht).
  assert (Hall : forall j, j < m -> j < N -> In j fin).
  { intros j Hj HjN. assert (Hn : In j (concat parts)). { apply (Permutation_in j (Permutation_sym HP)). apply in_seq. lia. }
    apply in_concat in Hn as (p & Hp1 & Hp2).
    assert (Hex : exists u, In u ts' /\ partOk fin p u).
    { clear -F Hp1. induction F as [|p0 u ps us H F IH]; [destruct Hp1|]. destruct Hp1 as [<-|Hp1]; [exists u; split; [now left|exact H]|].
      destruct (IH Hp1) as (w & W1 & W2). exists w. split; [now right|exact W2]. }
    destruct Hex as (u & U1 & d & E & A). rewrite Forall_forall in HN. rewrite (HN u U1) in E. cbn [app] in E. rewrite E in Hp2.
    apply in_app_or in Hp2 as [Hp2|Hp2]; [now apply A|]. exfalso.
    assert (X : m <= j). { apply M2. apply in_concat. exists (oIters u). split; [now apply in_map|exact Hp2]. } lia. }
  assert (HmN : m < N).
  { assert (Hex : exists p, In p parts /\ partOk fin p t).
    { clear -F Ht. induction F as [|p0 u ps us H F IH]; [destruct Ht|]. destruct Ht as [<-|Ht]; [exists p0; split; [now left|exact H]|].
      destruct (IH Ht) as (w & W1 & W2). exists w. split; [now right|exact W2]. }
    destruct Hex as (p & Hp & d & E & A). assert (Hin : In m (seq 0 N)).
    { apply (Permutation_in m HP). apply in_concat. exists p. split; [exact Hp|]. rewrite E. apply in_or_app. right. apply in_or_app. now right. }
    apply in_seq in Hin. lia. }
  assert (Hhd : exists r, oIters t = m :: r).
  { assert (Hex : exists p, In p parts /\ partOk fin p t).
    { clear -F Ht. induction F as [|p0 u ps us H F IH]; [destruct Ht|]. destruct Ht as [<-|Ht]; [exists p0; split; [now left|exact H]|].
      destruct (IH Ht) as (w & W1 & W2). exists w. split; [now right|exact W2]. }
    destruct Hex as (p & Hp & d & E & A). rewrite Forall_forall in HSo. specialize (HSo p Hp). rewrite E in HSo.
    apply sorted_suffix in HSo. apply sorted_suffix in HSo.
    destruct (oIters t) as [|h r] eqn:Eh; [destruct I2|]. exists r. f_equal. destruct I2 as [I2|I2]; [exact I2|].
    inversion HSo as [|? ? _ S2]; subst. rewrite Forall_forall in S2. specialize (S2 m I2).
    assert (X : m <= h). { apply M2. apply in_concat. exists (oIters t). split; [now apply in_map|]. rewrite Eh. now left. } lia. }
  destruct Hhd as [r Hr]. apply in_split in Ht as (pre & post & ->).
  assert (Hc : oCur t = None). { rewrite Forall_forall in HN. apply HN. apply in_elt. }
  destruct t as [its cu pv]. cbn [oCur oIters] in *. subst its cu.
  exists pre, (OThread (m :: r) None pv), post, fin, sh, (OThread r (Some (m, body m)) pv). split; [reflexivity|]. apply OStart.
  intros j Hj. specialize (Hw m j Hj). apply Hall; lia.
Qed.
End Progress.
