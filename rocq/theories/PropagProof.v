(** Proofs about propagation of expressions (C70). *)
From Coq Require Import List Bool Arith ZArith Lia.
From Verif Require Import PropagModel PropagSpec.
Import ListNotations.

Section P.
Variable D : decls.
Variable M : meaning.

(** ** Types of values *)
Lemma source_typed : forall s e, typed D s -> sourceE e = true -> exists z, eval D M s e = Val (tyE D M e) z.
Proof.
  intros s e T. induction e; cbn [sourceE eval tyE]; intros H; try discriminate.
  - eexists; reflexivity.
  - apply T.
  - apply andb_true_iff in H as [H1 H2]. destruct (IHe1 H1) as [z1 E1]. destruct (IHe2 H2) as [z2 E2].
    rewrite E1, E2. eexists; reflexivity.
  - destruct (IHe H) as [z E]. rewrite E. eexists; reflexivity.
Qed.
Lemma after_source : forall s e, sourceE e = true -> after M s e = s.
Proof.
  intros s e. revert s. induction e; intros s H; cbn [sourceE after] in *; try reflexivity; try discriminate; auto.
  apply andb_true_iff in H as [H1 H2]. rewrite IHe1, IHe2; auto.
Qed.
Lemma effects_source : forall w e, sourceE e = true -> effects M w e = w.
Proof. intros [s c g] e H. unfold effects. cbn [vs calls ghost]. rewrite after_source by assumption. reflexivity. Qed.
Fixpoint noPre (e : expr) : bool :=
  match e with EPre _ _ => false | EBin _ _ a b => noPre a && noPre b | ECall _ _ a => noPre a | _ => true end.
Lemma source_noPre : forall e, sourceE e = true -> noPre e = true.
Proof.
  induction e; cbn [sourceE noPre]; intros H; try reflexivity; try discriminate; auto.
  apply andb_true_iff in H as [H1 H2]. rewrite IHe1, IHe2; auto.
Qed.
Lemma after_noPre : forall s e, noPre e = true -> after M s e = s.
Proof.
  intros s e. revert s. induction e; intros s H; cbn [noPre after] in *; try reflexivity; try discriminate; auto.
  apply andb_true_iff in H as [H1 H2]. rewrite IHe1, IHe2; auto.
Qed.
Lemma effects_noPre : forall w e, noPre e = true -> effects M w e = w.
Proof. intros [s c g] e H. unfold effects. cbn [vs calls ghost]. rewrite after_noPre by assumption. reflexivity. Qed.
Lemma conv_same : forall t z, conv M t (Val t z) = Val t z.
Proof. intros. cbn [conv]. rewrite Nat.eqb_refl. reflexivity. Qed.
Lemma typed_upd : forall s d z, typed D s -> typed D (upd s d (Val (ty D d) z)).
Proof. intros s d z T x. unfold upd. destruct (x =? d) eqn:E; [apply Nat.eqb_eq in E; subst; eauto | apply T]. Qed.

(** ** Worlds of the original program *)
Variable A : list (nat * rhs).
Hypothesis ASrc : forall v r, In (v, r) A -> sourceR r = true.

Definition ghostOk (gh : nat -> option origin) : Prop :=
  forall dl o, gh dl = Some o -> exists v,
    In (v, oRhs o) A /\ locR (oRhs o) = dl /\ typed D (oBefore o) /\
    match oRhs o with RExpr e => oVal o = conv M (ty D v) (eval D M (oBefore o) e) | _ => True end.
Definition evOk (ev : event) : Prop := typed D (eState ev) /\ ghostOk (eGhost ev).
Definition wOk (w : world) : Prop := typed D (vs w) /\ ghostOk (ghost w).

Lemma events_ok : forall w ls ev, wOk w -> In ev (events w ls) -> evOk ev.
Proof. intros w ls ev [H1 H2] I0. apply in_map_iff in I0 as (l & E & _). subst. split; assumption. Qed.
Lemma typed_after : forall e s, typed D s -> typed D (after M s e).
Proof.
  induction e as [l t z | l d | l f a IHa b IHb | l f a IHa | l d |]; intros s T; cbn [after]; auto.
  destruct (T d) as [z Z]. rewrite Z. cbn [inc]. apply typed_upd; assumption.
Qed.
Lemma effects_ok : forall w e, wOk w -> wOk (effects M w e).
Proof. intros w e [H1 H2]. split; [apply typed_after; assumption | assumption]. Qed.
Lemma runR_ok : forall w r x w' evs, wOk w -> runR D M w r = (x, w', evs) ->
  wOk w' /\ (forall ev, In ev evs -> evOk ev) /\ (sourceR r = true -> exists t z, x = Val t z).
Proof.
  intros w r x w' evs W E. destruct r as [e | l d | l f a]; cbn [runR] in E; inversion E; subst x w' evs; clear E.
  - split; [apply effects_ok; assumption | split]. { intros ev; apply events_ok; assumption. }
    intros H. destruct (source_typed (vs w) e (proj1 W) H) as [z Z]. rewrite Z. eauto.
  - destruct W as [T G]. destruct (T d) as [z Z]. split.
    + split; cbn [vs ghost]; [| assumption]. rewrite Z. cbn [inc]. apply typed_upd; assumption.
    + split; [intros ev [] |]. intros _. rewrite Z. cbn [inc]. eexists _, _. reflexivity.
  - split; [| split].
    + destruct W as [T G]. split; cbn [vs ghost]; [| assumption].
      intros y. destruct (knd D y) as [| pt | rn]; [apply typed_after, T | eexists; reflexivity | apply typed_after, T].
    + intros ev H. exact (events_ok w (l :: locsE a) ev W H).
    + intros _. eexists _, _. reflexivity.
Qed.
Lemma assign_ok : forall w v r w' evs, wOk w -> In (v, r) A -> assign D M w v r = (w', evs) ->
  wOk w' /\ (forall ev, In ev evs -> evOk ev).
Proof.
  intros w v r w' evs W IA E. unfold assign in E. destruct (runR D M w r) as [[x w1] ev1] eqn:R.
  destruct (runR_ok _ _ _ _ _ W R) as (W1 & E1 & X).
  destruct (X (ASrc _ _ IA)) as (t & z & ->). inversion E; subst; clear E. split; [| assumption].
  split; cbn [vs ghost].
  - cbn [conv]. apply typed_upd, W1.
  - intros dl o H. destruct (dl =? locR r) eqn:Q.
    + apply Nat.eqb_eq in Q. inversion H; subst; clear H. exists v. cbn [oRhs oBefore oVal].
      split; [assumption |]. split; [reflexivity |]. split; [apply W |].
      destruct r as [e | |]; try exact Logic.I. cbn [runR] in R. injection R as R1 _ _. rewrite R1. reflexivity.
    + apply (proj2 W1). assumption.
Qed.

Lemma exec_ok : forall n p w, incl (flat_map assigns p) A -> wOk w ->
  (forall ev, In ev (snd (exec D M n p w)) -> evOk ev) /\ (forall w', fst (exec D M n p w) = Some w' -> wOk w').
Proof.
  induction n as [| n IH]; intros p w HA W.
  { cbn [exec fst snd]. split; [intros ev [] | discriminate]. }
  destruct p as [| s p]. { cbn [exec fst snd]. split; [intros ev [] |]. intros w' E; inversion E; subst; assumption. }
  cbn [flat_map] in HA. assert (Hs : incl (assigns s) A) by (intros x H; apply HA, in_or_app; left; assumption).
  assert (Hp : incl (flat_map assigns p) A) by (intros x H; apply HA, in_or_app; right; assumption).
  cbn [exec].
  match goal with |- context [let '(o, evs) := ?X in match o with _ => _ end] => set (Y := X) end.
  assert (K : (forall ev, In ev (snd Y) -> evOk ev) /\ (forall w', fst Y = Some w' -> wOk w')).
  { unfold Y; clear Y. destruct s as [v r | l g r | v r | r | c t f | c b | l c k b]; cbn [assigns] in Hs.
    - destruct (assign D M w v r) as [w1 e1] eqn:R.
      destruct (assign_ok _ _ _ _ _ W (Hs (v, r) (or_introl eq_refl)) R) as [W1 E1]. cbn [fst snd].
      split; [assumption | intros w' Q; inversion Q; subst; assumption].
    - destruct (runR D M w r) as [[x w0] e0] eqn:R0. destruct (runR_ok _ _ _ _ _ W R0) as (W0 & _ & _).
      destruct (assign D M w g r) as [w1 e1] eqn:R.
      destruct (assign_ok _ _ _ _ _ W (Hs (g, r) (or_introl eq_refl)) R) as [W1 E1]. cbn [fst snd].
      split; [| intros w' Q; inversion Q; subst; assumption].
      intros ev H. apply in_app_or in H as [H | H]; [auto | exact (events_ok _ _ _ W0 H)].
    - destruct (assign D M w v r) as [w1 e1] eqn:R.
      destruct (assign_ok _ _ _ _ _ W (Hs (v, r) (or_introl eq_refl)) R) as [W1 E1]. cbn [fst snd].
      split; [assumption | intros w' Q; inversion Q; subst; assumption].
    - destruct (runR D M w r) as [[x w1] e1] eqn:R. destruct (runR_ok _ _ _ _ _ W R) as (W1 & E1 & _). cbn [fst snd].
      split; [assumption | intros w' Q; inversion Q; subst; assumption].
    - destruct (exec D M n (if isTrue (eval D M (vs w) c) then t else f) (effects M w c)) as [o e1] eqn:R.
      assert (Q : incl (flat_map assigns (if isTrue (eval D M (vs w) c) then t else f)) A).
      { intros x H. apply Hs, in_or_app. destruct (isTrue _); auto. }
      destruct (IH _ _ Q (effects_ok w c W)) as [Q1 Q2]. rewrite R in Q1, Q2. cbn [fst snd] in *. split; [| assumption].
      intros ev H. apply in_app_or in H as [H | H]; [exact (events_ok _ _ _ W H) | auto].
    - destruct (isTrue (eval D M (vs w) c)).
      + destruct (exec D M n (b ++ [SWhile c b]) (effects M w c)) as [o e1] eqn:R.
        assert (Q : incl (flat_map assigns (b ++ [SWhile c b])) A).
        { rewrite flat_map_app. cbn [flat_map assigns]. rewrite app_nil_r. intros x H. apply in_app_or in H as [H | H]; auto. }
        destruct (IH _ _ Q (effects_ok w c W)) as [Q1 Q2]. rewrite R in Q1, Q2. cbn [fst snd] in *. split; [| assumption].
        intros ev H. apply in_app_or in H as [H | H]; [exact (events_ok _ _ _ W H) | auto].
      + cbn [fst snd]. split; [intros ev H; exact (events_ok _ _ _ W H) | intros w' Q; injection Q as <-; apply effects_ok; assumption].
    - destruct (Z.eqb _ k).
      + destruct (exec D M n b (effects M w c)) as [o e1] eqn:R.
        destruct (IH _ _ Hs (effects_ok w c W)) as [Q1 Q2]. rewrite R in Q1, Q2. cbn [fst snd] in *. split; [| assumption].
        intros ev H. apply in_app_or in H as [H | H]; [exact (events_ok _ _ _ W H) | auto].
      + cbn [fst snd]. split; [intros ev H; exact (events_ok _ _ _ W H) | intros w' Q; injection Q as <-; apply effects_ok; assumption]. }
  destruct Y as [o e1]. cbn [fst snd] in K. destruct K as [K1 K2].
  destruct o as [w1 |]; cbn [fst snd]; [| split; [assumption | discriminate]].
  destruct (exec D M n p w1) as [o2 e2] eqn:R. destruct (IH p w1 Hp (K2 w1 eq_refl)) as [Q1 Q2]. rewrite R in Q1, Q2.
  cbn [fst snd] in *. split; [| assumption]. intros ev H. apply in_app_or in H as [H | H]; auto.
Qed.

(** ** Expressions which read local variables only *)
Lemma eval_pure : forall s s' e, pureE D e = true ->
  (forall d, In d (refsE e) -> isLocal D d = true -> s d = s' d) -> eval D M s e = eval D M s' e.
Proof.
  intros s s' e. induction e as [l t z | l d | l f a IHa b IHb | l f a IHa | l d |]; cbn [pureE refsE eval]; intros P H.
  - reflexivity.
  - apply H; [left; reflexivity | assumption].
  - apply andb_true_iff in P as [P1 P2]. rewrite IHa, IHb; auto.
    + intros d I0; apply H, in_or_app; right; assumption.
    + intros d I0; apply H, in_or_app; left; assumption.
  - assert (R : readable D f s = readable D f s').
    { unfold readable. destruct (knd D f) as [| p | []]; try discriminate. reflexivity. }
    rewrite R. rewrite IHa; [reflexivity | destruct (knd D f) as [| p | []]; try discriminate; assumption |].
    intros d I0; apply H; right; assumption.
  - rewrite H; [reflexivity | left; reflexivity | assumption].
  - reflexivity.
Qed.

(** ** Good replacements *)
Variable F : facts.
Variable SW : list nat.
Definition good (ev : event) : Prop := evOk ev /\ factsOk F ev.
Definition staticOk (v : nat) (r : repl) : Prop :=
  noPre (rText r) = true /\ pureE D (rText r) = true /\ incl (refsE (rText r)) (rAccess r) /\ isLocal D v = true.
Definition goodRepl (u v : nat) (r : repl) : Prop :=
  staticOk v r /\ forall ev, good ev -> eLoc ev = u -> eval D M (eState ev) (rText r) = eState ev v.
Definition goodMap (m : useMap) : Prop :=
  forall u l, In (u, l) m -> ~ In u SW /\ forall v r, In (v, r) l -> goodRepl u v r.
Lemma lookup_in : forall {B} k (m : list (nat * B)) x, lookup k m = Some x -> In (k, x) m.
Proof.
  intros B k m x H. unfold lookup in H. destruct (find _ m) as [[k' x'] |] eqn:E; [| discriminate].
  apply find_some in E as [E1 E2]. cbn [fst snd] in *. apply Nat.eqb_eq in E2. inversion H; subst. assumption.
Qed.
Lemma setRepl_good : forall u v r m, goodMap m -> ~ In u SW -> goodRepl u v r -> goodMap (setRepl u v r m).
Proof.
  intros u v r m G N R u' l [E | H]; [| apply G; assumption]. inversion E; subst; clear E. split; [assumption |].
  intros v' r' [E | H]; [inversion E; subst; assumption |].
  destruct (lookup u' m) as [l |] eqn:E; [| destruct H]. apply lookup_in in E. apply (G _ _ E); assumption.
Qed.
Lemma touch_good : forall u m, goodMap m -> ~ In u SW -> goodMap (touch u m).
Proof.
  intros u m G N u' l [E | H]; [| apply G; assumption]. inversion E; subst; clear E. split; [assumption |].
  intros v' r' H. destruct (lookup u' m) as [l |] eqn:E; [| destruct H]. apply lookup_in in E. apply (G _ _ E); assumption.
Qed.

Hypothesis FLoc : forall u v s, In (u, v, s) (direct F) -> isLocal D v = true /\ match s with TVar w => isLocal D w = true | _ => True end.
Hypothesis FSw1 : forall u v s, In (u, v, s) (direct F) -> ~ In u SW.
Hypothesis FConst : forall u v z, In (u, v, TConst z) (direct F) ->
     constOk (ty D v) z = true.
Hypothesis FSign : forall u v w, In (u, v, TVar w) (direct F) -> ty D v = ty D w.

Lemma literal_ok : forall t z, constOk t z = true -> match literal t z with Some (t', z') => t' = t /\ z' = z | None => True end.
Proof.
  intros t z H. destruct t as [| [| [| [| t]]]]; cbn [constOk literal] in *; [split; reflexivity | discriminate | | | exact Logic.I].
  - apply negb_true_iff in H. rewrite H. split; reflexivity.
  - apply Z.leb_le in H. destruct (Z.ltb (Z.abs z) 2147483648) eqn:E; [apply Z.ltb_lt in E; lia | split; reflexivity].
Qed.
Lemma init_good : goodMap (initMap D F).
Proof.
  unfold initMap.
  assert (K : forall l m, incl l (direct F) -> goodMap m ->
    goodMap (fold_left (fun m (e : nat * nat * subst) =>
      let '(u, v, s) := e in
      match s with
      | TVar w => if nam D w =? nam D v then touch u m else setRepl u v (Repl (EVar 0 w) [w]) m
      | TConst z => match literal (ty D v) z with
                    | Some (t, z) => setRepl u v (Repl (EConst 0 t z) []) m
                    | None => touch u m
                    end
      end) l m)).
  { induction l as [| [[u v] s] l IH]; intros m HL G; cbn [fold_left]; [assumption |].
    apply IH; [intros x H; apply HL; right; assumption |].
    assert (I0 : In (u, v, s) (direct F)) by (apply HL; left; reflexivity).
    assert (N := FSw1 _ _ _ I0). destruct (FLoc _ _ _ I0) as [L1 L2].
    destruct s as [w | z].
    - destruct (nam D w =? nam D v); [apply touch_good; assumption |]. apply setRepl_good; [assumption | assumption |].
      split.
      + split; [reflexivity | split; [exact L2 | split; [| exact L1]]]. cbn [rText refsE rAccess]. apply incl_refl.
      + intros ev [[T _] (F1 & _ & _)] E. subst u. cbn [rText eval].
        specialize (F1 v w I0). destruct (T v) as [zv Ev]. destruct (T w) as [zw Ew].
        rewrite Ev, Ew in *. cbn [word] in F1. subst zw. f_equal. symmetry. eapply FSign; eassumption.
    - assert (C := literal_ok _ _ (FConst _ _ _ I0)). destruct (literal (ty D v) z) as [[t z'] |].
      + destruct C as [-> ->]. apply setRepl_good; [assumption | assumption |]. split.
        * split; [reflexivity | split; [reflexivity | split; [| exact L1]]]. intros x [].
        * intros ev [[T _] (_ & F2 & _)] E. subst u. cbn [rText eval]. specialize (F2 v z I0).
          destruct (T v) as [zv Ev]. rewrite Ev in *. cbn [word] in F2. subst. reflexivity.
      + apply touch_good; assumption. }
  apply K; [apply incl_refl |]. intros u l [].
Qed.

(** ** Right-hand sides *)
Lemma scanRefs_true : forall av refs seen refs' seen',
  scanRefs av refs seen = (true, refs', seen') ->
  incl refs av /\ incl refs seen' /\ incl seen seen'.
Proof.
  intros av refs. induction refs as [| d refs IH]; intros seen refs' seen' H; cbn [scanRefs] in H.
  - inversion H; subst. split; [intros x [] | split; [intros x [] | apply incl_refl]].
  - destruct (existsb (Nat.eqb d) av) eqn:E; [| discriminate].
    apply existsb_exists in E as (d' & E1 & E2). apply Nat.eqb_eq in E2; subst d'.
    apply IH in H as (H1 & H2 & H3). split; [| split].
    + intros x [-> | Q]; auto.
    + intros x [-> | Q]; [apply H3; left; reflexivity | auto].
    + intros x Q. apply H3. right; assumption.
Qed.
Hypothesis AUniq : forall v r v' r', In (v, r) A -> In (v', r') A -> locR r = locR r' -> r = r' /\ ty D v = ty D v'.
Hypothesis FHold : forall dl us u op hs c, In (dl, us) (defs F) -> In u us -> In (op, hs) (uHold u) -> In c hs -> isLocal D c = true.
Hypothesis FCall : forall dl us u v l f a, In (dl, us) (defs F) -> In u us -> In (v, RCall l f a) A -> l = dl ->
     exists ro nt hs, In (OCall ro nt, hs) (uHold u) /\ badCall (OCall ro nt) = true.
Hypothesis FFun : forall dl us u f hs, In (dl, us) (defs F) -> In u us -> In (OFun f, hs) (uHold u) -> exists b, knd D f = KFun b.
Hypothesis CMem : forall v r us, In (v, r) A -> In (locR r, us) (defs F) -> pureR D r = true.
Hypothesis CUses : forall dl us, In (dl, us) (defs F) -> length us <= 1.
Hypothesis FSw2 : forall dl us u, In (dl, us) (defs F) -> In u us -> ~ In (uLoc u) SW.
Hypothesis CInc : forall v l d us, In (v, RInc l d) A -> ~ In (l, us) (defs F).
Hypothesis CConv : forall v r us u c, In (v, r) A -> In (locR r, us) (defs F) -> In u us -> In c (candidates u) ->
     ty D v = tyE D M (textR r) /\ ty D c = tyE D M (textR r).
Hypothesis COps : forall v r us u d op hs, In (v, r) A -> In (locR r, us) (defs F) -> In u us ->
     In d (refsR r) -> In (op, hs) (uHold u) -> In d hs -> op = OVar d.

Lemma cand_self : forall u c, In c (candidates u) -> exists hs, In (OSelf, hs) (uHold u) /\ In c hs.
Proof.
  intros u c H. unfold candidates in H. apply in_flat_map in H as ([op hs] & H1 & H2). cbn [fst snd] in H2.
  destruct op; try contradiction. eauto.
Qed.
Lemma local_available : forall dl us u d, In (dl, us) (defs F) -> In u us -> isLocal D d = true -> In d (available D u) ->
  exists op hs, In (op, hs) (uHold u) /\ In d hs.
Proof.
  intros dl us u d I1 I2 L H. unfold available in H. destruct (candidates u); [contradiction |].
  destruct (existsb _ (uHold u)); [contradiction |]. apply in_flat_map in H as ([op hs] & H1 & H2). cbn [fst snd] in H2.
  destruct op as [| a | k | g | f | ro nt]; try (exists OSelf, hs; split; assumption); try (eexists _, hs; split; eassumption).
  - exfalso. unfold isLocal in L. destruct (knd D g) as [| [] |] eqn:E; try contradiction. destruct H2 as [-> | []].
    rewrite E in L. discriminate.
  - exfalso. destruct H2 as [-> | []]. destruct (FFun _ _ _ _ _ I1 I2 H1) as [b E]. unfold isLocal in L. rewrite E in L. discriminate.
Qed.
Lemma rhs_repl : forall v r us u c seen, In (v, r) A -> In (locR r, us) (defs F) -> In u us -> In c (candidates u) ->
  incl (refsR r) (available D u) -> incl (refsR r) seen -> goodRepl (uLoc u) c (Repl (textR r) seen).
Proof.
  intros v r us u c seen IA ID IU IC HA HS.
  destruct (cand_self _ _ IC) as (hc & Hc1 & Hc2).
  destruct r as [e | l d | l f a]; cbn [textR refsR locR] in *.
  - assert (PE := CMem _ _ _ IA ID). cbn [pureR] in PE. split.
    { split; [apply source_noPre; exact (ASrc _ _ IA) | split; [exact PE | split; [exact HS | eapply FHold; eassumption]]]. }
    intros ev [[T G] (_ & _ & FD)] EL. cbn [rText].
    destruct (FD _ _ _ ID IU (eq_sym EL)) as (o & EO & HO).
    destruct (G _ _ EO) as (v' & IA' & EL' & TB & EV).
    destruct (AUniq _ _ _ _ IA' IA EL') as [ER ET]. rewrite ER in *.
    assert (SE := ASrc _ _ IA). cbn [sourceR] in SE.
    destruct (source_typed (oBefore o) e TB SE) as [z EZ].
    destruct (CConv _ _ _ _ _ IA ID IU IC) as [T1 T2]. cbn [textR] in T1, T2.
    rewrite ET, EZ, T1, conv_same in EV.
    assert (H1 := HO _ _ _ Hc1 Hc2). cbn [holdsOp] in H1. rewrite EV in H1.
    destruct (T c) as [zc Ec]. rewrite Ec in *. cbn [word] in H1. subst zc. rewrite T2, <- EZ.
    apply eval_pure; [assumption |]. intros d Hd Ld.
    destruct (local_available _ _ _ _ ID IU Ld (HA _ Hd)) as (op & hs & Q1 & Q2).
    assert (op = OVar d) by exact (COps _ _ _ _ _ _ _ IA ID IU Hd Q1 Q2). subst op.
    assert (H2 := HO _ _ _ Q1 Q2). cbn [holdsOp] in H2.
    destruct (T d) as [z1 E1]. destruct (TB d) as [z2 E2]. rewrite E1, E2 in *. cbn [word] in H2. congruence.
  - exfalso. eapply CInc; eassumption.
  - exfalso. destruct (FCall _ _ _ _ _ _ _ ID IU IA eq_refl) as (ro & nt & hs & Q1 & Q2).
    assert (Hf := HA f (or_introl eq_refl)). unfold available in Hf.
    destruct (candidates u); [contradiction |].
    assert (Q : existsb (fun e => badCall (fst e)) (uHold u) = true).
    { apply existsb_exists. eexists; split; [exact Q1 | exact Q2]. }
    rewrite Q in Hf. contradiction.
Qed.
Lemma afterRHS_good : forall v r m, In (v, r) A -> goodMap m -> goodMap (afterRHS D F r m).
Proof.
  intros v r m IA G. unfold afterRHS. destruct (lookup (locR r) (defs F)) as [us |] eqn:E; [| assumption].
  apply lookup_in in E. assert (LU := CUses _ _ E). unfold checkRHS.
  destruct us as [| u [| u' us]]; [assumption | | cbn [length] in LU; lia].
  cbn [checkUses]. destruct (scanRefs (available D u) (refsR r) []) as [[b refs] seen] eqn:SR. cbn [andb].
  destruct b; [| assumption]. apply scanRefs_true in SR as (S1 & S2 & _).
  assert (IU : In u [u]) by (left; reflexivity). assert (N := FSw2 _ _ _ E IU).
  assert (K : forall cs m, incl cs (candidates u) -> goodMap m ->
    goodMap (fold_left (fun m c => if existsb (Nat.eqb c) seen then m else setRepl (uLoc u) c (Repl (textR r) seen) m) cs m)).
  { induction cs as [| c cs IH]; intros m0 HC G0; cbn [fold_left]; [assumption |].
    apply IH; [intros x H; apply HC; right; assumption |].
    destruct (existsb (Nat.eqb c) seen); [assumption |]. apply setRepl_good; [assumption | assumption |].
    eapply rhs_repl; try eassumption. apply HC; left; reflexivity. }
  apply K; [apply incl_refl | apply touch_good; assumption].
Qed.

(** ** Names *)
Variable PRM : list nat.
Variable DC : list (nat * rhs).
Definition visOk (vis : list nat) : Prop := forall d, In d vis -> In d PRM \/ exists r, In (d, r) DC.
Hypothesis CShadow : forall d g, (In d PRM \/ exists r, In (d, r) DC) -> isLocal D g = false -> nam D d <> nam D g.
Definition scopeOk (vis scope : list nat) : Prop :=
  scope = vis \/ exists v, scope = v :: vis /\ forall d, nam D d = nam D v -> d = v.
Lemma resolve_id : forall vis scope d, visOk vis -> scopeOk vis scope -> accessible D vis d = true -> resolve D scope d = Some d.
Proof.
  intros vis scope d V SC H.
  assert (K : resolve D vis d = Some d).
  { unfold accessible in H. unfold resolve. destruct (visTop D vis (nam D d)) as [x |] eqn:E.
    - apply orb_true_iff in H as [H | H]; [apply Nat.eqb_eq in H; subst; reflexivity |].
      exfalso. apply find_some in E as [E1 E2]. apply Nat.eqb_eq in E2.
      unfold isOutermost in H. apply negb_true_iff in H. exact (CShadow x d (V _ E1) H E2).
    - cbn [orb] in H. unfold isOutermost in H. apply negb_true_iff in H. rewrite H. reflexivity. }
  destruct SC as [-> | (v & -> & U)]; [assumption |].
  unfold resolve, visTop in *. cbn [find]. destruct (nam D v =? nam D d) eqn:E; [| exact K].
  apply Nat.eqb_eq in E. f_equal. symmetry. apply U. symmetry. assumption.
Qed.
Lemma resolveE_id : forall vis scope e, visOk vis -> scopeOk vis scope ->
  (forall d, In d (refsE e) -> accessible D vis d = true) -> resolveE D scope e = e.
Proof.
  intros vis scope e V SC. induction e as [l t z | l d | l f a IHa b IHb | l f a IHa | l d |]; cbn [refsE resolveE]; intros H; try reflexivity.
  - rewrite (resolve_id vis); auto. apply H; left; reflexivity.
  - rewrite IHa, IHb; [reflexivity | intros d Q; apply H, in_or_app; right; assumption | intros d Q; apply H, in_or_app; left; assumption].
  - rewrite (resolve_id vis); auto; [| apply H; left; reflexivity]. rewrite IHa; [reflexivity | intros d Q; apply H; right; assumption].
  - rewrite (resolve_id vis); auto. apply H; left; reflexivity.
Qed.

(** ** Expressions *)
Definition seen (st : state) (l : nat) : Prop := exists gh, good (Event l st gh).
Definition topOk (st : state) (top : option (list (nat * repl))) : Prop :=
  forall l v r, top = Some l -> In (v, r) l -> staticOk v r /\ eval D M st (rText r) = st v.
Lemma enter_ok : forall m l st top, goodMap m -> seen st l -> topOk st top -> topOk st (enter m l top).
Proof.
  intros m l st top G [gh S0] T. unfold enter. destruct (lookup l m) as [es |] eqn:E; [| assumption].
  apply lookup_in in E. intros l' v r Q I0. inversion Q; subst l'. destruct (proj2 (G _ _ E) _ _ I0) as [S1 S2].
  split; [assumption |]. exact (S2 _ S0 eq_refl).
Qed.
Lemma trE_ok : forall m vis scope st e top, goodMap m -> visOk vis -> scopeOk vis scope ->
  (forall l, In l (locsE e) -> seen st l) -> topOk st top ->
  eval D M st (trE D m vis scope top e) = eval D M st e.
Proof.
  intros m vis scope st e. induction e as [l t z | l d | l f a IHa b IHb | l f a IHa | l d |]; intros top G V SC HS T; cbn [trE locsE] in *; try reflexivity.
  - assert (T' := enter_ok m l st top G (HS l (or_introl eq_refl)) T).
    unfold visitRef. destruct (enter m l top) as [es |]; [| reflexivity].
    destruct (active D d); [| reflexivity]. destruct (lookup d es) as [r |] eqn:E; [| reflexivity].
    apply lookup_in in E. destruct (T' _ _ _ eq_refl E) as [(S0 & S1 & S2 & S3) S4].
    destruct (forallb (accessible D vis) (rAccess r)) eqn:FA; [| reflexivity].
    rewrite forallb_forall in FA. rewrite (resolveE_id vis); auto.
  - assert (T' := enter_ok m l st top G (HS l (or_introl eq_refl)) T). cbn [eval].
    rewrite IHa, IHb; auto; intros x Q; apply HS; right; apply in_or_app; auto.
  - assert (T' := enter_ok m l st top G (HS l (or_introl eq_refl)) T). cbn [eval].
    rewrite IHa; auto. intros x Q; apply HS; right; assumption.
Qed.

Definition topStat (top : option (list (nat * repl))) : Prop :=
  forall l v r, top = Some l -> In (v, r) l -> staticOk v r.
Lemma enter_stat : forall m l top, goodMap m -> topStat top -> topStat (enter m l top).
Proof.
  intros m l top G T. unfold enter. destruct (lookup l m) as [es |] eqn:E; [| assumption].
  apply lookup_in in E. intros l' v r Q I0. inversion Q; subst l'. exact (proj1 (proj2 (G _ _ E) _ _ I0)).
Qed.
Lemma resolveE_noPre : forall scope e, noPre e = true -> noPre (resolveE D scope e) = true.
Proof.
  intros scope. induction e as [l t z | l d | l f a IHa b IHb | l f a IHa | l d |]; cbn [noPre resolveE]; intros H; try reflexivity; try discriminate.
  - destruct (resolve D scope d); reflexivity.
  - apply andb_true_iff in H as [H1 H2]. cbn [noPre]. rewrite IHa, IHb; auto.
  - destruct (resolve D scope f); [cbn [noPre]; auto | reflexivity].
Qed.
Lemma trE_noPre : forall m vis scope e top, goodMap m -> topStat top -> noPre e = true ->
  noPre (trE D m vis scope top e) = true.
Proof.
  intros m vis scope. induction e as [l t z | l d | l f a IHa b IHb | l f a IHa | l d |]; intros top G T H; cbn [trE noPre] in *; try reflexivity; try discriminate.
  - assert (T' := enter_stat m l top G T). unfold visitRef. destruct (enter m l top) as [es |]; [| reflexivity].
    destruct (active D d); [| reflexivity]. destruct (lookup d es) as [r |] eqn:E; [| reflexivity].
    apply lookup_in in E. destruct (T' _ _ _ eq_refl E) as (S0 & _).
    destruct (forallb (accessible D vis) (rAccess r)); [| reflexivity]. apply resolveE_noPre; assumption.
  - apply andb_true_iff in H as [H1 H2]. rewrite IHa, IHb; auto using enter_stat.
  - auto using enter_stat.
Qed.

(** ** Statements *)
Definition locsR (r : rhs) : list nat := match r with RExpr e => locsE e | RInc _ _ => [] | RCall l _ a => l :: locsE a end.
(** [ok] describes a state in which a right-hand side is evaluated *)
Definition simR (ok : state -> Prop) (r r' : rhs) : Prop :=
  match r, r' with
  | RExpr e, RExpr e' => noPre e = true /\ noPre e' = true /\ forall st, ok st -> (forall l, In l (locsE e) -> seen st l) -> eval D M st e' = eval D M st e
  | RInc l d, RInc l' d' => d = d'
  | RCall l f a, RCall l' f' a' => f = f' /\ noPre a = true /\ noPre a' = true /\ forall st, ok st -> (forall x, In x (l :: locsE a) -> seen st x) -> eval D M st a' = eval D M st a
  | _, _ => False
  end.
Definition simE (e e' : expr) : Prop := noPre e = true /\ noPre e' = true /\ forall st, (forall l, In l (locsE e) -> seen st l) -> eval D M st e' = eval D M st e.
(** A store is executed in a state with the same local variables *)
Definition near (r : rhs) (l : nat) (st : state) : Prop :=
  exists st', seen st' l /\ (match r with RInc _ _ => True | _ => forall d, isLocal D d = true -> st d = st' d end).
Inductive simS : stmt -> stmt -> Prop :=
| MAssign v r r' : simR (fun _ => True) r r' -> simS (SAssign v r) (SAssign v r')
| MStore l g r r' : simR (near r l) r r' -> simS (SStore l g r) (SStore l g r')
| MDecl v r r' : simR (fun _ => True) r r' -> simS (SDecl v r) (SDecl v r')
| MEff r r' : simR (fun _ => True) r r' -> simS (SEff r) (SEff r')
| MIf c c' t t' f f' : simE c c' -> Forall2 simS t t' -> Forall2 simS f f' -> simS (SIf c t f) (SIf c' t' f')
| MWhile c c' b b' : simE c c' -> Forall2 simS b b' -> simS (SWhile c b) (SWhile c' b')
| MSwitch l c c' k b b' : simE c c' -> Forall2 simS b b' -> simS (SSwitch l c k b) (SSwitch l c' k b').

Lemma topNone : forall st, topOk st None.
Proof. intros st l v r H. discriminate. Qed.
Lemma statNone : topStat None.
Proof. intros l v r H. discriminate. Qed.
Lemma trE_sim : forall m vis scope e, goodMap m -> visOk vis -> scopeOk vis scope -> sourceE e = true ->
  simE e (trE D m vis scope None e).
Proof.
  intros m vis scope e G V SC H. split; [apply source_noPre; assumption |].
  split; [apply trE_noPre; auto using statNone, source_noPre |]. intros st HS. apply trE_ok; auto using topNone.
Qed.
Lemma trR_sim : forall m vis scope r, sourceR r = true -> goodMap m -> visOk vis -> scopeOk vis scope ->
  simR (fun _ => True) r (trR D m vis scope None r).
Proof.
  intros m vis scope r SR G V SC. destruct r as [e | l d | l f a]; cbn [trR simR sourceR] in *.
  - split; [apply source_noPre; assumption | split; [apply trE_noPre; auto using statNone, source_noPre |]].
    intros st _ HS. apply trE_ok; auto using topNone.
  - reflexivity.
  - split; [reflexivity | split; [apply source_noPre; assumption | split; [apply trE_noPre; auto using enter_stat, statNone, source_noPre |]]].
    intros st _ HS. apply trE_ok; auto.
    + intros x Q; apply HS; right; assumption.
    + apply enter_ok; [assumption | apply HS; left; reflexivity | apply topNone].
Qed.
Lemma near_top : forall m l r st, goodMap m -> near r l st -> match r with RInc _ _ => True | _ => topOk st (enter m l None) end.
Proof.
  intros m l r st G (st' & S0 & H). assert (T := enter_ok m l st' None G S0 (topNone st')).
  assert (K : (forall d, isLocal D d = true -> st d = st' d) -> topOk st (enter m l None)).
  { clear H. intros H es v rp E I0. destruct (T es v rp E I0) as [(S0' & S1 & S2 & S3) S4]. split; [split; auto |].
    rewrite (H v S3), <- S4. apply eval_pure; [assumption |]. intros d _ L. auto. }
  destruct r; auto.
Qed.
Lemma trR_store : forall m vis scope l r, sourceR r = true -> goodMap m -> visOk vis -> scopeOk vis scope ->
  simR (near r l) r (trR D m vis scope (enter m l None) r).
Proof.
  intros m vis scope l r SR G V SC. destruct r as [e | l' d | l' f a]; cbn [trR simR sourceR] in *.
  - split; [apply source_noPre; assumption | split; [apply trE_noPre; auto using enter_stat, statNone, source_noPre |]].
    intros st N HS. apply (near_top m) in N; [| assumption]. apply trE_ok; auto.
  - reflexivity.
  - split; [reflexivity | split; [apply source_noPre; assumption | split; [apply trE_noPre; auto using enter_stat, statNone, source_noPre |]]].
    intros st N HS. apply (near_top m) in N; [| assumption]. apply trE_ok; auto.
    + intros x Q; apply HS; right; assumption.
    + apply enter_ok; [assumption | apply HS; left; reflexivity | assumption].
Qed.

Fixpoint size (s : stmt) : nat :=
  match s with
  | SIf _ t f => S (list_sum (map size t) + list_sum (map size f))
  | SWhile _ b | SSwitch _ _ _ b => S (list_sum (map size b))
  | _ => 1
  end.
Hypothesis CInit : forall v r us d, In (v, r) DC -> In (locR r, us) (defs F) -> nam D d = nam D v -> d = v.

Lemma trS_if : forall top c t f m vis, trS D F top (SIf c t f) m vis =
  (let '(t', m1, _) := trL D F top t m vis in let '(f', m2, _) := trL D F top f m1 vis in
   (SIf (trE D m vis vis top c) t' f', m2, vis)).
Proof. reflexivity. Qed.
Lemma trS_while : forall top c b m vis, trS D F top (SWhile c b) m vis =
  (let '(b', m1, _) := trL D F top b m vis in (SWhile (trE D m vis vis top c) b', m1, vis)).
Proof. reflexivity. Qed.
Lemma trS_switch : forall top l c k b m vis, trS D F top (SSwitch l c k b) m vis =
  (let '(b', m1, _) := trL D F (enter m l top) b m vis in (SSwitch l (trE D m vis vis (enter m l top) c) k b', m1, vis)).
Proof. reflexivity. Qed.

Lemma tr_sim : forall n p m vis, list_sum (map size p) < n ->
  incl (flat_map assigns p) A -> (forall e, In e (flat_map exprs p) -> sourceE e = true) -> incl (flat_map declared p) DC -> incl (flat_map switches p) SW -> goodMap m -> visOk vis ->
  forall p' m' vis', trL D F None p m vis = (p', m', vis') -> Forall2 simS p p' /\ goodMap m' /\ visOk vis'.
Proof.
  induction n as [| n IH]; intros p m vis HN HA HX HD HW G V p' m' vis' E; [lia |].
  destruct p as [| s p]; cbn [trL] in E.
  { inversion E; subst. split; [constructor | split; assumption]. }
  destruct (trS D F None s m vis) as [[s' m1] vis1] eqn:ES. destruct (trL D F None p m1 vis1) as [[p1 m2] vis2] eqn:EL.
  inversion E; subst; clear E. cbn [flat_map map list_sum fold_right] in *. fold (list_sum (map size p)) in HN.
  assert (HsA : incl (assigns s) A) by (intros x H; apply HA, in_or_app; left; assumption).
  assert (HsD : incl (declared s) DC) by (intros x H; apply HD, in_or_app; left; assumption).
  assert (HsW : incl (switches s) SW) by (intros x H; apply HW, in_or_app; left; assumption).
  assert (HpA : incl (flat_map assigns p) A) by (intros x H; apply HA, in_or_app; right; assumption).
  assert (HpD : incl (flat_map declared p) DC) by (intros x H; apply HD, in_or_app; right; assumption).
  assert (HpW : incl (flat_map switches p) SW) by (intros x H; apply HW, in_or_app; right; assumption).
  assert (HsX : forall e, In e (exprs s) -> sourceE e = true) by (intros e H; apply HX, in_or_app; left; assumption).
  assert (HpX : forall e, In e (flat_map exprs p) -> sourceE e = true) by (intros e H; apply HX, in_or_app; right; assumption).
  assert (SRX : forall r, (forall e, In e (exprsR r) -> sourceE e = true) -> sourceR r = true).
  { intros r H. destruct r as [e | l d | l f a]; cbn [exprsR sourceR] in *; [apply H; left; reflexivity | reflexivity | apply H; left; reflexivity]. }
  assert (SP : 1 <= size s) by (destruct s; cbn [size]; lia).
  assert (K : simS s s' /\ goodMap m1 /\ visOk vis1).
  { assert (SC : scopeOk vis vis) by (left; reflexivity).
    destruct s as [v r | l g r | v r | r | c t f | c b | l c k b]; cbn [assigns declared switches exprs] in *.
    - cbn [trS] in ES. inversion ES; subst. split; [constructor; apply trR_sim; auto |].
      split; [| assumption]. eapply afterRHS_good; [apply HsA; left; reflexivity | assumption].
    - cbn [trS] in ES. inversion ES; subst. split; [constructor; apply trR_store; auto |].
      split; [| assumption]. eapply afterRHS_good; [apply HsA; left; reflexivity | assumption].
    - assert (V1 : visOk (v :: vis)).
      { intros d [<- | H]; [right; exists r; apply HsD; left; reflexivity | apply V; assumption]. }
      cbn [trS] in ES. destruct (lookup (locR r) (defs F)) as [us |] eqn:EU; inversion ES; subst.
      + split; [| split; [eapply afterRHS_good; [apply HsA; left; reflexivity | assumption] | assumption]].
        constructor. apply trR_sim; [auto | assumption | assumption |]. right. exists v. split; [reflexivity |].
        intros d Q. apply lookup_in in EU. eapply CInit; [apply HsD; left; reflexivity | eassumption | assumption].
      + split; [| split; assumption]. constructor. apply trR_sim; [auto | assumption | assumption | left; reflexivity].
    - cbn [trS] in ES. inversion ES; subst. split; [constructor; apply trR_sim; auto | split; assumption].
    - rewrite trS_if in ES. cbn [size] in HN.
      destruct (trL D F None t m vis) as [[t' mt] vt] eqn:ET. destruct (trL D F None f mt vis) as [[f' mf] vf] eqn:EF.
      inversion ES; subst.
      destruct (IH t m vis1 ltac:(lia)) with (p' := t') (m' := mt) (vis' := vt) as (R1 & R2 & R3); auto.
      { intros x H; apply HsA, in_or_app; left; assumption. } { intros x H; apply HsX; right; apply in_or_app; left; assumption. } { intros x H; apply HsD, in_or_app; left; assumption. }
      { intros x H; apply HsW, in_or_app; left; assumption. }
      destruct (IH f mt vis1 ltac:(lia)) with (p' := f') (m' := m1) (vis' := vf) as (Q1 & Q2 & Q3); auto.
      { intros x H; apply HsA, in_or_app; right; assumption. } { intros x H; apply HsX; right; apply in_or_app; right; assumption. } { intros x H; apply HsD, in_or_app; right; assumption. }
      { intros x H; apply HsW, in_or_app; right; assumption. }
      split; [| split; assumption]. constructor; [| assumption | assumption].
      apply trE_sim; auto. apply HsX; left; reflexivity.
    - rewrite trS_while in ES. cbn [size] in HN.
      destruct (trL D F None b m vis) as [[b' mb] vb] eqn:EB. inversion ES; subst.
      destruct (IH b m vis1 ltac:(lia)) with (p' := b') (m' := m1) (vis' := vb) as (R1 & R2 & R3); auto.
      { intros x H; apply HsX; right; assumption. }
      split; [| split; assumption]. constructor; [| assumption]. apply trE_sim; auto. apply HsX; left; reflexivity.
    - rewrite trS_switch in ES. cbn [size] in HN.
      assert (EN : enter m l None = None).
      { unfold enter. destruct (lookup l m) as [es |] eqn:EE; [| reflexivity]. apply lookup_in in EE.
        exfalso. apply (proj1 (G _ _ EE)), HsW. left; reflexivity. }
      rewrite EN in ES.
      destruct (trL D F None b m vis) as [[b' mb] vb] eqn:EB. inversion ES; subst.
      destruct (IH b m vis1 ltac:(lia)) with (p' := b') (m' := m1) (vis' := vb) as (R1 & R2 & R3); auto.
      { intros x H; apply HsX; right; assumption. } { intros x H; apply HsW; right; assumption. }
      split; [| split; assumption]. constructor; [| assumption]. apply trE_sim; auto. apply HsX; left; reflexivity. }
  destruct K as (K1 & K2 & K3).
  destruct (IH p m1 vis1 ltac:(lia) HpA HpX HpD HpW K2 K3 _ _ _ EL) as (R1 & R2 & R3).
  split; [constructor; assumption | split; assumption].
Qed.

(** ** Executions *)
Definition wEq (w w' : world) : Prop := vs w = vs w' /\ calls w = calls w'.
Definition allSeen (evs : list event) : Prop := forall ev, In ev evs -> good ev.
Lemma seen_events : forall w ls, allSeen (events w ls) -> forall l, In l ls -> seen (vs w) l.
Proof.
  intros w ls H l I0. exists (ghost w). apply H. apply in_map_iff. exists l. split; [reflexivity | assumption].
Qed.
Lemma runR_sim : forall ok r r' w w', simR ok r r' -> wEq w w' -> ok (vs w) ->
  forall x w1 evs, runR D M w r = (x, w1, evs) -> allSeen evs ->
  exists w1' evs', runR D M w' r' = (x, w1', evs') /\ wEq w1 w1'.
Proof.
  intros ok r r' w w' HR [E1 E2] HO x w1 evs E HS.
  destruct r as [e | l d | l f a]; destruct r' as [e' | l' d' | l' f' a']; cbn [simR] in HR; try contradiction;
    cbn [runR] in *; injection E as <- <- <-; try subst d'.
  - destruct HR as (N1 & N2 & HR). rewrite (effects_noPre w e N1), (effects_noPre w' e' N2).
    rewrite <- E1, HR; [| assumption | intros l I0; eapply seen_events; eassumption].
    eexists _, _. split; [reflexivity | split; assumption].
  - rewrite <- E1, <- E2. eexists _, _. split; [reflexivity | split; reflexivity].
  - destruct HR as (-> & N1 & N2 & HR). rewrite (after_noPre (vs w) a N1), (effects_noPre w' a' N2). rewrite <- E1, <- E2, HR; [| assumption | intros y I0; exact (seen_events w (l :: locsE a) HS y I0)].
    eexists _, _. split; [reflexivity | split; reflexivity].
Qed.
Lemma assign_sim : forall ok v r r' w w', simR ok r r' -> wEq w w' -> ok (vs w) ->
  forall w1 evs, assign D M w v r = (w1, evs) -> allSeen evs ->
  exists w1' evs', assign D M w' v r' = (w1', evs') /\ wEq w1 w1'.
Proof.
  intros ok v r r' w w' HR HE HO w1 evs E HS. unfold assign in *.
  destruct (runR D M w r) as [[x w2] ev2] eqn:R. inversion E; subst; clear E.
  destruct (runR_sim ok r r' w w' HR HE HO _ _ _ R HS) as (w2' & ev2' & R' & [Q1 Q2]). rewrite R'.
  eexists _, _. split; [reflexivity |]. split; cbn [vs calls]; [rewrite Q1; reflexivity | assumption].
Qed.
Lemma near_run : forall ok r' w r x w1 evs l, simR ok r r' -> runR D M w r = (x, w1, evs) -> allSeen (events w1 [l]) -> near r l (vs w).
Proof.
  intros ok r' w r x w1 evs l SR R HS. exists (vs w1). split; [eapply seen_events; [exact HS | left; reflexivity] |].
  destruct r as [e | l' d | l' f a]; destruct r' as [e' | l'' d' | l'' f' a']; cbn [simR] in SR; try contradiction;
    cbn [runR] in R; injection R as <- <- <-; auto.
  { rewrite effects_noPre by apply SR. reflexivity. }
  intros d L. cbn [vs]. rewrite after_noPre by apply SR. unfold isLocal in L. destruct (knd D d); try discriminate. reflexivity.
Qed.
Lemma allSeen_app : forall a b, allSeen (a ++ b) -> allSeen a /\ allSeen b.
Proof. intros a b H. split; intros ev Q; apply H, in_or_app; auto. Qed.

Definition agree (o o' : option world * list event) : Prop :=
  match fst o, fst o' with Some w, Some w' => wEq w w' | None, None => True | _, _ => False end.
Lemma exec_sim : forall n p p' w w', Forall2 simS p p' -> wEq w w' -> allSeen (snd (exec D M n p w)) ->
  agree (exec D M n p w) (exec D M n p' w').
Proof.
  induction n as [| n IH]; intros p p' w w' HP HE HS; [exact Logic.I |].
  destruct HP as [| s s' p p' HM HP]; [exact HE |].
  cbn [exec] in *.
  match goal with |- agree (let '(o, evs) := ?X in _) (let '(o', evs') := ?Y in _) => set (O1 := X) in *; set (O2 := Y) end.
  assert (HS1 : allSeen (snd O1)).
  { destruct O1 as [[w1 |] e1]; cbn [snd] in *; [| assumption]. destruct (exec D M n p w1). cbn [snd] in HS. apply allSeen_app in HS. apply HS. }
  assert (K : agree O1 O2).
  { clear HS. revert HS1. unfold O1, O2; clear O1 O2. inversion HM; subst; intros HS; unfold agree.
    - destruct (assign D M w v r) as [w1 e1] eqn:R. cbn [snd] in HS.
      destruct (assign_sim _ v r r' w w' H HE Logic.I _ _ R HS) as (w1' & e1' & R' & Q). rewrite R'. exact Q.
    - destruct (runR D M w r) as [[x w0] e0] eqn:R0. destruct (assign D M w g r) as [w1 e1] eqn:R. cbn [snd] in HS.
      apply allSeen_app in HS as [HS1 HS2].
      assert (N := near_run _ _ _ _ _ _ _ _ H R0 HS2).
      destruct (assign_sim _ g r r' w w' H HE N _ _ R HS1) as (w1' & e1' & R' & Q).
      destruct (runR D M w' r') as [[x' w0'] e0']. rewrite R'. exact Q.
    - destruct (assign D M w v r) as [w1 e1] eqn:R. cbn [snd] in HS.
      destruct (assign_sim _ v r r' w w' H HE Logic.I _ _ R HS) as (w1' & e1' & R' & Q). rewrite R'. exact Q.
    - destruct (runR D M w r) as [[x w1] e1] eqn:R. cbn [snd] in HS.
      destruct (runR_sim _ r r' w w' H HE Logic.I _ _ _ R HS) as (w1' & e1' & R' & Q). rewrite R'. exact Q.
    - destruct H as (N1 & N2 & H). rewrite (effects_noPre w c N1) in HS |- *. rewrite (effects_noPre w' c' N2).
      set (q := if isTrue (eval D M (vs w) c) then t else f) in *.
      destruct (exec D M n q w) as [o e1] eqn:R. cbn [snd] in HS. apply allSeen_app in HS as [S1 S2].
      assert (EC : eval D M (vs w') c' = eval D M (vs w) c).
      { rewrite <- (proj1 HE). apply H. intros l I0. eapply seen_events; eassumption. }
      rewrite EC. set (q' := if isTrue (eval D M (vs w) c) then t' else f').
      assert (Q : Forall2 simS q q') by (unfold q, q'; destruct (isTrue _); assumption).
      specialize (IH q q' w w' Q HE). rewrite R in IH. cbn [snd] in IH. specialize (IH S2). unfold agree in IH.
      destruct (exec D M n q' w') as [o' e1']. exact IH.
    - destruct H as (N1 & N2 & H). rewrite (effects_noPre w c N1) in HS |- *. rewrite (effects_noPre w' c' N2).
      assert (S0 : allSeen (events w (locsE c))).
      { destruct (isTrue (eval D M (vs w) c)); [| exact HS]. destruct (exec D M n (b ++ [SWhile c b]) w). cbn [snd] in HS. apply allSeen_app in HS. apply HS. }
      assert (EC : eval D M (vs w') c' = eval D M (vs w) c).
      { rewrite <- (proj1 HE). apply H. intros l I0. eapply seen_events; eassumption. }
      rewrite EC. destruct (isTrue (eval D M (vs w) c)); [| exact HE].
      assert (Q : Forall2 simS (b ++ [SWhile c b]) (b' ++ [SWhile c' b'])).
      { apply Forall2_app; [assumption |]. constructor; [constructor; [split; [| split]; assumption | assumption] | constructor]. }
      specialize (IH _ _ w w' Q HE).
      destruct (exec D M n (b ++ [SWhile c b]) w) as [o e1]. cbn [snd] in IH, HS. apply allSeen_app in HS as [_ S2].
      specialize (IH S2). unfold agree in IH. destruct (exec D M n (b' ++ [SWhile c' b']) w') as [o' e1']. exact IH.
    - destruct H as (N1 & N2 & H). rewrite (effects_noPre w c N1) in HS |- *. rewrite (effects_noPre w' c' N2).
      assert (S0 : allSeen (events w (locsE c))).
      { destruct (Z.eqb _ k); [destruct (exec D M n b w); cbn [snd] in HS; apply allSeen_app in HS as [HS _] |];
          intros ev I0; apply HS; right; exact I0. }
      assert (EC : eval D M (vs w') c' = eval D M (vs w) c).
      { rewrite <- (proj1 HE). apply H. intros x I0. eapply seen_events; eassumption. }
      rewrite EC. destruct (Z.eqb _ k); [| exact HE].
      specialize (IH _ _ w w' H0 HE). destruct (exec D M n b w) as [o e1]. cbn [snd] in IH, HS. apply allSeen_app in HS as [_ S2].
      specialize (IH S2). unfold agree in IH. destruct (exec D M n b' w') as [o' e1']. exact IH. }
  destruct O1 as [o1 e1]. destruct O2 as [o2 e2]. unfold agree in K. cbn [fst snd] in *.
  destruct o1 as [w1 |]; destruct o2 as [w2 |]; try contradiction; [| exact Logic.I].
  specialize (IH p p' w1 w2 HP K). destruct (exec D M n p w1) as [o3 e3]. cbn [snd] in HS, IH.
  apply allSeen_app in HS as [_ HS]. specialize (IH HS). unfold agree in *. destruct (exec D M n p' w2) as [o4 e4]. exact IH.
Qed.
Lemma agree_result : forall o o', agree o o' -> result o' = result o.
Proof.
  intros o o' H. unfold agree, result in *. destruct (fst o) as [w |]; destruct (fst o') as [w' |]; try contradiction; try reflexivity.
  destruct H as [-> ->]. reflexivity.
Qed.
End P.

Definition allConds : conds := Conds true true true true true true true true true true.
Lemma C70_main : C70_claim allConds.
Proof.
  intros D M F params p s (W1 & W2 & W3 & W4 & W5 & W6) (F1 & F2 & F3 & F4 & F5) T
    (C1 & C2 & C3 & C4 & C5 & C6 & C7 & C8 & C9 & C10) HF n.
  specialize (C1 eq_refl). specialize (C2 eq_refl). specialize (C3 eq_refl). specialize (C4 eq_refl). specialize (C5 eq_refl).
  specialize (C6 eq_refl). specialize (C7 eq_refl). specialize (C8 eq_refl). specialize (C9 eq_refl). specialize (C10 eq_refl).
  assert (FS1 : forall u v s, In (u, v, s) (direct F) -> ~ In u (flat_map switches p)).
  { intros u v s0 H1 H2. exact (proj1 (C5 u H2) v s0 H1). }
  assert (FS2 : forall dl us u, In (dl, us) (defs F) -> In u us -> ~ In (uLoc u) (flat_map switches p)).
  { intros dl us u H1 H2 H3. exact (proj2 (C5 _ H3) dl us u H1 H2 eq_refl). }
  unfold propagate. destruct (trL D F None p (initMap D F) params) as [[p' m'] vis'] eqn:E. cbn [fst].
  assert (G0 : goodMap D M (flat_map assigns p) F (flat_map switches p) (initMap D F)) by (apply init_good; assumption).
  assert (V0 : visOk params (flat_map declared p) params) by (intros d H; left; assumption).
  edestruct (tr_sim D M (flat_map assigns p) W1 F (flat_map switches p)) with (PRM := params) (DC := flat_map declared p) (p := p) (p' := p')
    as (R & _ & _); try eassumption; try apply incl_refl; try (apply Nat.lt_succ_diag_r).
  apply agree_result. eapply exec_sim; [exact R | split; reflexivity |].
  intros ev H. split; [| eapply HF; exact H].
  refine (proj1 (exec_ok D M (flat_map assigns p) W1 n p (start s) (incl_refl _) _) ev H).
  split; [exact T | intros dl o Q; discriminate].
Qed.

(** ** Checks of examples *)
Section Mono.
Variable D : decls.
Variable M : meaning.
Lemma exec_more : forall n p w,
  (forall w', fst (exec D M n p w) = Some w' -> exec D M (S n) p w = exec D M n p w) /\
  incl (snd (exec D M n p w)) (snd (exec D M (S n) p w)).
Proof.
  induction n as [| n IH]; intros p w. { split; [discriminate | intros x []]. }
  destruct p as [| s p]. { split; [reflexivity | apply incl_refl]. }
  set (step := fun n => match s with
        | SAssign v r | SDecl v r => let '(w, evs) := assign D M w v r in (Some w, evs)
        | SStore l g r =>
          let '(_, w1, _) := runR D M w r in
          let '(w', evs) := assign D M w g r in (Some w', evs ++ events w1 [l])
        | SEff r => let '(_, w, evs) := runR D M w r in (Some w, evs)
        | SIf c t f => let '(o, evs) := exec D M n (if isTrue (eval D M (vs w) c) then t else f) (effects M w c) in
                       (o, events w (locsE c) ++ evs)
        | SWhile c b =>
          if isTrue (eval D M (vs w) c)
          then let '(o, evs) := exec D M n (b ++ [SWhile c b]) (effects M w c) in (o, events w (locsE c) ++ evs)
          else (Some (effects M w c), events w (locsE c))
        | SSwitch l c k b =>
          if Z.eqb (word (eval D M (vs w) c)) k
          then let '(o, evs) := exec D M n b (effects M w c) in (o, events w (l :: locsE c) ++ evs)
          else (Some (effects M w c), events w (l :: locsE c))
        end).
  change (exec D M (S n) (s :: p) w) with
    (let '(o, evs) := step n in match o with None => (None, evs) | Some w => let '(o, evs') := exec D M n p w in (o, evs ++ evs') end).
  change (exec D M (S (S n)) (s :: p) w) with
    (let '(o, evs) := step (S n) in match o with None => (None, evs) | Some w => let '(o, evs') := exec D M (S n) p w in (o, evs ++ evs') end).
  assert (HS : (forall w', fst (step n) = Some w' -> step (S n) = step n) /\ incl (snd (step n)) (snd (step (S n)))).
  { unfold step; clear step. 
    assert (Q : forall b w0 pre, 
      (forall w', fst (let '(o, evs) := exec D M n b w0 in (o, pre ++ evs)) = Some w' ->
        (let '(o, evs) := exec D M (S n) b w0 in (o, pre ++ evs)) = (let '(o, evs) := exec D M n b w0 in (o, pre ++ evs))) /\
      incl (snd (let '(o, evs) := exec D M n b w0 in (o, pre ++ evs))) (snd (let '(o, evs) := exec D M (S n) b w0 in (o, pre ++ evs)))).
    { intros b w0 pre. destruct (IH b w0) as [A B].
      destruct (exec D M n b w0) as [o e]. destruct (exec D M (S n) b w0) as [o' e']. cbn [fst snd] in *. split.
      - intros w' H. specialize (A w' H). congruence.
      - intros x H. apply in_app_or in H as [H | H]; apply in_or_app; auto. }
    destruct s as [v r | l g r | v r | r | c t f | c b | l c k0 b]; try (split; [reflexivity | apply incl_refl]).
    - apply Q.
    - destruct (isTrue _); [apply Q | split; [reflexivity | apply incl_refl]].
    - destruct (Z.eqb _ k0); [apply Q | split; [reflexivity | apply incl_refl]]. }
  destruct HS as [H1 H2]. destruct (step n) as [o e]. destruct (step (S n)) as [o' e']. cbn [fst snd] in *.
  destruct o as [w1 |].
  - specialize (H1 w1 eq_refl). injection H1 as -> ->. destruct (IH p w1) as [A B].
    destruct (exec D M n p w1) as [o2 e2]. destruct (exec D M (S n) p w1) as [o3 e3]. cbn [fst snd] in *. split.
    + intros w' H. specialize (A w' H). congruence.
    + intros x H. apply in_app_or in H as [H | H]; apply in_or_app; auto.
  - split; [discriminate |]. destruct o' as [w2 |]; [| exact H2].
    destruct (exec D M (S n) p w2) as [o3 e3]. cbn [snd]. intros x H. apply in_or_app. left. auto.
Qed.
(** Events of a finished execution are all events *)
Lemma exec_all : forall N p w w', fst (exec D M N p w) = Some w' -> forall n, incl (snd (exec D M n p w)) (snd (exec D M N p w)).
Proof.
  intros N p w w' H.
  assert (K1 : forall k, exec D M (k + N) p w = exec D M N p w).
  { induction k as [| k IH]; [reflexivity |]. cbn [plus]. rewrite <- IH. apply (proj1 (exec_more (k + N) p w)) with w'. rewrite IH. assumption. }
  assert (K2 : forall k n, incl (snd (exec D M n p w)) (snd (exec D M (k + n) p w))).
  { induction k as [| k IH]; intros n; [apply incl_refl |]. cbn [plus]. eapply incl_tran; [apply IH | apply exec_more]. }
  intros n. eapply incl_tran; [apply (K2 N n) |]. rewrite Nat.add_comm, K1. apply incl_refl.
Qed.
End Mono.

Definition holdsCheck (o : origin) (s : state) (op : operand) (c : nat) : bool :=
  match op with
  | OSelf => Z.eqb (word (s c)) (word (oVal o))
  | OVar a => Z.eqb (word (s c)) (word (oBefore o a))
  | _ => true
  end.
Definition factsCheck (F : facts) (ev : event) : bool :=
  forallb (fun e : nat * nat * subst => let '(u, v, s) := e in
    negb (u =? eLoc ev) || Z.eqb (word (eState ev v)) (match s with TVar w => word (eState ev w) | TConst z => z end)) (direct F) &&
  forallb (fun d : nat * list use => forallb (fun u =>
    negb (uLoc u =? eLoc ev) ||
    match eGhost ev (fst d) with
    | Some o => forallb (fun h => forallb (holdsCheck o (eState ev) (fst h)) (snd h)) (uHold u)
    | None => false
    end) (snd d)) (defs F).
Lemma factsCheck_ok : forall F ev, factsCheck F ev = true -> factsOk F ev.
Proof.
  intros F ev H. unfold factsCheck in H. apply andb_true_iff in H as [H1 H2]. rewrite forallb_forall in H1, H2.
  split; [| split].
  - intros v w I0. specialize (H1 _ I0). cbn beta iota in H1. rewrite Nat.eqb_refl in H1. apply Z.eqb_eq. exact H1.
  - intros v z I0. specialize (H1 _ I0). cbn beta iota in H1. rewrite Nat.eqb_refl in H1. apply Z.eqb_eq. exact H1.
  - intros dl us u I1 I2 E. specialize (H2 _ I1). cbn [fst snd] in H2. rewrite forallb_forall in H2. specialize (H2 _ I2).
    cbn beta in H2. rewrite E, Nat.eqb_refl in H2. cbn [negb orb] in H2. destruct (eGhost ev dl) as [o |]; [| discriminate].
    exists o. split; [reflexivity |]. intros op hs c I3 I4. rewrite forallb_forall in H2. specialize (H2 _ I3). cbn [fst snd] in H2.
    rewrite forallb_forall in H2. specialize (H2 _ I4). destruct op; cbn [holdsCheck holdsOp] in *; try exact Logic.I; apply Z.eqb_eq; assumption.
Qed.
Fixpoint nodupb (l : list nat) : bool := match l with [] => true | x :: l => negb (existsb (Nat.eqb x) l) && nodupb l end.
Lemma nodupb_inj : forall {B} (f : B -> nat) l x y, nodupb (map f l) = true -> In x l -> In y l -> f x = f y -> x = y.
Proof.
  induction l as [| a l IH]; intros x y H I1 I2 E; [destruct I1 |]. cbn [map nodupb] in H. apply andb_true_iff in H as [H1 H2].
  apply negb_true_iff in H1.
  assert (K : forall z, In z l -> f a = f z -> False).
  { intros z Hz Q. assert (X : existsb (Nat.eqb (f a)) (map f l) = true) by (apply existsb_exists; exists (f z); split; [apply in_map; assumption | apply Nat.eqb_eq; assumption]). congruence. }
  destruct I1 as [<- | I1]; destruct I2 as [<- | I2]; [reflexivity | exfalso; eauto | exfalso; eapply K; [exact I1 | congruence] | eauto].
Qed.
Definition wfProgCheck (D : decls) (params : list nat) (p : list stmt) : bool :=
  forallb (fun e : nat * rhs => sourceR (snd e)) (flat_map assigns p) && forallb sourceE (flat_map exprs p) &&
  nodupb (map (fun e : nat * rhs => locR (snd e)) (flat_map assigns p)) &&
  forallb (isLocal D) params && forallb (fun e : nat * rhs => isLocal D (fst e)) (flat_map declared p) &&
  forallb (fun e : nat * nat => negb (isLocal D (snd e))) (flat_map stores p).
Ltac sp H := repeat match type of H with _ && _ = true => let H' := fresh "Q" in apply andb_true_iff in H as [H H'] end.
Lemma wfProgCheck_ok : forall D params p, wfProgCheck D params p = true -> wfProg D params p.
Proof.
  intros D params p H. unfold wfProgCheck in H. sp H. rewrite forallb_forall in *. repeat split.
  - intros v r I0. apply (H _ I0).
  - assumption.
  - pose proof (nodupb_inj (fun e : nat * rhs => locR (snd e)) _ (v, r) (v', r') Q2 H0 H1 H2). congruence.
  - pose proof (nodupb_inj (fun e : nat * rhs => locR (snd e)) _ (v, r) (v', r') Q2 H0 H1 H2). congruence.
  - assumption.
  - intros v r I0. apply (Q0 _ I0).
  - intros l g I0. apply negb_true_iff. apply (Q _ I0).
Qed.
Definition wfFactsCheck (D : decls) (F : facts) (p : list stmt) : bool :=
  forallb (fun e : nat * nat * subst => let '(u, v, s) := e in isLocal D v && match s with TVar w => isLocal D w | _ => true end) (direct F) &&
  forallb (fun d : nat * list use => forallb (fun u => forallb (fun h : operand * list nat => forallb (isLocal D) (snd h)) (uHold u)) (snd d)) (defs F) &&
  nodupb (map fst (defs F)) &&
  forallb (fun e : nat * rhs => match snd e with RCall _ _ _ => false | _ => true end) (flat_map assigns p) &&
  forallb (fun d : nat * list use => forallb (fun u => forallb (fun h : operand * list nat =>
    match fst h with OFun f => match knd D f with KFun _ => true | _ => false end | _ => true end) (uHold u)) (snd d)) (defs F).
Lemma wfFactsCheck_ok : forall D F p, wfFactsCheck D F p = true -> wfFacts D F p.
Proof.
  intros D F p H. unfold wfFactsCheck in H. sp H. rewrite forallb_forall in *. split; [| split; [| split; [| split]]].
  - intros u v s I0. specialize (H _ I0). cbn beta iota in H. apply andb_true_iff in H as [H1 H2]. split; [assumption |].
    destruct s; [assumption | exact Logic.I].
  - intros dl us u op hs c I1 I2 I3 I4. specialize (Q2 _ I1). cbn [snd] in Q2. rewrite forallb_forall in Q2. specialize (Q2 _ I2).
    rewrite forallb_forall in Q2. specialize (Q2 _ I3). cbn [snd] in Q2. rewrite forallb_forall in Q2. auto.
  - intros dl us I1 us' I2. pose proof (nodupb_inj fst _ (dl, us) (dl, us') Q1 I1 I2 eq_refl). congruence.
  - intros dl us u v l f a _ _ I3 _. specialize (Q0 _ I3). discriminate.
  - intros dl us u f hs I1 I2 I3. specialize (Q _ I1). cbn [snd] in Q. rewrite forallb_forall in Q. specialize (Q _ I2).
    rewrite forallb_forall in Q. specialize (Q _ I3). cbn [fst] in Q. destruct (knd D f); try discriminate. eauto.
Qed.
Definition operand_is (op : operand) (d : nat) : bool := match op with OVar a => a =? d | _ => false end.
(** All conditions except conditions on names *)
Definition condsCheck (X : conds) (D : decls) (M : meaning) (F : facts) (p : list stmt) : bool :=
  let asg := flat_map assigns p in
  let defd := fun (k : nat -> rhs -> list use -> bool) =>
    forallb (fun e : nat * rhs => forallb (fun d : nat * list use => negb (fst d =? locR (snd e)) || k (fst e) (snd e) (snd d)) (defs F)) asg in
  (negb (xMem X) || defd (fun v r us => pureR D r)) &&
  (negb (xUses X) || forallb (fun d : nat * list use => length (snd d) <=? 1) (defs F)) &&
  (negb (xSwitch X) || forallb (fun l => forallb (fun e : nat * nat * subst => negb (fst (fst e) =? l)) (direct F) &&
     forallb (fun d : nat * list use => forallb (fun u => negb (uLoc u =? l)) (snd d)) (defs F)) (flat_map switches p)) &&
  (negb (xInc X) || defd (fun v r us => match r with RInc _ _ => false | _ => true end)) &&
  (negb (xConst X) || forallb (fun e : nat * nat * subst => let '(u, v, s) := e in
     match s with TConst z => constOk (ty D v) z | _ => true end) (direct F)) &&
  (negb (xSign X) || forallb (fun e : nat * nat * subst => let '(u, v, s) := e in
     match s with TVar w => ty D v =? ty D w | _ => true end) (direct F)) &&
  (negb (xConv X) || defd (fun v r us => forallb (fun u => forallb (fun c =>
     (ty D v =? tyE D M (textR r)) && (ty D c =? tyE D M (textR r))) (candidates u)) us)) &&
  (negb (xOps X) || defd (fun v r us => forallb (fun u => forallb (fun h : operand * list nat => forallb (fun d =>
     negb (existsb (Nat.eqb d) (refsR r)) || operand_is (fst h) d) (snd h)) (uHold u)) us)).
Lemma condsCheck_ok : forall X D M F params p, condsCheck X D M F p = true ->
  (xShadow X = true -> forall d g, (In d params \/ exists r, In (d, r) (flat_map declared p)) -> isLocal D g = false -> nam D d <> nam D g) ->
  (xInit X = true -> forall v r us d, In (v, r) (flat_map declared p) -> In (locR r, us) (defs F) -> nam D d = nam D v -> d = v) ->
  condsOk X D M F params p.
Proof.
  intros X D M F params p H HSh HIn. unfold condsCheck in H. cbv zeta in H. sp H.
  assert (DF : forall k, forallb (fun e : nat * rhs => forallb (fun d : nat * list use => negb (fst d =? locR (snd e)) || k (fst e) (snd e) (snd d)) (defs F)) (flat_map assigns p) = true ->
    forall v r us, In (v, r) (flat_map assigns p) -> In (locR r, us) (defs F) -> k v r us = true).
  { intros k0 K v r us I1 I2. rewrite forallb_forall in K. specialize (K _ I1). cbn [fst snd] in K. rewrite forallb_forall in K.
    specialize (K _ I2). cbn [fst snd] in K. rewrite Nat.eqb_refl in K. exact K. }
  repeat match goal with Hx : negb (_ X) || _ = true |- _ => apply orb_true_iff in Hx end.
  assert (NT : forall b c : bool, negb b = true \/ c = true -> b = true -> c = true) by (intros b c [E | E] EB; [rewrite EB in E; discriminate | assumption]).
  split; [| split; [| split; [| split; [| split; [| split; [| split; [| split; [| split]]]]]]]]; intros XE.
  - exact (DF (fun v r us => pureR D r) (NT _ _ H XE)).
  - assert (K := NT _ _ Q5 XE). rewrite forallb_forall in K. intros dl us I0. apply Nat.leb_le. apply (K _ I0).
  - exact (HSh XE).
  - exact (HIn XE).
  - assert (K := NT _ _ Q4 XE). rewrite forallb_forall in K. intros l I0. specialize (K _ I0). apply andb_true_iff in K as [K1 K2].
    rewrite forallb_forall in K1, K2. split.
    + intros v s I1. specialize (K1 _ I1). cbn [fst] in K1. rewrite Nat.eqb_refl in K1. discriminate.
    + intros dl us u I1 I2 E. specialize (K2 _ I1). cbn [snd] in K2. rewrite forallb_forall in K2. specialize (K2 _ I2).
      rewrite E, Nat.eqb_refl in K2. discriminate.
  - intros v l d us I1 I2. assert (K := DF (fun v r us => match r with RInc _ _ => false | _ => true end) (NT _ _ Q3 XE) v (RInc l d) us I1 I2). discriminate.
  - assert (K := NT _ _ Q2 XE). rewrite forallb_forall in K. intros u v z I0. specialize (K _ I0). exact K.
  - assert (K := NT _ _ Q1 XE). rewrite forallb_forall in K. intros u v w I0. specialize (K _ I0). apply Nat.eqb_eq. exact K.
  - intros v r us u c I1 I2 I3 I4. assert (K := DF (fun v r us => forallb (fun u => forallb (fun c =>
     (ty D v =? tyE D M (textR r)) && (ty D c =? tyE D M (textR r))) (candidates u)) us) (NT _ _ Q0 XE) v r us I1 I2). cbn beta in K. rewrite forallb_forall in K.
    specialize (K _ I3). rewrite forallb_forall in K. specialize (K _ I4). apply andb_true_iff in K as [K1 K2].
    split; apply Nat.eqb_eq; assumption.
  - intros v r us u d op hs I1 I2 I3 I4 I5 I6. assert (K := DF (fun v r us => forallb (fun u => forallb (fun h : operand * list nat => forallb (fun d =>
     negb (existsb (Nat.eqb d) (refsR r)) || operand_is (fst h) d) (snd h)) (uHold u)) us) (NT _ _ Q XE) v r us I1 I2). cbn beta in K. rewrite forallb_forall in K.
    specialize (K _ I3). rewrite forallb_forall in K. specialize (K _ I5). cbn [fst snd] in K. rewrite forallb_forall in K. specialize (K _ I6).
    assert (X0 : existsb (Nat.eqb d) (refsR r) = true) by (apply existsb_exists; exists d; split; [assumption | apply Nat.eqb_refl]).
    rewrite X0 in K. cbn [negb orb] in K. destruct op; try discriminate. cbn [operand_is] in K. apply Nat.eqb_eq in K. subst. reflexivity.
Qed.
