(** Proofs about the search for pairs of loops. *)
From Coq Require Import PeanoNat Bool List Lia.
From Verif Require Import MatchModel MatchSpec MatchProof LoopMatchModel LoopMatchSpec.
Import ListNotations.

(** * Pairs *)
Lemma same_eq a b : same a b = true <-> a = b.
Proof. destruct a, b; cbn; rewrite ?Nat.eqb_eq; split; intro; congruence. Qed.
Lemma lemplace_cases n o B : (emplace n o B = B /\ exists p, In p B /\ (fst p = n \/ snd p = o)) \/
  (emplace n o B = B ++ [(n, o)] /\ ~ In n (map fst B) /\ ~ In o (map snd B)).
Proof.
  unfold emplace. destruct (existsb _ B) eqn:E.
  - left. split; [reflexivity|]. apply existsb_exists in E as (p & I1 & E). exists p. split; [exact I1|].
    apply orb_true_iff in E as [E|E]; [left; apply Nat.eqb_eq; exact E|right; apply same_eq; exact E].
  - right. split; [reflexivity|]. split; intro I1; apply in_map_iff in I1 as (p & Q & I1).
    + assert (X : existsb (fun p => Nat.eqb (fst p) n || same (snd p) o) B = true); [|congruence].
      apply existsb_exists. exists p. split; [exact I1|]. apply orb_true_iff. left. apply Nat.eqb_eq; exact Q.
    + assert (X : existsb (fun p => Nat.eqb (fst p) n || same (snd p) o) B = true); [|congruence].
      apply existsb_exists. exists p. split; [exact I1|]. apply orb_true_iff. right. apply same_eq; exact Q.
Qed.
Lemma lemplace_fresh n o B : ~ In n (map fst B) -> ~ In o (map snd B) -> emplace n o B = B ++ [(n, o)].
Proof.
  intros A C. destruct (lemplace_cases n o B) as [[_ (p & I1 & [Q|Q])]|[E _]]; [| |exact E].
  - destruct A. apply in_map_iff. exists p. split; assumption.
  - destruct C. apply in_map_iff. exists p. split; assumption.
Qed.
Lemma lemplace_In n o B p : In p (emplace n o B) -> In p B \/ p = (n, o).
Proof.
  destruct (lemplace_cases n o B) as [[-> _]|[-> _]]; [auto|]. intro I1. apply in_app_iff in I1 as [I1|[<-|[]]]; auto.
Qed.
Lemma lemplace_NoDup n o B : NoDup (map fst B) -> NoDup (map snd B) ->
  NoDup (map fst (emplace n o B)) /\ NoDup (map snd (emplace n o B)).
Proof.
  intros A C. destruct (lemplace_cases n o B) as [[-> _]|[-> [F G]]]; [split; assumption|].
  rewrite !map_app. split; apply NoDup_snoc; assumption.
Qed.
(** * Each loop is in a single pair *)
Section Once.
  Variable asserts : bool.
  Variable ts : list stmt.
  Variable ls : list irloop.
  Definition known (x : nat) : Prop := exists l, In l ls /\ lId l = x.
  Definition mapKnown (M : irMap) : Prop := forall l q x, M l = Some q -> In x (qItems q) -> known x.
  Definition pairOk (p : nat * option nat) : Prop :=
    (exists t, In t ts /\ tId t = fst p /\ (isLoop t = true \/ tKind t = KLabel)) /\ (forall x, snd p = Some x -> known x).
  Definition once (s : lstate) : Prop :=
    mapKnown (mMap s) /\ mapKnown (mImp s) /\ NoDup (map fst (mMatch s)) /\ NoDup (map snd (mMatch s)) /\
    forall p, In p (mMatch s) -> pairOk p.
  Lemma find_known M l o M' : mapKnown M -> findIRForLocation asserts M l = Done (o, M') ->
    mapKnown M' /\ forall x, o = Some x -> known x.
  Proof.
    intros K F. unfold findIRForLocation in F. destruct (M l) as [q|] eqn:E.
    - destruct (rev (qItems q)) as [|x r] eqn:R.
      + destruct (asserts || qVec q); [discriminate F|]. injection F as <- <-. split; [exact K|discriminate].
      + injection F as <- <-.
        assert (Iq : forall y, y = x \/ In y r -> In y (qItems q)).
        { intros y Q. apply in_rev. rewrite R. destruct Q as [->|Q]; [left; reflexivity|right; exact Q]. }
        split.
        * intros l' q' y. unfold upd. destruct (Nat.eqb l l').
          -- intro Q. injection Q as <-. cbn [qItems]. intro I1. apply in_rev in I1. exact (K l q y E (Iq y (or_intror I1))).
          -- intros Q I1. exact (K l' q' y Q I1).
        * intros y Q. injection Q as <-. exact (K l q x E (Iq x (or_introl eq_refl))).
    - injection F as <- <-. split; [exact K|discriminate].
  Qed.
  Lemma once_emplace s M I2 u n o : once s -> mapKnown M -> mapKnown I2 -> pairOk (n, o) ->
    once (LState M I2 (emplace n o (mMatch s)) u).
  Proof.
    intros (_ & _ & N1 & N2 & P) KM KI Po. destruct (lemplace_NoDup n o _ N1 N2) as [A C].
    split; [exact KM|]. split; [exact KI|]. split; [exact A|]. split; [exact C|].
    intros p I1. apply lemplace_In in I1 as [I1| ->]; [exact (P p I1)|exact Po].
  Qed.
  Lemma explicit_once t s s' : In t ts -> once s -> visitExplicit asserts ls t s = Done s' -> once s'.
  Proof.
    intros It O.
    assert (Acc : visitAccurate asserts ls t s = Done s' -> once s').
    { unfold visitAccurate. destruct (findIRForLocation asserts (mMap s) (tBegin t)) as [|[o M]] eqn:F; [discriminate|].
      pose proof O as (KM & KI & N1 & N2 & P).
      destruct (find_known _ _ _ _ KM F) as [KM' Ko]. destruct (isLoop t) eqn:Lp; destruct o as [x|].
      - intro Q; injection Q as <-. apply once_emplace; auto. split; [exists t; auto|]. cbn. intros y Q. exact (Ko y Q).
      - intro Q; injection Q as <-. repeat (split; [assumption|]). exact P.
      - destruct (header ls x) as [h|]; intro Q; injection Q as <-; repeat (split; [assumption|]).
        + split; [|split; [exact N1|split; [exact N2|exact P]]]. intros l q y. cbn [mImp]. unfold upd. destruct (Nat.eqb h l).
          * intro Q. injection Q as <-. cbn [push qItems]. intro I1. apply in_app_iff in I1 as [I1|[<-|[]]]; [|exact (Ko x eq_refl)].
            destruct (mImp s h) as [q|] eqn:E; [exact (KI h q y E I1)|destruct I1].
          * apply KI.
        + exact P.
      - intro Q; injection Q as <-. repeat (split; [assumption|]). exact P. }
    unfold visitExplicit. destruct (tKind t) as [[i|]| | |] eqn:Kt; try exact Acc.
    destruct (mMap s i) as [q|] eqn:E; [|exact Acc].
    pose proof O as (KM & KI & N1 & N2 & P).
    assert (Lp : isLoop t = true) by (unfold isLoop; rewrite Kt; reflexivity).
    unfold visitInit. destruct (rev (qItems q)) as [|x r] eqn:R.
    - destruct (asserts || qVec q); [discriminate|]. intro Q; injection Q as <-. apply once_emplace; auto.
      split; [exists t; auto|cbn; discriminate].
    - assert (Iq : forall y, y = x \/ In y r -> known y).
      { intros y Q. apply (KM i q y E). apply in_rev. rewrite R. destruct Q as [->|Q]; [left; reflexivity|right; exact Q]. }
      assert (Po : pairOk (tId t, Some x)).
      { split; [exists t; auto|]. cbn. intros y Q; injection Q as <-. apply Iq; left; reflexivity. }
      destruct r as [|y r].
      + intro Q; injection Q as <-. apply once_emplace; auto. intros l' q' z. unfold upd. destruct (Nat.eqb i l').
        * intro Q; injection Q as <-. intros [].
        * apply KM.
      + intro Q; injection Q as <-. apply once_emplace; auto.
        assert (KR : mapKnown (removeLoc (mMap s) i)).
        { intros l' q' z. unfold removeLoc. destruct (Nat.eqb i l'); [discriminate|apply KM]. }
        destruct (locEq (header ls x) (tBegin t)); [|exact KR]. unfold insertLoc.
        destruct (removeLoc (mMap s) i (tBegin t)); [exact KR|]. intros l' q' z. unfold upd. destruct (Nat.eqb (tBegin t) l').
        * intro Q; injection Q as <-. cbn [qItems]. intro I1. apply Iq. right. apply (in_rev (y :: r)). exact I1.
        * apply KR.
  Qed.
  Lemma all_once us : forall s s', incl us ts -> once s -> visitAll asserts ls us s = Done s' -> once s'.
  Proof.
    induction us as [|t us IH]; intros s s' Inc O; cbn [visitAll]; [intro Q; injection Q as <-; exact O|].
    destruct (visitExplicit asserts ls t s) as [|s1] eqn:E; [discriminate|]. intro F.
    apply (IH s1 s'); [intros u Iu; apply Inc; right; exact Iu| |exact F].
    apply (explicit_once t s s1); [apply Inc; left; reflexivity|exact O|exact E].
  Qed.
  Lemma implicit_once us : forall label s s', incl us ts -> once s ->
    (forall n, label = Some n -> exists t, In t ts /\ tId t = n /\ tKind t = KLabel) ->
    visitImplicit asserts us label s = Done s' -> once s'.
  Proof.
    induction us as [|t us IH]; intros label s s' Inc O La; cbn [visitImplicit]; [intro Q; injection Q as <-; exact O|].
    assert (Inc' : incl us ts) by (intros u Iu; apply Inc; right; exact Iu).
    assert (Lt : tKind t = KLabel -> forall n, Some (tId t) = Some n -> exists t0, In t0 ts /\ tId t0 = n /\ tKind t0 = KLabel).
    { intros K n Q. injection Q as <-. exists t. split; [apply Inc; left; reflexivity|]. split; [reflexivity|exact K]. }
    destruct (tKind t) eqn:Kt.
    - exact (IH label s s' Inc' O La).
    - exact (IH label s s' Inc' O La).
    - exact (IH (Some (tId t)) s s' Inc' O (Lt eq_refl)).
    - destruct label as [lab|]; [|exact (IH None s s' Inc' O La)].
      destruct (findIRForLocation asserts (mImp s) (tBegin t)) as [|[o M]] eqn:F; [discriminate|].
      pose proof O as (KM & KI & N1 & N2 & P). destruct (find_known _ _ _ _ KI F) as [KI' Ko].
      destruct o as [x|].
      + apply IH; [exact Inc'| |exact La]. apply once_emplace; auto. destruct (La lab eq_refl) as (t0 & I0 & E0 & K0).
        split; [exists t0; auto|]. cbn. intros y Q. exact (Ko y Q).
      + apply IH; [exact Inc'| |exact La]. repeat (split; [assumption|]). exact P.
  Qed.
End Once.
Lemma reverse_known ls M : mapKnown ls M -> mapKnown ls (reverseAll M).
Proof.
  intros K l q x. unfold reverseAll. destruct (M l) as [q0|] eqn:E; [|discriminate]. intro Q; injection Q as <-. cbn [qItems].
  intro I1. apply in_rev in I1. exact (K l q0 x E I1).
Qed.
Definition instrs (ls : list irloop) : list instruction := map (fun l => (lId l, lStart l)) ls.
Lemma start_known ls : mapKnown ls (start (instrs ls)).
Proof.
  intros l q x E I1. pose proof (start_at (instrs ls) l) as H. rewrite E in H. destruct H as [H _]. rewrite H in I1.
  apply in_rev, instrsAt_In in I1. unfold instrs in I1. apply in_map_iff in I1 as (l0 & Q & I1). injection Q as <- _.
  exists l0. split; [exact I1|reflexivity].
Qed.
Lemma once_true : C87_once_claim.
Proof.
  intros asserts ts ls s R. unfold runLoops in R.
  change (reverseAll (collect _ (fun _ => None))) with (start (instrs ls)) in R.
  destruct (visitAll asserts ls ts _) as [|s1] eqn:E; [discriminate R|].
  assert (O1 : once ts ls s1).
  { refine (all_once asserts ts ls ts _ s1 (incl_refl ts) _ E). split; [apply start_known|].
    split; [intros l q x Q; discriminate Q|]. split; [constructor|]. split; [constructor|intros p []]. }
  assert (O : once ts ls s).
  { refine (implicit_once asserts ts ls ts None _ s (incl_refl ts) _ _ R); [|discriminate].
    destruct O1 as (KM & KI & N1 & N2 & P). split; [exact KM|]. split; [apply reverse_known; exact KI|]. split; [exact N1|]. split; [exact N2|exact P]. }
  destruct O as (_ & _ & N1 & N2 & P). split; [exact N1|]. split; [exact N2|]. intros n o I1. exact (P (n, o) I1).
Qed.

(** * Implicit loops *)
Section Implicit.
  Variable asserts : bool.
  Variable ts : list stmt.
  Variable ls : list irloop.
  (** Elements of the map are kept at locations of headers. *)
  Definition impOk (M : irMap) : Prop := forall h q x, M h = Some q -> In x (qItems q) -> exists l, In l ls /\ lId l = x /\ lHeader l = Some h.
  Definition loopPairs (s : lstate) : Prop := forall p, In p (mMatch s) -> exists t, In t ts /\ isLoop t = true /\ tId t = fst p.
  Lemma header_In x h : header ls x = Some h -> exists l, In l ls /\ lId l = x /\ lHeader l = Some h.
  Proof.
    unfold header. destruct (find _ ls) as [l|] eqn:F; [|discriminate]. intro H. apply find_some in F as [I1 E].
    apply Nat.eqb_eq in E. exists l. auto.
  Qed.
  Lemma explicit_imp t s s' : In t ts -> impOk (mImp s) -> loopPairs s -> visitExplicit asserts ls t s = Done s' ->
    impOk (mImp s') /\ loopPairs s'.
  Proof.
    intros It K P.
    assert (Em : forall o, isLoop t = true -> forall p, In p (emplace (tId t) o (mMatch s)) -> exists t, In t ts /\ isLoop t = true /\ tId t = fst p).
    { intros o Lp p I1. apply lemplace_In in I1 as [I1| ->]; [exact (P p I1)|]. exists t. auto. }
    assert (Acc : visitAccurate asserts ls t s = Done s' -> impOk (mImp s') /\ loopPairs s').
    { unfold visitAccurate. destruct (findIRForLocation asserts (mMap s) (tBegin t)) as [|[o M]]; [discriminate|].
      destruct (isLoop t) eqn:Lp; destruct o as [x|].
      - intro Q; injection Q as <-. split; [exact K|]. exact (Em (Some x) eq_refl).
      - intro Q; injection Q as <-. split; [exact K|exact P].
      - destruct (header ls x) as [h|] eqn:Hd; intro Q; injection Q as <-; [|split; [exact K|exact P]]. split; [|exact P].
        intros h' q y. cbn [mImp]. unfold upd. destruct (Nat.eqb h h') eqn:E; [|apply K].
        apply Nat.eqb_eq in E; subst h'. intro Q; injection Q as <-. cbn [push qItems]. intro I1.
        apply in_app_iff in I1 as [I1|[<-|[]]]; [|exact (header_In x h Hd)].
        destruct (mImp s h) as [q|] eqn:Eq; [exact (K h q y Eq I1)|destruct I1].
      - intro Q; injection Q as <-. split; [exact K|exact P]. }
    unfold visitExplicit. destruct (tKind t) as [[i|]| | |] eqn:Kt; try exact Acc.
    destruct (mMap s i) as [q|]; [|exact Acc].
    assert (Lp : isLoop t = true) by (unfold isLoop; rewrite Kt; reflexivity).
    unfold visitInit. destruct (rev (qItems q)) as [|x [|y r]].
    - destruct (asserts || qVec q); [discriminate|]. intro Q; injection Q as <-. split; [exact K|exact (Em None Lp)].
    - intro Q; injection Q as <-. split; [exact K|exact (Em (Some x) Lp)].
    - intro Q; injection Q as <-. split; [exact K|exact (Em (Some x) Lp)].
  Qed.
  Lemma all_imp us : forall s s', incl us ts -> impOk (mImp s) -> loopPairs s -> visitAll asserts ls us s = Done s' ->
    impOk (mImp s') /\ loopPairs s'.
  Proof.
    induction us as [|t us IH]; intros s s' Inc K P; cbn [visitAll]; [intro Q; injection Q as <-; split; assumption|].
    destruct (visitExplicit asserts ls t s) as [|s1] eqn:E; [discriminate|]. intro F.
    destruct (explicit_imp t s s1 (Inc t (or_introl eq_refl)) K P E) as [K1 P1].
    exact (IH s1 s' (fun u Iu => Inc u (or_intror Iu)) K1 P1 F).
  Qed.
  Variable head : nat -> nat.
  Hypothesis Nd : NoDup (map tId ts).
  Hypothesis Hd : forall l h a u b, In l ls -> lHeader l = Some h -> ts = a ++ u :: b -> tKind u = KPlain -> tBegin u = h ->
       exists a1 lab a2, a = a1 ++ lab :: a2 /\ tKind lab = KLabel /\ tId lab = head (lId l) /\
         forall v, In v a2 -> tKind v <> KLabel.
  Definition lastLabel (a : list stmt) (label : option nat) : Prop :=
    forall a1 lab a2, a = a1 ++ lab :: a2 -> tKind lab = KLabel -> (forall v, In v a2 -> tKind v <> KLabel) -> label = Some (tId lab).
  Definition good (s : lstate) : Prop := impOk (mImp s) /\
    forall p x, In p (mMatch s) -> snd p = Some x -> (exists t, In t ts /\ isLoop t = true /\ tId t = fst p) \/ fst p = head x.
  Lemma findIR_imp M l o M' : impOk M -> findIRForLocation asserts M l = Done (o, M') ->
    impOk M' /\ forall x, o = Some x -> exists l0, In l0 ls /\ lId l0 = x /\ lHeader l0 = Some l.
  Proof.
    intros K F. unfold findIRForLocation in F. destruct (M l) as [q|] eqn:E.
    - destruct (rev (qItems q)) as [|x r] eqn:R.
      + destruct (asserts || qVec q); [discriminate F|]. injection F as <- <-. split; [exact K|discriminate].
      + injection F as <- <-.
        assert (Iq : forall y, y = x \/ In y r -> In y (qItems q)).
        { intros y Q. apply in_rev. rewrite R. destruct Q as [->|Q]; [left; reflexivity|right; exact Q]. }
        split.
        * intros l' q' y. unfold upd. destruct (Nat.eqb l l') eqn:El.
          -- apply Nat.eqb_eq in El; subst l'. intro Q. injection Q as <-. cbn [qItems]. intro I1. apply in_rev in I1. exact (K l q y E (Iq y (or_intror I1))).
          -- intros Q I1. exact (K l' q' y Q I1).
        * intros y Q. injection Q as <-. exact (K l q x E (Iq x (or_introl eq_refl))).
    - injection F as <- <-. split; [exact K|discriminate].
  Qed.
  Lemma lastLabel_other a t label : lastLabel a label -> tKind t <> KLabel -> lastLabel (a ++ [t]) label.
  Proof.
    intros H K a1 lab a2 E Kl N. destruct (exists_last (l := a2)) as (a3 & v & ->).
    - intros ->. apply app_inj_tail in E as [_ ->]. exact (K Kl).
    - change (a1 ++ lab :: (a3 ++ [v])) with (a1 ++ (lab :: a3) ++ [v]) in E. rewrite app_assoc in E.
      apply app_inj_tail in E as [E _]. apply (H a1 lab a3 E Kl). intros u Iu. apply N. apply in_app_iff. left; exact Iu.
  Qed.
  Lemma lastLabel_label a t label : lastLabel a label -> tKind t = KLabel -> lastLabel (a ++ [t]) (Some (tId t)).
  Proof.
    intros H K a1 lab a2 E Kl N. destruct a2 as [|u a2].
    - apply app_inj_tail in E as [_ ->]. reflexivity.
    - destruct (exists_last (l := u :: a2)) as (a3 & v & E3); [discriminate|]. rewrite E3 in E, N.
      change (a1 ++ lab :: (a3 ++ [v])) with (a1 ++ (lab :: a3) ++ [v]) in E. rewrite app_assoc in E.
      apply app_inj_tail in E as [_ <-]. destruct (N t); [apply in_app_iff; right; left; reflexivity|exact K].
  Qed.
  Lemma implicit_good us : forall a label s s', ts = a ++ us -> lastLabel a label -> good s ->
    visitImplicit asserts us label s = Done s' -> good s'.
  Proof.
    induction us as [|t us IH]; intros a label s s' Et La G; cbn [visitImplicit]; [intro Q; injection Q as <-; exact G|].
    assert (Et' : ts = (a ++ [t]) ++ us) by (rewrite <- app_assoc; exact Et).
    destruct (tKind t) eqn:Kt.
    - apply (IH (a ++ [t]) label); [exact Et'| |exact G]. apply lastLabel_other; [exact La|congruence].
    - apply (IH (a ++ [t]) label); [exact Et'| |exact G]. apply lastLabel_other; [exact La|congruence].
    - apply (IH (a ++ [t]) (Some (tId t))); [exact Et'| |exact G]. exact (lastLabel_label a t label La Kt).
    - assert (La' : lastLabel (a ++ [t]) label) by (apply lastLabel_other; [exact La|congruence]).
      destruct label as [lab|]; [|apply (IH (a ++ [t]) None); assumption].
      destruct (findIRForLocation asserts (mImp s) (tBegin t)) as [|[o M]] eqn:F; [discriminate|].
      destruct G as [K P]. destruct (findIR_imp _ _ _ _ K F) as [K' Ko]. destruct o as [x|].
      + apply (IH (a ++ [t]) (Some lab)); [exact Et'|exact La'|]. split; [exact K'|]. cbn [mMatch].
        intros p y I1 Sp. apply lemplace_In in I1 as [I1| ->]; [exact (P p y I1 Sp)|]. right. cbn in Sp |- *. injection Sp as <-.
        destruct (Ko x eq_refl) as (l & Il & El & Hl). destruct (Hd l (tBegin t) a t us Il Hl Et Kt eq_refl) as (a1 & lb & a2 & Ea & Kl & Eh & Nl).
        specialize (La a1 lb a2 Ea Kl Nl). injection La as ->. rewrite Eh, El. reflexivity.
      + apply (IH (a ++ [t]) (Some lab)); [exact Et'|exact La'|]. split; [exact K'|exact P].
  Qed.
End Implicit.
Lemma id_inj ts t u : NoDup (map tId ts) -> In t ts -> In u ts -> tId t = tId u -> t = u.
Proof.
  induction ts as [|v ts IH]; intros N It Iu E; [destruct It|]. cbn in N. inversion N as [|? ? Nv N']; subst.
  destruct It as [<-|It], Iu as [<-|Iu]; [reflexivity| | |exact (IH N' It Iu E)].
  - destruct Nv. rewrite E. apply in_map; exact Iu.
  - destruct Nv. rewrite <- E. apply in_map; exact It.
Qed.
Lemma implicit_true : C87_implicit_claim true.
Proof.
  intros asserts ts ls head s n x Nd Hd R I1 (t & It & <- & Kt). unfold runLoops in R.
  destruct (visitAll asserts ls ts _) as [|s1] eqn:E; [discriminate R|].
  assert (KP : impOk ls (mImp s1) /\ loopPairs ts s1).
  { refine (all_imp asserts ts ls ts _ s1 (incl_refl ts) _ _ E); [intros h q y Q; discriminate Q|intros p []]. }
  destruct KP as [K P].
  assert (Hd' : forall l h a u b, In l ls -> lHeader l = Some h -> ts = a ++ u :: b -> tKind u = KPlain -> tBegin u = h ->
       exists a1 lab a2, a = a1 ++ lab :: a2 /\ tKind lab = KLabel /\ tId lab = head (lId l) /\ forall v, In v a2 -> tKind v <> KLabel).
  { intros l h a u b A1 A2 A3 A4 A5. destruct (Hd l h a u b A1 A2 A3 A4 A5) as (a1 & lab & a2 & B1 & B2 & B3 & B4).
    exists a1, lab, a2. repeat (split; [assumption|]). exact (B4 eq_refl). }
  assert (G : good ts ls head s).
  { refine (implicit_good asserts ts ls head Hd' ts [] None _ s eq_refl _ _ R).
    - intros a1 lab a2 Q. destruct a1; discriminate Q.
    - split.
      + intros h q y. cbn [mImp]. unfold reverseAll. destruct (mImp s1 h) as [q0|] eqn:E0; [|discriminate].
        intro Q; injection Q as <-. cbn [qItems]. intro I2. apply in_rev in I2. exact (K h q0 y E0 I2).
      + intros p y I2 _. left. exact (P p I2). }
  destruct G as [_ G]. destruct (G (tId t, Some x) x I1 eq_refl) as [(u & Iu & Lu & Eu)|Q]; [|exact Q].
  exfalso. cbn in Eu. rewrite (id_inj ts u t Nd Iu It Eu) in Lu. unfold isLoop in Lu. rewrite Kt in Lu. discriminate Lu.
Qed.

(** * Explicit loops *)
Lemma collect_vec is : forall M, (forall l q, M l = Some q -> qVec q = (1 <? length (qItems q))) ->
  forall l q, collect is M l = Some q -> qVec q = (1 <? length (qItems q)).
Proof.
  induction is as [|[i [l0|]] is IH]; intros M H; cbn [collect]; [exact H| |exact (IH M H)].
  apply IH. intros l q. unfold upd. destruct (Nat.eqb l0 l); [|apply H]. intro Q; injection Q as <-.
  cbn [push qVec qItems]. rewrite app_length. cbn [length].
  destruct (M l0) as [q0|] eqn:E.
  - rewrite (H l0 q0 E). destruct (qItems q0) as [|a [|b r]]; cbn; reflexivity.
  - reflexivity.
Qed.
Lemma start_vec is l q : start is l = Some q -> qVec q = (1 <? length (qItems q)).
Proof.
  unfold start, reverseAll. destruct (collect is (fun _ => None) l) as [q0|] eqn:E; [|discriminate].
  intro Q; injection Q as <-. cbn [qVec qItems]. rewrite rev_length. apply (collect_vec is (fun _ => None)) with (l := l); [discriminate|exact E].
Qed.
Definition at_ (ls : list irloop) (k : loc) : list nat := instrsAt (instrs ls) k.
Lemma at_cons l ls k : at_ (l :: ls) k = match lStart l with Some k' => if Nat.eqb k' k then lId l :: at_ ls k else at_ ls k | None => at_ ls k end.
Proof. unfold at_, instrs, instrsAt. cbn. destruct (lStart l) as [k'|]; cbn; [destruct (Nat.eqb k' k); reflexivity|reflexivity]. Qed.
Lemma header_eq ls l : NoDup (map lId ls) -> In l ls -> header ls (lId l) = lHeader l.
Proof.
  intros N Il. unfold header. destruct (find _ ls) as [l'|] eqn:F.
  - apply find_some in F as [I1 E]. apply Nat.eqb_eq in E. f_equal.
    clear -N I1 Il E. induction ls as [|v ls IH]; [destruct Il|]. cbn in N. inversion N as [|? ? Nv N']; subst.
    destruct I1 as [<-|I1], Il as [<-|Il]; [reflexivity| | |exact (IH N' Il I1)].
    + destruct Nv. rewrite E. apply in_map; exact Il.
    + destruct Nv. rewrite <- E. apply in_map; exact I1.
  - pose proof (find_none _ _ F l Il) as Q. cbn in Q. rewrite Nat.eqb_refl in Q. discriminate Q.
Qed.
Section Explicit.
  Variable ts : list stmt.
  Variable ls : list irloop.
  Variable origin : nat -> nat.
  Hypothesis Nt : NoDup (map tId ts).
  Hypothesis Nl : NoDup (map lId ls).
  Hypothesis Text : textOk ts.
  Hypothesis Complete : map (fun l => origin (lId l)) ls = map tId (filter isLoop ts).
  Hypothesis Locs : forall l t, In l ls -> In t ts -> tId t = origin (lId l) -> lStart l = Some (key t) /\ lHeader l = Some (tBegin t).
  Definition hasInit (t : stmt) : bool := match tKind t with KFor (Some _) => true | _ => false end.
  Definition seen (pre : list stmt) (k : loc) : Prop := exists t, In t pre /\ isLoop t = true /\ key t = k.
  Definition slot (pre : list stmt) (rest : list irloop) (M : irMap) (t : stmt) : Prop :=
    if hasInit t then
      (seen pre (key t) -> (M (key t) = Some (Queue false []) /\ M (tBegin t) = None /\ at_ rest (key t) = []) \/
         (M (key t) = None /\ exists v, M (tBegin t) = Some (Queue v (rev (at_ rest (key t)))))) /\
      (~ seen pre (key t) -> M (key t) = Some (Queue (1 <? length (at_ rest (key t))) (rev (at_ rest (key t)))) /\ M (tBegin t) = None)
    else exists v, M (tBegin t) = Some (Queue v (rev (at_ rest (key t)))).
  Definition inv (pre : list stmt) (lpre rest : list irloop) (s : lstate) : Prop :=
    (forall t, In t ts -> isLoop t = true -> slot pre rest (mMap s) t) /\
    (forall k, (forall t, In t ts -> isLoop t = true -> k <> key t /\ k <> tBegin t) -> mMap s k = None) /\
    mImp s = (fun _ => None) /\ mMatch s = map (fun l => (origin (lId l), Some (lId l))) lpre /\ mUnmatched s = [].
  Lemma seen_dec pre k : {seen pre k} + {~ seen pre k}.
  Proof.
    destruct (existsb (fun t => isLoop t && Nat.eqb (key t) k) pre) eqn:E.
    - left. apply existsb_exists in E as (t & I1 & E). apply andb_true_iff in E as [E1 E2]. apply Nat.eqb_eq in E2. exists t. auto.
    - right. intros (t & I1 & Lp & K). assert (Q : existsb (fun t => isLoop t && Nat.eqb (key t) k) pre = true); [|congruence].
      apply existsb_exists. exists t. split; [exact I1|]. rewrite Lp, K, Nat.eqb_refl. reflexivity.
  Qed.
  Lemma seen_snoc pre t k : seen (pre ++ [t]) k <-> seen pre k \/ (isLoop t = true /\ key t = k).
  Proof.
    split.
    - intros (u & I1 & Lu & Ku). apply in_app_iff in I1 as [I1|[<-|[]]]; [left; exists u; auto|right; auto].
    - intros [(u & I1 & Lu & Ku)|[Lt Kt]]; [exists u|exists t]; (split; [apply in_app_iff|auto]); [left; exact I1|right; left; reflexivity].
  Qed.
  Lemma slot_same pre pre' rest rest' M M' t : (seen pre' (key t) <-> seen pre (key t)) -> at_ rest' (key t) = at_ rest (key t) ->
    M' (key t) = M (key t) -> M' (tBegin t) = M (tBegin t) -> slot pre rest M t -> slot pre' rest' M' t.
  Proof. intros S1 E1 E2 E3. unfold slot. rewrite E1, E2, E3. destruct (hasInit t); [|auto]. tauto. Qed.
  Lemma key_begin t : hasInit t = false -> key t = tBegin t.
  Proof. unfold hasInit, key. destruct (tKind t) as [[i|]| | |]; try reflexivity. discriminate. Qed.
  (* a loop *)
  Lemma loop_step pre t post lpre l rest s : ts = pre ++ t :: post -> ls = lpre ++ l :: rest -> isLoop t = true ->
    origin (lId l) = tId t -> inv pre lpre (l :: rest) s ->
    exists s', visitExplicit false ls t s = Done s' /\ inv (pre ++ [t]) (lpre ++ [l]) rest s'.
  Proof.
    intros Et El Lp Or (Sl & No & Im & Ma & Un).
    assert (It : In t ts) by (rewrite Et; apply in_app_iff; right; left; reflexivity).
    assert (Il : In l ls) by (rewrite El; apply in_app_iff; right; left; reflexivity).
    destruct (Locs l t Il It (eq_sym Or)) as [Ls Lh].
    destruct Text as (Tx & _ & _ & _).
    assert (At : at_ (l :: rest) (key t) = lId l :: at_ rest (key t)) by (rewrite at_cons, Ls, Nat.eqb_refl; reflexivity).
    assert (AtO : forall k, k <> key t -> at_ (l :: rest) k = at_ rest k).
    { intros k N. rewrite at_cons, Ls. destruct (Nat.eqb_spec (key t) k); [congruence|reflexivity]. }
    assert (Hd : header ls (lId l) = Some (tBegin t)) by (rewrite (header_eq ls l Nl Il); exact Lh).
    assert (Fresh : emplace (tId t) (Some (lId l)) (mMatch s) = map (fun l => (origin (lId l), Some (lId l))) (lpre ++ [l])).
    { rewrite Ma, map_app. cbn [map]. rewrite Or. apply lemplace_fresh.
      - rewrite map_map. cbn. rewrite <- Or. assert (N : NoDup (map (fun l => origin (lId l)) ls)).
        { rewrite Complete. clear -Nt. induction ts as [|v us IH]; [constructor|]. cbn in Nt |- *. inversion Nt as [|? ? Nv N']; subst.
          destruct (isLoop v); [|exact (IH N')]. cbn. constructor; [|exact (IH N')]. intro Q. apply Nv.
          apply in_map_iff in Q as (u & Eu & Iu). apply filter_In in Iu as [Iu _]. rewrite <- Eu. apply in_map; exact Iu. }
        rewrite El, map_app in N. cbn in N. apply NoDup_remove_2 in N. intro Q. apply N. apply in_app_iff. left; exact Q.
      - rewrite map_map. cbn. intro Q. apply in_map_iff in Q as (l' & E' & I'). injection E' as E'.
        rewrite El, map_app in Nl. cbn in Nl. apply NoDup_remove_2 in Nl. apply Nl. apply in_app_iff. left. rewrite <- E'. apply in_map; exact I'. }
    (* other loops *)
    assert (Frame : forall M' v, (forall k, k <> key t -> k <> tBegin t -> M' k = mMap s k) ->
      (if hasInit t then (M' (key t) = Some (Queue false []) /\ M' (tBegin t) = None /\ at_ rest (key t) = []) \/
         (M' (key t) = None /\ M' (tBegin t) = Some (Queue v (rev (at_ rest (key t)))))
       else M' (tBegin t) = Some (Queue v (rev (at_ rest (key t))))) ->
      (forall u, In u ts -> isLoop u = true -> slot (pre ++ [t]) rest M' u) /\
      (forall k, (forall t, In t ts -> isLoop t = true -> k <> key t /\ k <> tBegin t) -> M' k = None)).
    { intros M' v Oth Own. split.
      - intros u Iu Lu. destruct (Nat.eq_dec (key u) (key t)) as [Ek|Nk].
        + destruct (Tx u t Iu It Lu Lp (or_introl Ek)) as [Ekind Ebeg].
          unfold slot. assert (Ei : hasInit u = hasInit t) by (unfold hasInit; rewrite Ekind; reflexivity). rewrite Ei, Ek, Ebeg.
          destruct (hasInit t).
          * split.
            -- intros _. destruct Own as [Q|[Q1 Q2]]; [left; exact Q|right; split; [exact Q1|exists v; exact Q2]].
            -- intro Q. destruct Q. apply seen_snoc. right; auto.
          * exists v; exact Own.
        + assert (Nb : tBegin u <> tBegin t).
          { intro Q. destruct (Tx u t Iu It Lu Lp (or_intror (or_introl Q))) as [K1 K2]. apply Nk. unfold key. rewrite K1, K2. reflexivity. }
          assert (Nkb : key u <> tBegin t).
          { intro Q. destruct (Tx u t Iu It Lu Lp (or_intror (or_intror Q))) as [K1 K2]. apply Nk. unfold key. rewrite K1, K2. reflexivity. }
          assert (Nbk : tBegin u <> key t).
          { intro Q. destruct (Tx t u It Iu Lp Lu (or_intror (or_intror (eq_sym Q)))) as [K1 K2]. apply Nk. unfold key. rewrite K1, K2. reflexivity. }
          apply (slot_same pre (pre ++ [t]) (l :: rest) rest (mMap s) M' u).
          * rewrite seen_snoc. split; [intros [Q|[_ Q]]; [exact Q|congruence]|left; assumption].
          * symmetry. apply AtO. exact Nk.
          * apply Oth; assumption.
          * apply Oth; assumption.
          * exact (Sl u Iu Lu).
      - intros k Hk. destruct (Hk t It Lp) as [N1 N2]. rewrite (Oth k N1 N2). exact (No k Hk). }
    (* a search by the beginning *)
    assert (Acc : forall v, mMap s (tBegin t) = Some (Queue v (rev (at_ (l :: rest) (key t)))) ->
      visitAccurate false ls t s = Done (LState (upd (mMap s) (tBegin t) (Queue v (rev (at_ rest (key t))))) (mImp s)
        (emplace (tId t) (Some (lId l)) (mMatch s)) (mUnmatched s))).
    { intros v E. unfold visitAccurate, findIRForLocation. rewrite E. cbn [qItems qVec]. rewrite rev_involutive, At, Lp. reflexivity. }
    specialize (Sl t It Lp). unfold slot in Sl. unfold visitExplicit. destruct (hasInit t) eqn:Hi.
    - assert (Ki : tKind t = KFor (Some (key t))).
      { unfold hasInit in Hi. unfold key. destruct (tKind t) as [[i|]| | |]; try discriminate Hi. reflexivity. }
      rewrite Ki. destruct Sl as [Sy Sn]. destruct (seen_dec pre (key t)) as [Se|Se].
      + destruct (Sy Se) as [(_ & _ & Q)|[Q (v & Qb)]]; [rewrite At in Q; discriminate Q|]. rewrite Q, (Acc v Qb).
        eexists. split; [reflexivity|].
        destruct (Frame (upd (mMap s) (tBegin t) (Queue v (rev (at_ rest (key t))))) v) as [F1 F2].
        * intros k _ N. apply upd_other. congruence.
        * right. split; [|apply upd_same]. rewrite upd_other; [exact Q|]. intro W. rewrite W in Qb. congruence.
        * split; [exact F1|]. split; [exact F2|]. split; [exact Im|split; [exact Fresh|exact Un]].
      + destruct (Sn Se) as [Q Qb]. rewrite Q. unfold visitInit. cbn [qItems qVec]. rewrite rev_involutive, At.
        destruct (at_ rest (key t)) as [|y r] eqn:Ar.
        * eexists. split; [reflexivity|].
          destruct (Frame (upd (mMap s) (key t) (Queue false [])) false) as [F1 F2].
          -- intros k N _. apply upd_other. congruence.
          -- left. split; [apply upd_same|]. split; [|reflexivity]. rewrite upd_other; [exact Qb|]. intro W. rewrite W in Q. congruence.
          -- split; [exact F1|]. split; [exact F2|]. split; [exact Im|split; [exact Fresh|exact Un]].
        * rewrite Hd. cbn [locEq]. rewrite Nat.eqb_refl. eexists. split; [reflexivity|].
          assert (Nkb : key t <> tBegin t) by (intro W; rewrite W in Q; congruence).
          unfold insertLoc. replace (removeLoc (mMap s) (key t) (tBegin t)) with (@None queue).
          2:{ unfold removeLoc. apply Nat.eqb_neq in Nkb. rewrite Nkb. symmetry. exact Qb. }
          set (v := 1 <? length (lId l :: y :: r)).
          destruct (Frame (upd (removeLoc (mMap s) (key t)) (tBegin t) (Queue v (rev (y :: r)))) v) as [F1 F2].
          -- intros k N1 N2. rewrite upd_other by congruence. unfold removeLoc. destruct (Nat.eqb_spec (key t) k); [congruence|reflexivity].
          -- right. split; [|apply upd_same]. rewrite upd_other by congruence. unfold removeLoc. rewrite Nat.eqb_refl. reflexivity.
          -- split; [exact F1|]. split; [exact F2|]. split; [exact Im|split; [exact Fresh|exact Un]].
    - destruct Sl as (v & Q).
      assert (E : visitExplicit false ls t s = visitAccurate false ls t s).
      { unfold visitExplicit. unfold hasInit in Hi. destruct (tKind t) as [[i|]| | |]; try reflexivity. discriminate Hi. }
      unfold visitExplicit in E. rewrite E, (Acc v Q). eexists. split; [reflexivity|].
      destruct (Frame (upd (mMap s) (tBegin t) (Queue v (rev (at_ rest (key t))))) v) as [F1 F2].
      * intros k _ N. apply upd_other. congruence.
      * apply upd_same.
      * split; [exact F1|]. split; [exact F2|]. split; [exact Im|split; [exact Fresh|exact Un]].
  Qed.
  (* other statements *)
  Lemma plain_step pre t post lpre rest s : ts = pre ++ t :: post -> isLoop t = false -> inv pre lpre rest s ->
    exists s', visitExplicit false ls t s = Done s' /\ inv (pre ++ [t]) lpre rest s'.
  Proof.
    intros Et Lp (Sl & No & Im & Ma & Un).
    assert (It : In t ts) by (rewrite Et; apply in_app_iff; right; left; reflexivity).
    assert (E : visitExplicit false ls t s = visitAccurate false ls t s).
    { unfold visitExplicit. unfold isLoop in Lp. destruct (tKind t); try discriminate Lp; reflexivity. }
    assert (F : findIRForLocation false (mMap s) (tBegin t) = Done (None, mMap s)).
    { unfold findIRForLocation. destruct (mMap s (tBegin t)) as [q|] eqn:Q; [|reflexivity].
      destruct (existsb (fun u => isLoop u && (Nat.eqb (tBegin t) (key u) || Nat.eqb (tBegin t) (tBegin u))) ts) eqn:Ex.
      - apply existsb_exists in Ex as (u & Iu & Eu). apply andb_true_iff in Eu as [Lu Eu]. destruct Text as (_ & T2 & T3 & _).
        apply orb_true_iff in Eu as [Eu|Eu]; apply Nat.eqb_eq in Eu; [|destruct (T2 u t Iu It Lu Lp Eu)].
        destruct (T3 pre t post u Et Lp Iu Lu Eu) as (t' & It' & Lt' & Kt').
        assert (Hu : hasInit u = true).
        { destruct (hasInit u) eqn:Hu; [reflexivity|]. rewrite (key_begin u Hu) in Eu. destruct (T2 u t Iu It Lu Lp Eu). }
        specialize (Sl u Iu Lu). unfold slot in Sl. rewrite Hu in Sl. destruct Sl as [Sy _].
        destruct (Sy (ex_intro _ t' (conj It' (conj Lt' Kt')))) as [(W & _)|(W & _)]; rewrite <- Eu, Q in W; [|discriminate W].
        injection W as ->. reflexivity.
      - assert (W : mMap s (tBegin t) = None); [|congruence]. apply No. intros u Iu Lu.
        assert (Z : isLoop u && (Nat.eqb (tBegin t) (key u) || Nat.eqb (tBegin t) (tBegin u)) = false).
        { destruct (isLoop u && _) eqn:Z; [|reflexivity]. assert (Y : existsb (fun u => isLoop u && (Nat.eqb (tBegin t) (key u) || Nat.eqb (tBegin t) (tBegin u))) ts = true); [|congruence].
          apply existsb_exists. exists u. split; assumption. }
        rewrite Lu in Z. cbn in Z. apply orb_false_iff in Z as [Z1 Z2]. apply Nat.eqb_neq in Z1, Z2. split; assumption. }
    rewrite E. unfold visitAccurate. rewrite F, Lp. eexists. split; [reflexivity|].
    split; [|split; [exact No|split; [exact Im|split; [exact Ma|exact Un]]]].
    intros u Iu Lu. apply (slot_same pre (pre ++ [t]) rest rest (mMap s) (mMap s) u); try reflexivity; [|exact (Sl u Iu Lu)].
    rewrite seen_snoc. split; [intros [Q|[Q _]]; [exact Q|congruence]|left; assumption].
  Qed.
  Lemma all_step post : forall pre lpre rest s, ts = pre ++ post -> ls = lpre ++ rest ->
    map (fun l => origin (lId l)) rest = map tId (filter isLoop post) -> inv pre lpre rest s ->
    exists s', visitAll false ls post s = Done s' /\ inv ts ls [] s'.
  Proof.
    induction post as [|t post IH]; intros pre lpre rest s Et El Eo H; cbn [visitAll].
    - exists s. split; [reflexivity|]. rewrite app_nil_r in Et. cbn in Eo. destruct rest; [|discriminate Eo].
      rewrite app_nil_r in El. rewrite Et, El. exact H.
    - cbn [filter] in Eo. destruct (isLoop t) eqn:Lp.
      + destruct rest as [|l rest]; [discriminate Eo|]. cbn in Eo. injection Eo as E1 Eo.
        destruct (loop_step pre t post lpre l rest s Et El Lp E1 H) as (s' & -> & H').
        apply (IH (pre ++ [t]) (lpre ++ [l]) rest s'); [rewrite <- app_assoc; exact Et|rewrite <- app_assoc; exact El|exact Eo|exact H'].
      + destruct (plain_step pre t post lpre rest s Et Lp H) as (s' & -> & H').
        apply (IH (pre ++ [t]) lpre rest s'); [rewrite <- app_assoc; exact Et|exact El|exact Eo|exact H'].
  Qed.
  Lemma at_key_nonempty t : In t ts -> isLoop t = true -> at_ ls (key t) <> [].
  Proof.
    intros It Lp Q. assert (I1 : In (tId t) (map (fun l => origin (lId l)) ls)).
    { rewrite Complete. apply in_map. apply filter_In. split; assumption. }
    apply in_map_iff in I1 as (l & El & Il). destruct (Locs l t Il It (eq_sym El)) as [Ls _].
    assert (W : In (lId l) (at_ ls (key t))); [|rewrite Q in W; destruct W].
    apply instrsAt_In. unfold instrs. apply in_map_iff. exists l. rewrite Ls. split; [reflexivity|exact Il].
  Qed.
  Lemma at_owner k : at_ ls k <> [] -> exists t, In t ts /\ isLoop t = true /\ key t = k.
  Proof.
    intro N. destruct (at_ ls k) as [|x r] eqn:E; [contradiction|]. assert (I1 : In x (at_ ls k)) by (rewrite E; left; reflexivity).
    apply instrsAt_In in I1. unfold instrs in I1. apply in_map_iff in I1 as (l & Q & Il). injection Q as <- Ls.
    assert (Io : In (origin (lId l)) (map tId (filter isLoop ts))) by (rewrite <- Complete; apply (in_map (fun l => origin (lId l))); exact Il).
    apply in_map_iff in Io as (t & Et & It). apply filter_In in It as [It Lt]. destruct (Locs l t Il It Et) as [Ls' _].
    exists t. split; [exact It|]. split; [exact Lt|]. congruence.
  Qed.
  Lemma inv_start : inv [] [] ls (LState (start (instrs ls)) (fun _ => None) [] []).
  Proof.
    assert (St : forall k, start (instrs ls) k = match at_ ls k with [] => None | x => Some (Queue (1 <? length x) (rev x)) end).
    { intro k. pose proof (start_at (instrs ls) k) as H. pose proof (start_vec (instrs ls) k) as V.
      unfold at_. destruct (start (instrs ls) k) as [[v q]|].
      - destruct H as [H N]. specialize (V _ eq_refl). cbn in H, V. subst q v. rewrite rev_length.
        destruct (instrsAt (instrs ls) k); [contradiction|reflexivity].
      - rewrite H. reflexivity. }
    assert (Some_ : forall t, In t ts -> isLoop t = true -> start (instrs ls) (key t) = Some (Queue (1 <? length (at_ ls (key t))) (rev (at_ ls (key t))))).
    { intros t It Lt. rewrite St. pose proof (at_key_nonempty t It Lt) as N. destruct (at_ ls (key t)); [contradiction|reflexivity]. }
    assert (None_ : forall k, (forall t, In t ts -> isLoop t = true -> key t <> k) -> start (instrs ls) k = None).
    { intros k H. rewrite St. destruct (at_ ls k) as [|x r] eqn:E; [reflexivity|].
      destruct (at_owner k) as (t & It & Lt & Kt); [rewrite E; discriminate|]. destruct (H t It Lt Kt). }
    split; [|split; [|split; [reflexivity|split; reflexivity]]]; cbn [mMap].
    - intros t It Lt. unfold slot. destruct (hasInit t) eqn:Hi.
      + split; [intros (u & [] & _)|]. intros _. split; [apply Some_; assumption|]. apply None_. intros u Iu Lu Ku.
        destruct Text as (Tx & _ & _ & _). destruct (Tx u t Iu It Lu Lt (or_intror (or_intror Ku))) as [K1 K2].
        assert (Ek : key t = tBegin t) by (unfold key in *; rewrite K1, K2 in Ku; exact Ku).
        destruct Text as (_ & _ & _ & T4). clear -T4 It Hi Ek. unfold hasInit in Hi. unfold key in Ek.
        destruct (tKind t) as [[i|]| | |] eqn:K; try discriminate Hi. exact (T4 t i It K Ek).
      + rewrite <- (key_begin t Hi). exists (1 <? length (at_ ls (key t))). apply Some_; assumption.
    - intros k H. apply None_. intros t It Lt Kt. destruct (H t It Lt) as [N _]. congruence.
  Qed.
End Explicit.
Lemma implicit_nothing us : forall label s, (forall l, mImp s l = None) ->
  exists s', visitImplicit false us label s = Done s' /\ mMatch s' = mMatch s /\ mUnmatched s' = mUnmatched s.
Proof.
  induction us as [|t us IH]; intros label s H; cbn [visitImplicit]; [exists s; auto|].
  destruct (tKind t); try (apply IH; exact H). destruct label as [lab|]; [|apply IH; exact H].
  unfold findIRForLocation. rewrite (H (tBegin t)).
  destruct (IH (Some lab) (LState (mMap s) (mImp s) (mMatch s) (mUnmatched s)) H) as (s' & E & M & U). exists s'. split; [exact E|]. split; [exact M|exact U].
Qed.
Lemma match_true : C87_match_claim false true true.
Proof.
  intros ts ls origin Nt Nl Tx _ Co Lo. specialize (Co eq_refl).
  assert (Lo' : forall l t, In l ls -> In t ts -> tId t = origin (lId l) -> lStart l = Some (key t) /\ lHeader l = Some (tBegin t)).
  { intros l t Il It E. destruct (Lo l t Il It E) as [A B]. split; [exact A|exact (B eq_refl)]. }
  destruct (all_step ts ls origin Nt Nl Tx Co Lo' ts [] [] ls _ eq_refl eq_refl Co (inv_start ts ls origin Tx Co Lo')) as (s1 & E1 & H).
  destruct H as (_ & _ & Im & Ma & Un). unfold runLoops.
  change (reverseAll (collect _ (fun _ => None))) with (start (instrs ls)). rewrite E1.
  destruct (implicit_nothing ts None (LState (mMap s1) (reverseAll (mImp s1)) (mMatch s1) (mUnmatched s1))) as (s & E & M & U).
  { intro l. cbn [mImp]. unfold reverseAll. rewrite Im. reflexivity. }
  exists s. split; [exact E|]. split.
  - intros n o. rewrite M. cbn [mMatch]. rewrite Ma, in_map_iff. split.
    + intros (l & Q & Il). injection Q as <- <-. exists l. auto.
    + intros (l & Il & -> & ->). exists l. auto.
  - intro n. rewrite U. cbn [mUnmatched]. rewrite Un. split; [intros []|]. intros (t & It & Lt & Et & N). destruct N.
    assert (I1 : In n (map (fun l => origin (lId l)) ls)) by (rewrite Co, <- Et; apply in_map, filter_In; split; assumption).
    apply in_map_iff in I1 as (l & El & Il). exists l. auto.
Qed.
(** * Refutations *)
(* for (i = 0; ...) *)
Definition oneFor : list stmt := [Stmt 0 (KFor (Some 2)) 1; Stmt 1 KPlain 2].
(* #include of the text above two times *)
Definition twoFor : list stmt := [Stmt 0 (KFor (Some 2)) 1; Stmt 1 KPlain 2; Stmt 2 (KFor (Some 2)) 1; Stmt 3 KPlain 2].
Ltac split4 := match goal with |- _ /\ _ /\ _ /\ _ => split; [|split; [|split]] end.
Lemma ok_one : textOk oneFor.
Proof.
  unfold oneFor, textOk. split4.
  - intros t u [<-|[<-|[]]] [<-|[<-|[]]] A B _; try discriminate A; try discriminate B. split; reflexivity.
  - intros t u [<-|[<-|[]]] [<-|[<-|[]]] A B; try discriminate A; try discriminate B; try (cbn; discriminate).
  - intros a u b t E Lu It Lt Q. destruct a as [|v a]; [injection E as <- _; discriminate Lu|]. injection E as <- E.
    exists (Stmt 0 (KFor (Some 2)) 1). split; [left; reflexivity|]. split; [reflexivity|].
    destruct It as [<-|[<-|[]]]; [reflexivity|discriminate Lt].
  - intros t i [<-|[<-|[]]] K; [injection K as <-; discriminate|discriminate K].
Qed.
Lemma ok_two : textOk twoFor.
Proof.
  unfold twoFor, textOk. split4.
  - intros t u [<-|[<-|[<-|[<-|[]]]]] [<-|[<-|[<-|[<-|[]]]]] A B _; try discriminate A; try discriminate B; split; reflexivity.
  - intros t u [<-|[<-|[<-|[<-|[]]]]] [<-|[<-|[<-|[<-|[]]]]] A B; try discriminate A; try discriminate B; cbn; discriminate.
  - intros a u b t E Lu It Lt Q. destruct a as [|v a]; [injection E as <- _; discriminate Lu|]. injection E as <- E.
    exists (Stmt 0 (KFor (Some 2)) 1). split; [left; reflexivity|]. split; [reflexivity|].
    destruct It as [<-|[<-|[<-|[<-|[]]]]]; try reflexivity; discriminate Lt.
  - intros t i [<-|[<-|[<-|[<-|[]]]]] K; try (injection K as <-; discriminate); discriminate K.
Qed.
Ltac nodup := cbn; repeat (constructor; [cbn; intuition discriminate|]); constructor.
Lemma match_refuted_asserts : ~ C87_match_claim true true true.
Proof.
  intro H. destruct (H oneFor [Loop 5 (Some 2) (Some 1)] (fun _ => 0)) as (s & E & _).
  - nodup.
  - nodup.
  - exact ok_one.
  - exists (fun _ => true). reflexivity.
  - reflexivity.
  - intros l t [<-|[]] [<-|[<-|[]]] E; [|discriminate E]. split; reflexivity.
  - vm_compute in E. discriminate E.
Qed.
Lemma match_refuted_complete : ~ C87_match_claim false false true.
Proof.
  intro H. destruct (H twoFor [Loop 5 (Some 2) (Some 1)] (fun _ => 2)) as (s & E & P & _).
  - nodup.
  - nodup.
  - exact ok_two.
  - exists (fun n => Nat.eqb n 2). reflexivity.
  - discriminate.
  - intros l t [<-|[]] [<-|[<-|[<-|[<-|[]]]]] E; try discriminate E. split; reflexivity.
  - vm_compute in E. injection E as <-. specialize (P 0 (Some 5)). cbn in P. destruct P as [P _].
    destruct P as (l & [<-|[]] & Q & _); [left; reflexivity|discriminate Q].
Qed.
Lemma match_refuted_header : ~ C87_match_claim false true false.
Proof.
  intro H. destruct (H twoFor [Loop 5 (Some 2) None; Loop 6 (Some 2) None] (fun x => if Nat.eqb x 5 then 0 else 2)) as (s & E & P & _).
  - nodup.
  - nodup.
  - exact ok_two.
  - exists (fun n => true). reflexivity.
  - reflexivity.
  - intros l t [<-|[<-|[]]] [<-|[<-|[<-|[<-|[]]]]] Q; try discriminate Q; (split; [reflexivity|discriminate]).
  - vm_compute in E. injection E as <-. specialize (P 2 (Some 6)). cbn in P. destruct P as [_ P].
    destruct P as [P|[]]; [|discriminate P]. exists (Loop 6 (Some 2) None). auto.
Qed.
(* l1: x; l2: if (c) goto l1; *)
Definition twoLabels : list stmt := [Stmt 0 KLabel 1; Stmt 1 KPlain 2; Stmt 2 KLabel 3; Stmt 3 KPlain 4].
Lemma implicit_refuted : ~ C87_implicit_claim false.
Proof.
  intro H. destruct (runLoops false twoLabels [Loop 5 (Some 2) (Some 4)]) as [|s] eqn:E; [vm_compute in E; discriminate E|].
  assert (Q : 2 = 0); [|discriminate Q].
  apply (H false twoLabels [Loop 5 (Some 2) (Some 4)] (fun _ => 0) s 2 5).
  - nodup.
  - intros l h a u b [<-|[]] Q Et Ku Eu. injection Q as <-. exists [], (Stmt 0 KLabel 1).
    destruct a as [|v [|v1 [|v2 [|v3 a]]]]; cbn in Et; injection Et as; subst; try discriminate Ku; try discriminate Eu.
    + exists [Stmt 1 KPlain 2; Stmt 2 KLabel 3]. repeat split. discriminate.
    + destruct a; discriminate.
  - exact E.
  - vm_compute in E. injection E as <-. left. reflexivity.
  - exists (Stmt 2 KLabel 3). split; [right; right; left; reflexivity|]. split; reflexivity.
Qed.
(** * Reports *)
Section Reported.
  Variable asserts : bool.
  Variable ls : list irloop.
  Definition fresh (s : lstate) : Prop :=
    (forall k q, mMap s k = Some q -> NoDup (qItems q) /\ forall x, In x (qItems q) -> ~ In (Some x) (map snd (mMatch s))) /\
    (forall k k' q q' x, mMap s k = Some q -> mMap s k' = Some q' -> In x (qItems q) -> In x (qItems q') -> k = k').
  Definition told (n : nat) (s : lstate) : Prop := In n (map fst (mMatch s)) \/ In n (mUnmatched s).
  Lemma emplace_mono n m o B : In n (map fst B) -> In n (map fst (emplace m o B)).
  Proof. intro H. unfold emplace. destruct (existsb _ B); [exact H|]. rewrite map_app. apply in_app_iff. left; exact H. Qed.
  (* an element x is removed from a queue at k, the rest may be moved to other location *)
  Lemma fresh_pop s M I2 U k q x r n : fresh s -> mMap s k = Some q -> rev (qItems q) = x :: r ->
    (forall k' q', M k' = Some q' -> (k' <> k /\ mMap s k' = Some q') \/ (qItems q' = rev r)) ->
    (forall k1 k2 q1 q2, M k1 = Some q1 -> M k2 = Some q2 -> qItems q1 = rev r -> qItems q2 = rev r -> k1 <> k2 ->
       ~ (k1 <> k /\ mMap s k1 = Some q1) -> ~ (k2 <> k /\ mMap s k2 = Some q2) -> False) ->
    fresh (LState M I2 (emplace n (Some x) (mMatch s)) U).
  Proof.
    intros [F1 F2] Q R Old One. pose proof (F1 k q Q) as [N Fr].
    assert (Nr : NoDup (rev r) /\ ~ In x (rev r) /\ forall y, In y (rev r) -> In y (qItems q)).
    { assert (E : qItems q = rev r ++ [x]) by (rewrite <- (rev_involutive (qItems q)), R; reflexivity). rewrite E in N |- *.
      apply NoDup_remove in N. rewrite app_nil_r in N. destruct N as [N1 N2]. split; [exact N1|]. split; [exact N2|].
      intros y Iy. apply in_app_iff. left; exact Iy. }
    destruct Nr as (N1 & N2 & N3).
    assert (Ix : In x (qItems q)) by (apply in_rev; rewrite R; left; reflexivity).
    assert (Em : forall y, y <> x -> ~ In (Some y) (map snd (mMatch s)) -> ~ In (Some y) (map snd (emplace n (Some x) (mMatch s)))).
    { intros y Ny H1 H2. apply in_map_iff in H2 as (p & E & H2). apply lemplace_In in H2 as [H2| ->].
      - apply H1. apply in_map_iff. exists p. auto.
      - cbn in E. congruence. }
    split; cbn [mMap mMatch].
    - intros k' q' H. destruct (Old k' q' H) as [[Nk H']|E].
      + destruct (F1 k' q' H') as [A B]. split; [exact A|]. intros y Iy. apply Em; [|exact (B y Iy)].
        intros ->. apply Nk. exact (F2 k' k q' q x H' Q Iy Ix).
      + rewrite E. split; [exact N1|]. intros y Iy. apply Em; [congruence|]. exact (Fr y (N3 y Iy)).
    - intros k1 k2 q1 q2 y H1 H2 I1 I2'.
      assert (Cl : forall k' q', M k' = Some q' -> In y (qItems q') -> {k' <> k /\ mMap s k' = Some q'} + {qItems q' = rev r /\ ~ (k' <> k /\ mMap s k' = Some q')}).
      { intros k' q' H Iy. destruct (Nat.eq_dec k' k) as [E|E].
        - right. destruct (Old k' q' H) as [[A _]|A]; [congruence|]. split; [exact A|tauto].
        - destruct (mMap s k') as [q''|] eqn:E''.
          + destruct (list_eq_dec Nat.eq_dec (qItems q') (rev r)) as [Er|Er].
            * right. split; [exact Er|]. intros [_ W]. injection W as ->. apply E.
              apply (F2 k' k q' q y E'' Q Iy). apply N3. rewrite <- Er. exact Iy.
            * left. destruct (Old k' q' H) as [[A B]|A]; [rewrite E'' in B; auto|contradiction].
          + right. destruct (Old k' q' H) as [[A B]|A]; [congruence|]. split; [exact A|]. intros [_ W]; discriminate W. }
      destruct (Cl k1 q1 H1 I1) as [[A1 B1]|[A1 B1]], (Cl k2 q2 H2 I2') as [[A2 B2]|[A2 B2]].
      + exact (F2 k1 k2 q1 q2 y B1 B2 I1 I2').
      + exfalso. rewrite A2 in I2'. apply A1. exact (F2 k1 k q1 q y B1 Q I1 (N3 y I2')).
      + exfalso. rewrite A1 in I1. apply A2. exact (F2 k2 k q2 q y B2 Q I2' (N3 y I1)).
      + destruct (Nat.eq_dec k1 k2) as [E|E]; [exact E|]. exfalso. exact (One k1 k2 q1 q2 H1 H2 A1 A2 E B1 B2).
  Qed.
  Lemma fresh_weaken s M I2 B U : fresh s -> (forall k q, M k = Some q -> mMap s k = Some q \/ exists q0, mMap s k = Some q0 /\ NoDup (qItems q) /\ incl (qItems q) (qItems q0)) ->
    (forall x, In (Some x) (map snd B) -> In (Some x) (map snd (mMatch s))) -> fresh (LState M I2 B U).
  Proof.
    intros [F1 F2] Old Sub.
    assert (Old' : forall k q, M k = Some q -> exists q0, mMap s k = Some q0 /\ NoDup (qItems q) /\ incl (qItems q) (qItems q0)).
    { intros k q H. destruct (Old k q H) as [H'|H']; [|exact H']. exists q. split; [exact H'|]. split; [exact (proj1 (F1 k q H'))|apply incl_refl]. }
    split; cbn [mMap mMatch].
    - intros k q H. destruct (Old' k q H) as (q0 & H0 & N & In0). split; [exact N|]. intros x Ix Q. exact (proj2 (F1 k q0 H0) x (In0 x Ix) (Sub x Q)).
    - intros k k' q q' x H H' Ix Ix'. destruct (Old' k q H) as (q0 & H0 & _ & A), (Old' k' q' H') as (q1 & H1 & _ & A').
      exact (F2 k k' q0 q1 x H0 H1 (A x Ix) (A' x Ix')).
  Qed.
  Lemma pop_upd s k q x r v : mMap s k = Some q -> rev (qItems q) = x :: r ->
    (forall k' q', upd (mMap s) k (Queue v (rev r)) k' = Some q' -> (k' <> k /\ mMap s k' = Some q') \/ (qItems q' = rev r)) /\
    (forall k1 k2 q1 q2, upd (mMap s) k (Queue v (rev r)) k1 = Some q1 -> upd (mMap s) k (Queue v (rev r)) k2 = Some q2 ->
       qItems q1 = rev r -> qItems q2 = rev r -> k1 <> k2 ->
       ~ (k1 <> k /\ mMap s k1 = Some q1) -> ~ (k2 <> k /\ mMap s k2 = Some q2) -> False).
  Proof.
    intros Q R. split.
    - intros k' q'. unfold upd. destruct (Nat.eqb_spec k k') as [->|N]; intro E; [right; injection E as <-; reflexivity|left; split; [congruence|exact E]].
    - intros k1 k2 q1 q2 E1 E2 _ _ N A1 A2. unfold upd in E1, E2.
      destruct (Nat.eqb_spec k k1) as [->|N1]; [|apply A1; split; [congruence|exact E1]].
      destruct (Nat.eqb_spec k1 k2) as [->|N2]; [congruence|apply A2; split; [congruence|exact E2]].
  Qed.
  Lemma explicit_fresh t s s' : fresh s -> visitExplicit asserts ls t s = Done s' ->
    fresh s' /\ (forall n, told n s -> told n s') /\ (isLoop t = true -> (forall i, tKind t <> KFor (Some i)) -> told (tId t) s').
  Proof.
    intro F.
    assert (Acc : visitAccurate asserts ls t s = Done s' ->
      fresh s' /\ (forall n, told n s -> told n s') /\ (isLoop t = true -> told (tId t) s')).
    { unfold visitAccurate, findIRForLocation. destruct (mMap s (tBegin t)) as [q|] eqn:Q.
      - destruct (rev (qItems q)) as [|x r] eqn:R.
        + destruct (asserts || qVec q); [discriminate|]. destruct (isLoop t) eqn:Lp; intro E; injection E as <-.
          * split; [apply (fresh_weaken s); auto|]. split; [intros n [H|H]; [left; exact H|right; right; exact H]|intros _; right; left; reflexivity].
          * split; [apply (fresh_weaken s); auto|]. split; [intros n H; exact H|discriminate].
        + destruct (pop_upd s (tBegin t) q x r (qVec q) Q R) as [P1 P2].
          assert (FX : x = x -> ~ In (Some x) (map snd (mMatch s))).
          { intros _. apply (proj2 (proj1 F _ _ Q)). apply in_rev. rewrite R. left; reflexivity. }
          destruct (isLoop t) eqn:Lp.
          * intro E; injection E as <-. split; [exact (fresh_pop s _ _ _ _ q x r (tId t) F Q R P1 P2)|]. split.
            -- intros n [H|H]; [left; apply emplace_mono; exact H|right; exact H].
            -- intros _. left. cbn [mMatch]. destruct (lemplace_cases (tId t) (Some x) (mMatch s)) as [[E1 (p & I1 & [W|W])]|[E1 _]]; rewrite E1.
               ++ apply in_map_iff. exists p. auto.
               ++ destruct (FX eq_refl). apply in_map_iff. exists p. auto.
               ++ rewrite map_app. apply in_app_iff. right; left; reflexivity.
          * assert (W : forall I2 U, fresh (LState (upd (mMap s) (tBegin t) (Queue (qVec q) (rev r))) I2 (mMatch s) U)).
            { intros I2 U. apply (fresh_weaken s); [exact F| |auto]. intros k q'. unfold upd. destruct (Nat.eqb_spec (tBegin t) k) as [<-|N]; [|auto].
              intro E; injection E as <-. right. exists q. split; [exact Q|]. pose proof (proj1 (proj1 F _ _ Q)) as Nq.
              assert (Eq : qItems q = rev r ++ [x]) by (rewrite <- (rev_involutive (qItems q)), R; reflexivity). rewrite Eq in Nq |- *.
              apply NoDup_remove in Nq. rewrite app_nil_r in Nq. cbn [qItems]. split; [exact (proj1 Nq)|]. intros y Iy. apply in_app_iff. left; exact Iy. }
            destruct (header ls x) as [h|]; intro E; injection E as <-; (split; [apply W|]); (split; [intros n H; exact H|discriminate]).
      - destruct (isLoop t) eqn:Lp; intro E; injection E as <-.
        + split; [apply (fresh_weaken s); auto|]. split; [intros n [H|H]; [left; exact H|right; right; exact H]|intros _; right; left; reflexivity].
        + split; [apply (fresh_weaken s); auto|]. split; [intros n H; exact H|discriminate]. }
    unfold visitExplicit. destruct (tKind t) as [[i|]| | |] eqn:Kt; try (intro E; destruct (Acc E) as (A & B & C); split; [exact A|split; [exact B|intros L _; exact (C L)]]).
    destruct (mMap s i) as [q|] eqn:Q; [|intro E; destruct (Acc E) as (A & B & C); split; [exact A|split; [exact B|intros L _; exact (C L)]]].
    intro E. assert (G : fresh s' /\ forall n, told n s -> told n s').
    2:{ destruct G as [G1 G2]. split; [exact G1|]. split; [exact G2|]. intros _ N. destruct (N i eq_refl). }
    clear Acc. unfold visitInit in E. destruct (rev (qItems q)) as [|x r] eqn:R.
    - destruct (asserts || qVec q); [discriminate E|]. injection E as <-. split.
      + apply (fresh_weaken s); [exact F|auto|]. intros x Ix. apply in_map_iff in Ix as (p & E & Ip). apply lemplace_In in Ip as [Ip| ->]; [|discriminate E].
        apply in_map_iff. exists p. auto.
      + intros n [H|H]; [left; apply emplace_mono; exact H|right; exact H].
    - assert (To : forall M n U, told n (LState M (mImp s) (mMatch s) U) -> told n (LState M (mImp s) (emplace (tId t) (Some x) (mMatch s)) U)).
      { intros M n U [H|H]; [left; apply emplace_mono; exact H|right; exact H]. }
      destruct r as [|y r].
      + injection E as <-. destruct (pop_upd s i q x [] (qVec q) Q R) as [P1 P2]. split; [exact (fresh_pop s _ _ _ _ q x [] (tId t) F Q R P1 P2)|].
        intros n H. apply To. exact H.
      + injection E as <-. split; [|intros n H; apply To; exact H].
        apply (fresh_pop s _ _ _ i q x (y :: r) (tId t) F Q R).
        * intros k' q'. destruct (locEq _ _); [unfold insertLoc; destruct (removeLoc (mMap s) i (tBegin t)); [|unfold upd; destruct (Nat.eqb (tBegin t) k')]|];
            try (intro E; right; injection E as <-; reflexivity);
            (unfold removeLoc; destruct (Nat.eqb_spec i k') as [->|N]; [discriminate|intro E; left; split; [congruence|exact E]]).
        * intros k1 k2 q1 q2 E1 E2 _ _ N A1 A2.
          assert (Rm : forall k q0, removeLoc (mMap s) i k = Some q0 -> k <> i /\ mMap s k = Some q0).
          { intros k q0. unfold removeLoc. destruct (Nat.eqb_spec i k) as [->|W]; [discriminate|]. intro E; split; [congruence|exact E]. }
          destruct (locEq _ _); [|exact (A1 (Rm k1 q1 E1))]. unfold insertLoc in E1, E2. destruct (removeLoc (mMap s) i (tBegin t)); [exact (A1 (Rm k1 q1 E1))|].
          unfold upd in E1, E2. destruct (Nat.eqb_spec (tBegin t) k1) as [<-|W]; [|exact (A1 (Rm k1 q1 E1))].
          destruct (Nat.eqb_spec (tBegin t) k2) as [W|W]; [congruence|exact (A2 (Rm k2 q2 E2))].
  Qed.
  Lemma all_fresh ts : forall s s', fresh s -> visitAll asserts ls ts s = Done s' ->
    (forall n, told n s -> told n s') /\ forall t, In t ts -> isLoop t = true -> (forall i, tKind t <> KFor (Some i)) -> told (tId t) s'.
  Proof.
    induction ts as [|t ts IH]; intros s s' F; cbn [visitAll]; [intro Q; injection Q as <-; split; [auto|intros t []]|].
    destruct (visitExplicit asserts ls t s) as [|s1] eqn:E; [discriminate|]. intro V.
    destruct (explicit_fresh t s s1 F E) as (F1 & M1 & T1). destruct (IH s1 s' F1 V) as [M2 T2]. split; [auto|].
    intros u [<-|Iu] L N; [apply M2, T1; assumption|exact (T2 u Iu L N)].
  Qed.
  Lemma implicit_told ts n : forall label s s', told n s -> visitImplicit asserts ts label s = Done s' -> told n s'.
  Proof.
    induction ts as [|t ts IH]; intros label s s' T; cbn [visitImplicit]; [intro Q; injection Q as <-; exact T|].
    destruct (tKind t); try (apply IH; exact T). destruct label as [lab|]; [|apply IH; exact T].
    destruct (findIRForLocation asserts (mImp s) (tBegin t)) as [|[[x|] M]]; [discriminate| |]; apply IH; [|exact T].
    destruct T as [H|H]; [left; apply emplace_mono; exact H|right; exact H].
  Qed.
End Reported.
Lemma ids_unique ls l l' : NoDup (map lId ls) -> In l ls -> In l' ls -> lId l = lId l' -> l = l'.
Proof.
  induction ls as [|v ls IH]; intros N It Iu E; [destruct It|]. cbn in N. inversion N as [|? ? Nv N']; subst.
  destruct It as [<-|It], Iu as [<-|Iu]; [reflexivity| | |exact (IH N' It Iu E)].
  - destruct Nv. rewrite E. apply in_map; exact Iu.
  - destruct Nv. rewrite <- E. apply in_map; exact It.
Qed.
Lemma at_NoDup ls k : NoDup (map lId ls) -> NoDup (at_ ls k).
Proof.
  induction ls as [|l ls IH]; intro N; [constructor|]. cbn in N. inversion N as [|? ? Nv N']; subst. rewrite at_cons.
  destruct (lStart l) as [k'|]; [destruct (Nat.eqb k' k)|]; try exact (IH N'). constructor; [|exact (IH N')].
  intro I1. apply Nv. apply instrsAt_In in I1. unfold instrs in I1. apply in_map_iff in I1 as (l' & E & I1). injection E as E _.
  rewrite <- E. apply in_map; exact I1.
Qed.
Lemma reported_true : C87_reported_claim true.
Proof.
  intros asserts ts ls s t Nl R It Lt Ki. unfold runLoops in R. change (reverseAll (collect _ (fun _ => None))) with (start (instrs ls)) in R.
  destruct (visitAll asserts ls ts _) as [|s1] eqn:E; [discriminate R|].
  assert (F : fresh (LState (start (instrs ls)) (fun _ => None) [] [])).
  { assert (At : forall k q, start (instrs ls) k = Some q -> qItems q = rev (at_ ls k)).
    { intros k q Q. pose proof (start_at (instrs ls) k) as H. rewrite Q in H. exact (proj1 H). }
    split; cbn [mMap mMatch].
    - intros k q Q. rewrite (At k q Q). split; [|intros x _ []]. apply NoDup_rev, at_NoDup, Nl.
    - intros k k' q q' x Q Q' I1 I2. rewrite (At k q Q) in I1. rewrite (At k' q' Q') in I2. apply in_rev, instrsAt_In in I1, I2.
      unfold instrs in I1, I2. apply in_map_iff in I1 as (l & E1 & I1). apply in_map_iff in I2 as (l' & E2 & I2).
      injection E1 as E1 S1. injection E2 as E2 S2. assert (W : l = l') by (apply (ids_unique ls); congruence). congruence. }
  destruct (all_fresh asserts ls ts _ s1 F E) as [_ T]. apply (implicit_told asserts ts (tId t) None _ s) in R; [exact R|].
  exact (T t It Lt (Ki eq_refl)).
Qed.
(* three copies of a for, one loop *)
Lemma reported_refuted : ~ C87_reported_claim false.
Proof.
  intro H. set (ts := [Stmt 0 (KFor (Some 2)) 1; Stmt 1 (KFor (Some 2)) 1; Stmt 2 (KFor (Some 2)) 1]).
  destruct (runLoops false ts [Loop 5 (Some 2) (Some 1)]) as [|s] eqn:E; [vm_compute in E; discriminate E|].
  destruct (H false ts [Loop 5 (Some 2) (Some 1)] s (Stmt 2 (KFor (Some 2)) 1)) as [Q|Q].
  - nodup.
  - exact E.
  - right; right; left; reflexivity.
  - reflexivity.
  - discriminate.
  - vm_compute in E. injection E as <-. cbn in Q. intuition discriminate.
  - vm_compute in E. injection E as <-. destruct Q.
Qed.
