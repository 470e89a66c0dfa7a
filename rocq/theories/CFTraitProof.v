(** Proofs for C95. *)
From Coq Require Import PeanoNat Bool List Lia.
From Verif Require Import CFTraitModel CFTraitSpec.
Import ListNotations.

Section P.
  Variable what : nat -> kind.
  Variable callees : nat -> option attrs.

  (** Flags of a statement for loops and for the function. *)
  Definition loopFlags (x : nat) : flags :=
    match what x with KCall d => callFlags callees d | _ => exit end.
  Definition funcFlags (x : nat) : flags :=
    match what x with KCall d => callFlags callees d | KReturn => exit | _ => none end.
  Definition flagsFor (g : region) (x : nat) : flags :=
    match g with RFunc => funcFlags x | RLoop _ => loopFlags x | RStmt _ => entry end.

  Lemma in_loops : forall sc i, In i (loopsOf sc) <-> In (ScLoop i) sc.
  Proof.
    intros sc i. unfold loopsOf. rewrite in_flat_map. split.
    - intros [c [Hc Hi]]. destruct c as [j | ]; [ | destruct Hi]. destruct Hi as [<- | []]. exact Hc.
    - intros H. exists (ScLoop i). split; [exact H | left; reflexivity].
  Qed.

  (** Events of a leaf. *)
  Lemma leaf_events : forall ls sc x e, In e (visit what callees ls sc (SLeaf x)) ->
    eStmt e = x /\ eFlags e = flagsFor (eRegion e) x
    /\ (forall i, eRegion e = RLoop i -> In (ScLoop i) sc /\ (what x = KBreak -> exists c, sc = ScLoop i :: c)).
  Proof.
    intros ls sc x e H. cbn [visit] in H. destruct (what x) as [ | | | l | d] eqn:W.
    - destruct H.
    - unfold visitBreak in H. destruct sc as [ | [i | ] sc]; try (destruct H; fail). destruct H as [<- | []]. cbn.
      split; [reflexivity | ]. split; [unfold loopFlags; rewrite W; reflexivity | ]. intros j E. injection E as <-.
      split; [left; reflexivity | ]. intros _. exists sc. reflexivity.
    - unfold visitReturn in H. destruct H as [<- | H].
      + cbn. split; [reflexivity | ]. split; [unfold funcFlags; rewrite W; reflexivity | ]. intros j E. discriminate E.
      + apply in_map_iff in H. destruct H as [i [<- Hi]]. cbn. split; [reflexivity | ].
        split; [unfold loopFlags; rewrite W; reflexivity | ]. intros j E. injection E as <-. split; [apply in_loops; exact Hi | discriminate].
    - unfold visitGoto in H. destruct H as [<- | H].
      + cbn. split; [reflexivity | ]. split; [unfold funcFlags; rewrite W; reflexivity | ]. intros j E. discriminate E.
      + assert (L : In e (map (fun i => Event (RLoop i) x exit) (loopsOf sc)) ->
          eStmt e = x /\ eFlags e = flagsFor (eRegion e) x
          /\ (forall i, eRegion e = RLoop i -> In (ScLoop i) sc /\ (KGoto l = KBreak -> exists c, sc = ScLoop i :: c))).
        { intros H'. apply in_map_iff in H'. destruct H' as [i [<- Hi]]. cbn. split; [reflexivity | ].
          split; [unfold loopFlags; rewrite W; reflexivity | ]. intros j E. injection E as <-. split; [apply in_loops; exact Hi | discriminate]. }
        destruct (labelStmts ls l) as [ | w ws]; [exact (L H) | ]. apply in_app_or in H. destruct H as [H | H]; [ | exact (L H)].
        apply in_map_iff in H. destruct H as [w' [<- _]]. cbn. split; [reflexivity | ]. split; [reflexivity | ]. intros j E. discriminate E.
    - unfold visitCall in H. apply in_app_or in H. destruct H as [H | [<- | []]].
      + apply in_map_iff in H. destruct H as [i [<- Hi]]. cbn. split; [reflexivity | ].
        split; [unfold loopFlags; rewrite W; reflexivity | ]. intros j E. injection E as <-. split; [apply in_loops; exact Hi | discriminate].
      + cbn. split; [reflexivity | ]. split; [unfold funcFlags; rewrite W; reflexivity | ]. intros j E. discriminate E.
  Qed.

  (** Events of a statement come from its leaves. *)
  Lemma visit_part : forall s ls sc c x, part s c (SLeaf x) ->
    forall e, In e (visit what callees ls (c ++ sc) (SLeaf x)) -> In e (visit what callees ls sc s).
  Proof.
    induction s as [y | l t IH | a IHa b IHb | i t IH | t IH]; intros ls sc c x P e H; inversion P; subst.
    - exact H.
    - cbn [visit]. apply (IH ls sc c x); assumption.
    - cbn [visit]. apply in_or_app. left. apply (IHa ls sc c x); assumption.
    - cbn [visit]. apply in_or_app. right. apply (IHb ls sc c x); assumption.
    - cbn [visit]. rewrite <- app_assoc in H. cbn [app] in H. apply (IH ls (ScLoop i :: sc) c0 x); assumption.
    - cbn [visit]. rewrite <- app_assoc in H. cbn [app] in H. apply (IH ls (ScSwitch :: sc) c0 x); assumption.
  Qed.
  Lemma visit_inv : forall s ls sc e, In e (visit what callees ls sc s) ->
    exists c x, part s c (SLeaf x) /\ In e (visit what callees ls (c ++ sc) (SLeaf x)).
  Proof.
    induction s as [y | l t IH | a IHa b IHb | i t IH | t IH]; intros ls sc e H.
    - exists [], y. split; [constructor | exact H].
    - cbn [visit] in H. destruct (IH ls sc e H) as [c [x [P Q]]]. exists c, x. split; [constructor; exact P | exact Q].
    - cbn [visit] in H. apply in_app_or in H. destruct H as [H | H].
      + destruct (IHa ls sc e H) as [c [x [P Q]]]. exists c, x. split; [apply part_left; exact P | exact Q].
      + destruct (IHb ls sc e H) as [c [x [P Q]]]. exists c, x. split; [apply part_right; exact P | exact Q].
    - cbn [visit] in H. destruct (IH ls _ e H) as [c [x [P Q]]]. exists (c ++ [ScLoop i]), x.
      split; [constructor; exact P | ]. rewrite <- app_assoc. exact Q.
    - cbn [visit] in H. destruct (IH ls _ e H) as [c [x [P Q]]]. exists (c ++ [ScSwitch]), x.
      split; [constructor; exact P | ]. rewrite <- app_assoc. exact Q.
  Qed.

  (** A set of traits. *)
  Definition key (e e' : event) : Prop := eRegion e = eRegion e' /\ eStmt e = eStmt e'.
  Lemma seen_iff : forall seen e,
    existsb (fun p => if region_eq_dec (eRegion p) (eRegion e) then eStmt p =? eStmt e else false) seen = true
    <-> exists p, In p seen /\ key p e.
  Proof.
    intros seen e. rewrite existsb_exists. split; intros [p [H1 H2]]; exists p; (split; [exact H1 | ]).
    - destruct (region_eq_dec (eRegion p) (eRegion e)) as [E | ]; [ | discriminate H2]. apply Nat.eqb_eq in H2. split; assumption.
    - destruct H2 as [E1 E2]. destruct (region_eq_dec (eRegion p) (eRegion e)) as [_ | N]; [ | contradiction]. apply Nat.eqb_eq. exact E2.
  Qed.
  Lemma insert_in : forall es seen e, In e (insertAll es seen) -> In e es \/ In e seen.
  Proof.
    induction es as [ | a es IH]; intros seen e H.
    - right. apply in_rev. exact H.
    - cbn [insertAll] in H. destruct (existsb _ seen).
      + destruct (IH _ _ H) as [X | X]; [left; right; exact X | right; exact X].
      + destruct (IH _ _ H) as [X | [X | X]]; [left; right; exact X | left; left; exact X | right; exact X].
  Qed.
  Lemma insert_key : forall es seen e, In e es \/ In e seen -> exists e', In e' (insertAll es seen) /\ key e' e.
  Proof.
    induction es as [ | a es IH]; intros seen e H.
    - destruct H as [[] | H]. exists e. split; [apply -> in_rev; exact H | split; reflexivity].
    - cbn [insertAll]. destruct (existsb _ seen) eqn:E.
      + destruct H as [[<- | H] | H]; [ | apply IH; left; exact H | apply IH; right; exact H].
        apply seen_iff in E. destruct E as [p [Hp [K1 K2]]]. destruct (IH seen p (or_intror Hp)) as [e' [I1 [J1 J2]]].
        exists e'. split; [exact I1 | ]. split; [rewrite J1; exact K1 | rewrite J2; exact K2].
      + destruct H as [[<- | H] | H]; [apply IH; right; left; reflexivity | apply IH; left; exact H | apply IH; right; right; exact H].
  Qed.

  Lemma event_flags : forall s e, In e (analyze what callees s) -> eFlags e = flagsFor (eRegion e) (eStmt e).
  Proof.
    intros s e H. unfold analyze in H. apply insert_in in H. destruct H as [H | []].
    destruct (visit_inv _ _ _ _ H) as [c [x [_ Q]]]. destruct (leaf_events _ _ _ _ Q) as [-> [F _]]. exact F.
  Qed.
  (** What is known. *)
  Lemma known_flags : forall s g x f, known (analyze what callees s) g x f -> f = flagsFor g x.
  Proof. intros s g x f [e [H [<- [<- <-]]]]. apply (event_flags s). exact H. Qed.
  Lemma known_intro : forall s c x e, part s c (SLeaf x) ->
    In e (visit what callees (gotos what s) c (SLeaf x)) -> known (analyze what callees s) (eRegion e) x (flagsFor (eRegion e) x).
  Proof.
    intros s c x e P H. rewrite <- (app_nil_r c) in H. destruct (leaf_events _ _ _ _ H) as [Ex _].
    pose proof (visit_part s _ [] c x P e H) as V. destruct (insert_key _ [] e (or_introl V)) as [e' [I1 [K1 K2]]].
    exists e'. split; [exact I1 | ]. split; [exact K1 | ]. split; [rewrite K2; exact Ex | ].
    rewrite (event_flags s e' I1), K1, K2, Ex. reflexivity.
  Qed.
  Lemma known_elim : forall s i x f, known (analyze what callees s) (RLoop i) x f ->
    exists c, part s c (SLeaf x) /\ In (ScLoop i) c /\ (what x = KBreak -> exists c', c = ScLoop i :: c').
  Proof.
    intros s i x f [e [H [Er [Es _]]]]. unfold analyze in H. apply insert_in in H. destruct H as [H | []].
    destruct (visit_inv _ _ _ _ H) as [c [y [P Q]]]. rewrite app_nil_r in Q. destruct (leaf_events _ _ _ _ Q) as [Ey [_ L]].
    rewrite Es in Ey. subst y. destruct (L i Er) as [L1 L2]. exists c. split; [exact P | ]. split; [exact L1 | exact L2].
  Qed.
End P.

Lemma exit_true : C95_exit_claim.
Proof.
  intros what callees s i x L. unfold leaves in L.
  assert (G : forall c, part s c (SLeaf x) -> In (Event (RLoop i) x exit) (visit what callees (gotos what s) c (SLeaf x)) ->
            loopFlags what callees x = exit ->
            exists f, known (analyze what callees s) (RLoop i) x f /\ fExit f = true).
  { intros c P H E. exists (loopFlags what callees x). split; [ | rewrite E; reflexivity].
    exact (known_intro what callees s c x _ P H). }
  destruct (what x) as [ | | | l | d] eqn:W; try contradiction.
  - destruct L as [c P]. apply (G _ P); [ | unfold loopFlags; rewrite W; reflexivity]. cbn [visit]. rewrite W. left. reflexivity.
  - destruct L as [c [P Hi]]. apply (G _ P); [ | unfold loopFlags; rewrite W; reflexivity]. cbn [visit]. rewrite W. right.
    apply in_map_iff. exists i. split; [reflexivity | apply in_loops; exact Hi].
  - destruct L as [[c [P Hi]] _]. apply (G _ P); [ | unfold loopFlags; rewrite W; reflexivity]. cbn [visit]. rewrite W. right.
    assert (M : In (Event (RLoop i) x exit) (map (fun i => Event (RLoop i) x exit) (loopsOf c)))
      by (apply in_map_iff; exists i; split; [reflexivity | apply in_loops; exact Hi]).
    destruct (labelStmts (gotos what s) l); [exact M | apply in_or_app; right; exact M].
Qed.

Lemma exact_true : C95_exact_claim true.
Proof.
  intros what callees s i x f G K E. specialize (G eq_refl). pose proof (known_flags what callees s _ x f K) as ->.
  destruct (known_elim what callees s i x _ K) as [c [P [Hi B]]]. unfold leaves. cbn [flagsFor] in E. unfold loopFlags in E.
  destruct (what x) as [ | | | l | d] eqn:W.
  - exfalso. clear E. destruct K as [e [H [Er [Es _]]]]. unfold analyze in H. apply insert_in in H. destruct H as [H | []].
    destruct (visit_inv _ _ _ _ _ _ H) as [c' [y [P' Q]]]. destruct (leaf_events _ _ _ _ _ _ Q) as [Ey _].
    rewrite Es in Ey. subst y. cbn [visit] in Q. rewrite W in Q. destruct Q.
  - destruct (B eq_refl) as [c' ->]. exists c'. exact P.
  - exists c. split; assumption.
  - assert (X : inLoop s i x) by (exists c; split; assumption). split; [exact X | ]. exact (G l i x W X).
  - exfalso. unfold callFlags in E. destruct d as [d | ]; [ | discriminate E]. destruct (callees d); discriminate E.
Qed.

Lemma noentry_true : C95_noentry_claim.
Proof.
  intros what callees s i x f K. pose proof (known_flags what callees s _ x f K) as ->. cbn [flagsFor]. unfold loopFlags.
  destruct (what x) as [ | | | l | [d | ]]; try reflexivity. cbn [callFlags]. destruct (callees d); reflexivity.
Qed.
Lemma inside_true : C95_inside_claim.
Proof.
  intros what callees s i x f K. destruct (known_elim what callees s i x f K) as [c [P [Hi _]]]. exists c. split; assumption.
Qed.
Lemma single_true : C95_single_claim.
Proof.
  intros what callees s g x f f' K K'. rewrite (known_flags what callees s g x f K). symmetry. exact (known_flags what callees s g x f' K').
Qed.

Lemma call_true : C95_call_claim true.
Proof.
  intros what callees does s x d c T G W P. specialize (G eq_refl).
  assert (C : covered (does x) (callFlags callees d)).
  { unfold callFlags. destruct d as [d | ].
    - destruct (callees d) as [a | ] eqn:Ea; [ | contradiction (G x d W Ea)].
      destruct (T x d a W Ea) as [T1 [T2 [T3 T4]]]. unfold covered. cbn. repeat split; intros H.
      + destruct (aNoIO a); [rewrite (T1 eq_refl) in H; discriminate H | reflexivity].
      + destruct (aAlwaysReturn a); [rewrite (T2 eq_refl) in H; discriminate H | reflexivity].
      + destruct (aReturnsTwice a); [reflexivity | rewrite (T3 eq_refl) in H; discriminate H].
      + destruct (aNoUnwind a); [rewrite (T4 eq_refl) in H; discriminate H | reflexivity].
    - unfold covered. cbn. repeat split; reflexivity. }
  split.
  - exists (callFlags callees d). split; [ | exact C].
    assert (H : In (Event RFunc x (callFlags callees d)) (visit what callees (gotos what s) c (SLeaf x))).
    { cbn [visit]. rewrite W. apply in_or_app. right. left. reflexivity. }
    pose proof (known_intro what callees s c x _ P H) as K. cbn [eRegion flagsFor] in K. unfold funcFlags in K. rewrite W in K. exact K.
  - intros i Hi. exists (callFlags callees d). split; [ | exact C].
    assert (H : In (Event (RLoop i) x (callFlags callees d)) (visit what callees (gotos what s) c (SLeaf x))).
    { cbn [visit]. rewrite W. apply in_or_app. left. apply in_map_iff. exists i. split; [reflexivity | apply in_loops; exact Hi]. }
    pose proof (known_intro what callees s c x _ P H) as K. cbn [eRegion flagsFor] in K. unfold loopFlags in K. rewrite W in K. exact K.
Qed.

Lemma func_true : C95_func_claim.
Proof.
  intros what callees s c x P. split.
  - intros W. exists exit. split; [ | reflexivity].
    assert (H : In (Event RFunc x exit) (visit what callees (gotos what s) c (SLeaf x))) by (cbn [visit]; rewrite W; left; reflexivity).
    pose proof (known_intro what callees s c x _ P H) as K. cbn [eRegion flagsFor] in K. unfold funcFlags in K. rewrite W in K. exact K.
  - intros l W. exists none.
    assert (H : In (Event RFunc x none) (visit what callees (gotos what s) c (SLeaf x))) by (cbn [visit]; rewrite W; left; reflexivity).
    pose proof (known_intro what callees s c x _ P H) as K. cbn [eRegion flagsFor] in K. unfold funcFlags in K. rewrite W in K. exact K.
Qed.

(** * Reports *)
Definition slotOk (s : slot) : Prop := slStmts s <> [] -> slKind s <> None.
Lemma fill_spec : forall what q es b r c, slotOk b -> slotOk r -> slotOk c ->
  exists b' r' c', fill what q es b r c = [b'; r'; c'] /\ slotOk b' /\ slotOk r' /\ slotOk c'
  /\ (forall x, In x (slStmts b) -> In x (slStmts b')) /\ (forall x, In x (slStmts r) -> In x (slStmts r'))
  /\ (forall x, In x (slStmts c) -> In x (slStmts c'))
  /\ (forall e, In e es -> selected what q e = true -> what (eStmt e) <> KOther ->
        In (eStmt e) (slStmts b') \/ In (eStmt e) (slStmts r') \/ In (eStmt e) (slStmts c')).
Proof.
  intros what q. induction es as [ | e es IH]; intros b r c Hb Hr Hc.
  - exists b, r, c. split; [reflexivity | ]. split; [exact Hb | ]. split; [exact Hr | ]. split; [exact Hc | ].
    split; [tauto | ]. split; [tauto | ]. split; [tauto | ]. intros e [].
  - assert (Ok : forall k s, slotOk (addTo k (eStmt e) s)) by (intros k s _; discriminate).
    assert (Add : forall k s x, In x (slStmts s) -> In x (slStmts (addTo k (eStmt e) s)))
      by (intros k s x H; cbn; apply in_or_app; left; exact H).
    assert (Me : forall k s, In (eStmt e) (slStmts (addTo k (eStmt e) s)))
      by (intros k s; cbn; apply in_or_app; right; left; reflexivity).
    cbn [fill]. destruct (selected what q e) eqn:Sel.
    + destruct (what (eStmt e)) as [ | | | l | d] eqn:W.
      * destruct (IH b r c Hb Hr Hc) as [b' [r' [c' [E [B1 [B2 [B3 [M1 [M2 [M3 X]]]]]]]]]]. exists b', r', c'.
        do 7 (split; [assumption | ]). intros e' [<- | H'] S N; [rewrite W in N; contradiction N; reflexivity | exact (X e' H' S N)].
      * destruct (IH (addTo ReBreak (eStmt e) b) r c (Ok _ _) Hr Hc) as [b' [r' [c' [E [B1 [B2 [B3 [M1 [M2 [M3 X]]]]]]]]]].
        exists b', r', c'. do 4 (split; [assumption | ]). split; [intros x Hx; apply M1, Add, Hx | ]. do 2 (split; [assumption | ]).
        intros e' [<- | H'] S N; [left; apply M1, Me | exact (X e' H' S N)].
      * destruct (IH b (addTo ReReturn (eStmt e) r) c Hb (Ok _ _) Hc) as [b' [r' [c' [E [B1 [B2 [B3 [M1 [M2 [M3 X]]]]]]]]]].
        exists b', r', c'. do 5 (split; [assumption | ]). split; [intros x Hx; apply M2, Add, Hx | ]. split; [assumption | ].
        intros e' [<- | H'] S N; [right; left; apply M2, Me | exact (X e' H' S N)].
      * destruct (IH b (addTo ReGoto (eStmt e) r) c Hb (Ok _ _) Hc) as [b' [r' [c' [E [B1 [B2 [B3 [M1 [M2 [M3 X]]]]]]]]]].
        exists b', r', c'. do 5 (split; [assumption | ]). split; [intros x Hx; apply M2, Add, Hx | ]. split; [assumption | ].
        intros e' [<- | H'] S N; [right; left; apply M2, Me | exact (X e' H' S N)].
      * destruct (IH b r (addTo ReCall (eStmt e) c) Hb Hr (Ok _ _)) as [b' [r' [c' [E [B1 [B2 [B3 [M1 [M2 [M3 X]]]]]]]]]].
        exists b', r', c'. do 6 (split; [assumption | ]). split; [intros x Hx; apply M3, Add, Hx | ].
        intros e' [<- | H'] S N; [right; right; apply M3, Me | exact (X e' H' S N)].
    + destruct (IH b r c Hb Hr Hc) as [b' [r' [c' [E [B1 [B2 [B3 [M1 [M2 [M3 X]]]]]]]]]]. exists b', r', c'.
      do 7 (split; [assumption | ]). intros e' [<- | H'] S N; [rewrite Sel in S; discriminate S | exact (X e' H' S N)].
Qed.

Lemma not_other : forall what callees s e, In e (analyze what callees s) -> what (eStmt e) <> KOther.
Proof.
  intros what callees s e H W. unfold analyze in H. apply insert_in in H. destruct H as [H | []].
  destruct (visit_inv _ _ _ _ _ _ H) as [c' [y [_ Q]]]. destruct (leaf_events _ _ _ _ _ _ Q) as [Ey _].
  subst y. cbn [visit] in Q. rewrite W in Q. destruct Q.
Qed.

Lemma report_true : C95_report_claim.
Proof.
  intros what callees s g q x f [e [He [Er [Es Ef]]]] M.
  set (es := filter (fun e => if region_eq_dec (eRegion e) g then true else false) (analyze what callees s)).
  assert (Emp : slotOk emptySlot) by (intros H; contradiction H; reflexivity).
  destruct (fill_spec what q es emptySlot emptySlot emptySlot Emp Emp Emp) as [b [r [c [E [B1 [B2 [B3 [_ [_ [_ X]]]]]]]]]].
  assert (Hes : In e es).
  { apply filter_In. split; [exact He | ]. destruct (region_eq_dec (eRegion e) g) as [_ | N]; [reflexivity | contradiction]. }
  assert (Sel : selected what q e = true).
  { unfold selected, meets. rewrite Ef. apply orb_true_iff. left. destruct M as [p [Hp [P1 P2]]].
    destruct Hp as [<- | [<- | [<- | [<- | [<- | [<- | []]]]]]]; rewrite P1, P2; cbn [andb]; rewrite ?orb_true_r; reflexivity. }
  assert (Keep : forall sl, In sl [b; r; c] -> slotOk sl -> In x (slStmts sl) ->
            exists sl', In sl' (report what q g (analyze what callees s)) /\ In x (slStmts sl')).
  { intros sl Hsl Ok Hx. exists sl. split; [ | exact Hx]. unfold report. fold es. rewrite E. apply filter_In. split; [exact Hsl | ].
    assert (N : slKind sl <> None) by (apply Ok; destruct (slStmts sl); [destruct Hx | discriminate]).
    destruct (slKind sl); [reflexivity | contradiction N; reflexivity]. }
  rewrite <- Es in *. destruct (X e Hes Sel (not_other what callees s e He)) as [Y | [Y | Y]].
  - apply (Keep b); [left; reflexivity | exact B1 | exact Y].
  - apply (Keep r); [right; left; reflexivity | exact B2 | exact Y].
  - apply (Keep c); [right; right; left; reflexivity | exact B3 | exact Y].
Qed.

Lemma common_iff : forall f q, meets f q = true -> common f q.
Proof.
  intros f q H. unfold meets in H. repeat rewrite orb_true_iff in H. repeat rewrite andb_true_iff in H.
  destruct H as [[[[[H | H] | H] | H] | H] | H];
    [exists fInOut | exists fExit | exists fEntry | exists fNoReturn | exists fTwice | exists fUnwind];
    (split; [cbn; tauto | exact H]).
Qed.
Lemma only_true : C95_only_claim.
Proof.
  intros what callees s g q sl x [p [Hp Pq]] H Hx.
  assert (Nd : isDefault q = false).
  { unfold isDefault. destruct Hp as [<- | [<- | [<- | [<- | [<- | [<- | []]]]]]]; rewrite Pq; rewrite ?orb_true_r; reflexivity. }
  set (ok := fun y : nat => exists f, known (analyze what callees s) g y f /\ common f q).
  assert (F : forall es b r c, (forall e, In e es -> selected what q e = true -> ok (eStmt e)) ->
            (forall y, In y (slStmts b) -> ok y) -> (forall y, In y (slStmts r) -> ok y) -> (forall y, In y (slStmts c) -> ok y) ->
            forall sl0, In sl0 (fill what q es b r c) -> forall y, In y (slStmts sl0) -> ok y).
  { induction es as [ | e es IH]; intros b r c He Hb Hr Hc sl0 H0.
    - destruct H0 as [<- | [<- | [<- | []]]]; assumption.
    - assert (A : forall k sl1, selected what q e = true -> (forall y, In y (slStmts sl1) -> ok y) ->
                forall y, In y (slStmts (addTo k (eStmt e) sl1)) -> ok y).
      { intros k sl1 Se Hs y Hy. cbn in Hy. apply in_app_or in Hy. destruct Hy as [Hy | [<- | []]]; [exact (Hs y Hy) | ].
        apply He; [left; reflexivity | exact Se]. }
      assert (He' : forall e0, In e0 es -> selected what q e0 = true -> ok (eStmt e0)) by (intros e0 He0; apply He; right; exact He0).
      cbn [fill] in H0. destruct (selected what q e) eqn:Se; [ | exact (IH b r c He' Hb Hr Hc sl0 H0)].
      destruct (what (eStmt e)).
      + exact (IH b r c He' Hb Hr Hc sl0 H0).
      + exact (IH _ _ _ He' (A _ _ eq_refl Hb) Hr Hc sl0 H0).
      + exact (IH _ _ _ He' Hb (A _ _ eq_refl Hr) Hc sl0 H0).
      + exact (IH _ _ _ He' Hb (A _ _ eq_refl Hr) Hc sl0 H0).
      + exact (IH _ _ _ He' Hb Hr (A _ _ eq_refl Hc) sl0 H0). }
  unfold report in H. apply filter_In in H. destruct H as [H _].
  refine (F _ _ _ _ _ _ _ _ sl H x Hx).
  - intros e He Se. apply filter_In in He. destruct He as [He Hg].
    destruct (region_eq_dec (eRegion e) g) as [Er | ]; [ | discriminate Hg].
    exists (eFlags e). split; [exists e; repeat split; assumption | ]. apply common_iff. unfold selected in Se.
    rewrite Nd in Se. cbn [andb] in Se. rewrite orb_false_r in Se. exact Se.
  - intros y [].
  - intros y [].
  - intros y [].
Qed.

Lemma kind_true : C95_kind_claim true.
Proof.
  intros what callees s g q sl k x G H Ek Hx. specialize (G eq_refl).
  set (good := fun (k0 : rkind) (sl0 : slot) => (slKind sl0 = None \/ slKind sl0 = Some k0) /\ forall y, In y (slStmts sl0) -> kindIs (what y) k0).
  assert (F : forall es b r c, good ReBreak b -> good ReReturn r -> good ReCall c ->
            forall sl0, In sl0 (fill what q es b r c) -> good ReBreak sl0 \/ good ReReturn sl0 \/ good ReCall sl0).
  { assert (A : forall k0 sl0 y, good k0 sl0 -> kindIs (what y) k0 -> good k0 (addTo k0 y sl0)).
    { intros k0 sl0 y [_ G2] Hy. split; [right; reflexivity | ]. intros z Hz. cbn in Hz. apply in_app_or in Hz.
      destruct Hz as [Hz | [<- | []]]; [exact (G2 z Hz) | exact Hy]. }
    induction es as [ | e es IH]; intros b r c Hb Hr Hc sl0 H0.
    - destruct H0 as [<- | [<- | [<- | []]]]; tauto.
    - cbn [fill] in H0. destruct (selected what q e); [ | exact (IH b r c Hb Hr Hc sl0 H0)].
      destruct (what (eStmt e)) as [ | | | l | d] eqn:W.
      + exact (IH b r c Hb Hr Hc sl0 H0).
      + apply (IH _ _ _ (A ReBreak b (eStmt e) Hb W) Hr Hc sl0 H0).
      + apply (IH _ _ _ Hb (A ReReturn r (eStmt e) Hr W) Hc sl0 H0).
      + contradiction (G _ _ W).
      + apply (IH _ _ _ Hb Hr (A ReCall c (eStmt e) Hc (ex_intro _ d W)) sl0 H0). }
  unfold report in H. apply filter_In in H. destruct H as [H _].
  assert (E0 : forall k0, good k0 emptySlot) by (intros k0; split; [left; reflexivity | intros y []]).
  destruct (F _ _ _ _ (E0 _) (E0 _) (E0 _) sl H) as [[K1 K2] | [[K1 K2] | [K1 K2]]];
    (destruct K1 as [K1 | K1]; rewrite Ek in K1; [discriminate K1 | injection K1 as ->; exact (K2 x Hx)]).
Qed.

(** * Refutations *)
(** A label is in the loop: for (...) { goto l; l: ; } *)
Definition wIn (x : nat) : kind := match x with 1 => KGoto 7 | _ => KOther end.
Definition sIn : stmt := SLoop 0 (SSeq (SLeaf 1) (SLabel 7 (SLeaf 2))).
Lemma exact_inner : ~ C95_exact_claim false.
Proof.
  intros C. assert (L : leaves wIn sIn 0 1).
  { apply (C wIn (fun _ => None) sIn 0 1 exit); [discriminate | | reflexivity].
    exists (Event (RLoop 0) 1 exit). split; [right; right; left; reflexivity | ]. repeat split. }
  destruct L as [_ N]. apply N. exists [ScLoop 0], (SLeaf 2). split; [ | left; reflexivity].
  apply (part_loop 0 _ [] _). apply part_right. apply part_self.
Qed.
(** goto l; for (...) { l: ; } *)
Definition sEntry : stmt := SSeq (SLeaf 1) (SLoop 0 (SLabel 7 (SLeaf 2))).
Lemma entry_fact : enters wIn sEntry 0 1.
Proof.
  split.
  - intros [c [P H]]. inversion P as [ | | ? ? ? ? Q | ? ? ? ? Q | | ]; subst.
    + inversion Q; subst. destruct H.
    + inversion Q as [ | | | | ? ? ? ? Q' | ]; subst. inversion Q' as [ | ? ? ? ? Q'' | | | | ]; subst. inversion Q''.
  - exists [ScLoop 0], (SLeaf 2). split; [ | left; reflexivity]. apply part_right. apply (part_loop 0 _ [] _). apply part_self.
Qed.
Lemma entry_false : ~ C95_entry_claim.
Proof.
  intros C. destruct (C wIn (fun _ => None) sEntry 0 1 entry_fact) as [f [K E]].
  rewrite (noentry_true wIn (fun _ => None) sEntry 0 1 f K) in E. discriminate E.
Qed.
(** A call of a function by a pointer. *)
Definition wPtr (x : nat) : kind := match x with 1 => KCall (Some 5) | _ => KOther end.
Lemma call_pointer : ~ C95_call_claim false.
Proof.
  intros C. destruct (C wPtr (fun _ => None) (fun _ => Behaviour true false false false) (SLeaf 1) 1 (Some 5) []) as [[f [K V]] _].
  - intros x d a _ H. discriminate H.
  - discriminate.
  - reflexivity.
  - apply part_self.
  - pose proof (known_flags wPtr (fun _ => None) _ RFunc 1 f K) as ->. destruct V as [V _]. discriminate (V eq_refl).
Qed.
(** for (...) { return; goto l; } l: ; *)
Definition wBoth (x : nat) : kind := match x with 1 => KReturn | 2 => KGoto 7 | _ => KOther end.
Definition sBoth : stmt := SSeq (SLoop 0 (SSeq (SLeaf 1) (SLeaf 2))) (SLabel 7 (SLeaf 3)).
Lemma kind_goto : ~ C95_kind_claim false.
Proof.
  intros C. assert (X : kindIs (wBoth 1) ReGoto).
  { apply (C wBoth (fun _ => None) sBoth (RLoop 0) exit (Slot (Some ReGoto) [1; 2]) ReGoto 1).
    - discriminate.
    - left. reflexivity.
    - reflexivity.
    - left. reflexivity. }
  destruct X as [l X]. discriminate X.
Qed.
