(** Proofs for C97. *)
From Coq Require Import PeanoNat Bool List Lia.
From Verif Require Import NoMacroModel NoMacroSpec.
Import ListNotations.

(** * Files *)
Definition rest (r : list tok) : list token := map (fun x => (x, false)) r.

Lemma rest_normal : forall r ts ms ids, exists ids', collect MNormal (rest r ++ ts) ms ids = collect MNormal ts ms ids'.
Proof.
  induction r as [ | t r IH]; intros ts ms ids.
  - exists ids. reflexivity.
  - cbn [rest map app collect]. unfold isHash. cbn [fst snd].
    destruct t; cbn; apply IH.
Qed.
Lemma rest_angle : forall r ts ms ids, exists m ids', (m = MNormal \/ m = MAngle) /\ collect MAngle (rest r ++ ts) ms ids = collect m ts ms ids'.
Proof.
  induction r as [ | t r IH]; intros ts ms ids.
  - exists MAngle, ids. split; [right; reflexivity | reflexivity].
  - cbn [rest map app collect fst].
    destruct t; try apply IH. destruct (rest_normal r ts ms ids) as [ids' E]. exists MNormal, ids'. split; [left; reflexivity | exact E].
Qed.
Lemma rest_closed : forall a b ts ms ids, exists ids', collect MAngle (rest (a ++ TGreater :: b) ++ ts) ms ids = collect MNormal ts ms ids'.
Proof.
  induction a as [ | t a IH]; intros b ts ms ids.
  - cbn [app rest map collect fst]. apply rest_normal.
  - cbn [app rest map collect fst]. destruct t; try apply IH. apply rest_normal.
Qed.

Lemma tokens_cons : forall l ls, fileTokens (l :: ls) = lineTokens l ++ fileTokens ls.
Proof. reflexivity. Qed.
Lemma line_cons : forall t r, lineTokens (t :: r) = (t, true) :: rest r.
Proof. reflexivity. Qed.

(** A line which starts in the normal mode and is not a null directive. *)
Lemma line_normal : forall l ts ms ids, l <> [THash] ->
  (forall r, l = THash :: TId nInclude :: r -> (exists r', r = TLit :: r') \/ exists a b, r = TLess :: a ++ TGreater :: b) ->
  (exists ids', collect MNormal (lineTokens l ++ ts) ms ids = collect MNormal ts ms ids' /\ forall s, ~ defines l s)
  \/ (exists s ids', defines l s /\ collect MNormal (lineTokens l ++ ts) ms ids = collect MNormal ts (s :: ms) ids')
  \/ ((forall s, ~ defines l s) /\ (exists r, l = THash :: TId nDefine :: r /\ forall s r', r <> TId s :: r')
      /\ (collect MNormal (lineTokens l ++ ts) ms ids = Assert \/ collect MNormal (lineTokens l ++ ts) ms ids = collect MDefine ts ms ids)).
Proof.
  intros l ts ms ids N Hi.
  assert (ND : forall x r, (x <> THash) -> forall s, ~ defines (x :: r) s) by (intros x r Hx s [r' E]; injection E as E _; contradiction).
  destruct l as [ | t r]; [left; exists ids; split; [reflexivity | intros s [r' E]; discriminate E] | ].
  rewrite line_cons. cbn [app collect].
  destruct t as [s | | | | | ]; unfold isHash; cbn [fst snd];
    try (left; destruct (rest_normal r ts ms ids) as [ids' E]; exists ids'; split; [exact E | apply ND; discriminate]).
  - left. destruct (rest_normal r ts ms (s :: ids)) as [ids' E]. exists ids'. split; [exact E | apply ND; discriminate].
  - destruct r as [ | t r]; [contradiction N; reflexivity | ].
    assert (ND2 : forall x r0, (x <> TId nDefine) -> forall s, ~ defines (THash :: x :: r0) s) by (intros x r0 Hx s [r' E]; injection E as E _; contradiction).
    cbn [rest map app collect fst]. fold (rest r).
    destruct t as [s | | | | | ];
      try (left; destruct (rest_normal r ts ms ids) as [ids' E]; exists ids'; split; [exact E | apply ND2; discriminate]).
    destruct (s =? nDefine) eqn:Es.
    + apply Nat.eqb_eq in Es. subst s. destruct r as [ | [s | | | | | ] r].
      * right. right. split; [intros s [r' E]; discriminate E | ]. split; [exists []; split; [reflexivity | intros s r'; discriminate] | ].
        right. reflexivity.
      * right. left. cbn [rest map app collect fst]. destruct (rest_normal r ts (s :: ms) ids) as [ids' E]. exists s, ids'.
        split; [exists r; reflexivity | exact E].
      * right. right. split; [intros s [r' E]; discriminate E | ]. split; [eexists; split; [reflexivity | intros s r'; discriminate] | ]. left. reflexivity.
      * right. right. split; [intros s [r' E]; discriminate E | ]. split; [eexists; split; [reflexivity | intros s r'; discriminate] | ]. left. reflexivity.
      * right. right. split; [intros s [r' E]; discriminate E | ]. split; [eexists; split; [reflexivity | intros s r'; discriminate] | ]. left. reflexivity.
      * right. right. split; [intros s [r' E]; discriminate E | ]. split; [eexists; split; [reflexivity | intros s r'; discriminate] | ]. left. reflexivity.
      * right. right. split; [intros s [r' E]; discriminate E | ]. split; [eexists; split; [reflexivity | intros s r'; discriminate] | ]. left. reflexivity.
    + assert (Ns : TId s <> TId nDefine) by (intros E; injection E as E; subst s; discriminate Es).
      left. destruct (s =? nInclude) eqn:Ei.
      * apply Nat.eqb_eq in Ei. subst s. destruct (Hi r eq_refl) as [[r' ->] | [a [b ->]]].
        -- cbn [rest map app collect fst]. destruct (rest_normal r' ts ms ids) as [ids' E]. exists ids'. split; [exact E | apply ND2; exact Ns].
        -- cbn [rest map app collect fst]. destruct (rest_closed a b ts ms ids) as [ids' E]. exists ids'. split; [exact E | apply ND2; exact Ns].
      * destruct (rest_normal r ts ms ids) as [ids' E]. exists ids'. split; [exact E | apply ND2; exact Ns].
Qed.

Lemma mono : forall ts m ms ids ms' ids', collect m ts ms ids = Ok ms' ids' -> incl ms ms'.
Proof.
  induction ts as [ | [t b] ts IH]; intros m ms ids ms' ids' H.
  - destruct m; cbn in H; try discriminate H; injection H as <- <-; apply incl_refl.
  - cbn [collect] in H. destruct m.
    + destruct (isHash (t, b)); [exact (IH _ _ _ _ _ H) | ]. cbn [fst] in H. destruct t; exact (IH _ _ _ _ _ H).
    + cbn [fst] in H. destruct t; try exact (IH _ _ _ _ _ H). destruct (s =? nDefine); [exact (IH _ _ _ _ _ H) | ].
      destruct (s =? nInclude); exact (IH _ _ _ _ _ H).
    + cbn [fst] in H. destruct t; try discriminate H. intros x Hx. apply (IH _ _ _ _ _ H). right. exact Hx.
    + cbn [fst] in H. destruct t; try discriminate H; exact (IH _ _ _ _ _ H).
    + cbn [fst] in H. destruct t; exact (IH _ _ _ _ _ H).
Qed.

Lemma collect_lines : forall ls m ms ids ms' ids', m = MNormal \/ m = MDefine -> noNull ls -> goodInclude ls ->
  collect m (fileTokens ls) ms ids = Ok ms' ids' -> forall s, defined ls s -> In s ms'.
Proof.
  induction ls as [ | l ls IH]; intros m ms ids ms' ids' Hm N G H s [l0 [H0 D]]; [destruct H0 | ].
  assert (N' : noNull ls) by (intros X; apply N; right; exact X).
  assert (G' : goodInclude ls) by (intros r Hr; apply G; right; exact Hr).
  assert (Nl : l <> [THash]) by (intros ->; apply N; left; reflexivity).
  assert (Gl : forall r, l = THash :: TId nInclude :: r -> (exists r', r = TLit :: r') \/ exists a b, r = TLess :: a ++ TGreater :: b)
    by (intros r ->; apply G; left; reflexivity).
  rewrite tokens_cons in H. destruct Hm as [-> | ->].
  - destruct (line_normal l (fileTokens ls) ms ids Nl Gl) as [[i1 [E ND]] | [[s1 [i1 [D1 E]]] | [ND [_ [E | E]]]]]; rewrite E in H.
    + destruct H0 as [<- | H0]; [contradiction (ND s D) | ]. apply (IH _ _ _ _ _ (or_introl eq_refl) N' G' H s). exists l0. split; assumption.
    + destruct H0 as [<- | H0].
      * destruct D as [r D], D1 as [r1 D1]. rewrite D1 in D. injection D as -> _. apply (mono _ _ _ _ _ _ H). left. reflexivity.
      * apply (IH _ _ _ _ _ (or_introl eq_refl) N' G' H s). exists l0. split; assumption.
    + discriminate H.
    + destruct H0 as [<- | H0]; [contradiction (ND s D) | ]. apply (IH _ _ _ _ _ (or_intror eq_refl) N' G' H s). exists l0. split; assumption.
  - destruct l as [ | t r].
    + destruct H0 as [<- | H0]; [destruct D as [r D]; discriminate D | ].
      apply (IH _ _ _ _ _ (or_intror eq_refl) N' G' H s). exists l0. split; assumption.
    + rewrite line_cons in H. cbn [app collect fst] in H. destruct t; try discriminate H.
      destruct (rest_normal r (fileTokens ls) (s0 :: ms) ids) as [i1 E]. rewrite E in H.
      destruct H0 as [<- | H0]; [destruct D as [r1 D]; discriminate D | ].
      apply (IH _ _ _ _ _ (or_introl eq_refl) N' G' H s). exists l0. split; assumption.
Qed.
Lemma collect_true : C97_collect_claim true true.
Proof.
  intros ls ms ids s N G H D. exact (collect_lines ls MNormal [] [] ms ids (or_introl eq_refl) (N eq_refl) (G eq_refl) H s D).
Qed.

(** Only defined macros are collected. *)
Lemma only_lines : forall ls m ms ids ms' ids', m = MNormal \/ m = MInclude \/ m = MAngle -> noNull ls -> goodDefine ls ->
  collect m (fileTokens ls) ms ids = Ok ms' ids' -> forall s, In s ms' -> In s ms \/ defined ls s.
Proof.
  induction ls as [ | l ls IH]; intros m ms ids ms' ids' Hm N G H s Hs.
  - cbn in H. destruct m; try discriminate H; injection H as <- <-; left; exact Hs.
  - assert (N' : noNull ls) by (intros X; apply N; right; exact X).
    assert (G' : goodDefine ls) by (intros r Hr; apply G; right; exact Hr).
    assert (K : forall m2 ms2 i2, (m2 = MNormal \/ m2 = MInclude \/ m2 = MAngle) -> collect m2 (fileTokens ls) ms2 i2 = Ok ms' ids' ->
              In s ms2 \/ defined (l :: ls) s).
    { intros m2 ms2 i2 Hm2 H2. destruct (IH m2 ms2 i2 ms' ids' Hm2 N' G' H2 s Hs) as [X | [l0 [X Y]]]; [left; exact X | ].
      right. exists l0. split; [right; exact X | exact Y]. }
    rewrite tokens_cons in H. destruct l as [ | t r]; [exact (K m ms ids Hm H) | ]. rewrite line_cons in H. cbn [app collect] in H.
    assert (KN : forall ms2 i2, collect MNormal (rest r ++ fileTokens ls) ms2 i2 = Ok ms' ids' -> In s ms2 \/ defined ((t :: r) :: ls) s).
    { intros ms2 i2 H2. destruct (rest_normal r (fileTokens ls) ms2 i2) as [i3 E]. rewrite E in H2. exact (K MNormal ms2 i3 (or_introl eq_refl) H2). }
    assert (KA : forall r0 ms2 i2, collect MAngle (rest r0 ++ fileTokens ls) ms2 i2 = Ok ms' ids' -> In s ms2 \/ defined ((t :: r) :: ls) s).
    { intros r0 ms2 i2 H2. destruct (rest_angle r0 (fileTokens ls) ms2 i2) as [m3 [i3 [Hm3 E]]]. rewrite E in H2.
      apply (K m3 ms2 i3); [destruct Hm3 as [-> | ->]; tauto | exact H2]. }
    destruct Hm as [-> | [-> | ->]].
    + unfold isHash in H. cbn [fst snd] in H. destruct t; try exact (KN _ _ H).
      destruct r as [ | t r]; [contradiction N; left; reflexivity | ]. cbn [rest map app collect fst] in H. fold (rest r) in H.
      assert (KN' : forall ms2 i2, collect MNormal (rest r ++ fileTokens ls) ms2 i2 = Ok ms' ids' -> In s ms2 \/ defined ((THash :: t :: r) :: ls) s).
      { intros ms2 i2 H2. destruct (rest_normal r (fileTokens ls) ms2 i2) as [i3 E]. rewrite E in H2. exact (K MNormal ms2 i3 (or_introl eq_refl) H2). }
      destruct t; try exact (KN' _ _ H). destruct (s0 =? nDefine) eqn:Ed.
      * apply Nat.eqb_eq in Ed. subst s0. destruct (G r (or_introl eq_refl)) as [s1 [r' ->]]. cbn [rest map app collect fst] in H.
        fold (rest r') in H. destruct (rest_normal r' (fileTokens ls) (s1 :: ms) ids) as [i3 E]. rewrite E in H.
        destruct (K MNormal (s1 :: ms) i3 (or_introl eq_refl) H) as [[<- | X] | X]; [ | left; exact X | right; exact X].
        right. exists (THash :: TId nDefine :: TId s1 :: r'). split; [left; reflexivity | exists r'; reflexivity].
      * destruct (s0 =? nInclude); [ | exact (KN' _ _ H)]. destruct r as [ | t r].
        -- cbn [rest map app] in H. exact (K MInclude ms ids (or_intror (or_introl eq_refl)) H).
        -- cbn [rest map app collect fst] in H. fold (rest r) in H. destruct t; try discriminate H.
           ++ exact (KA r _ _ H).
           ++ destruct (rest_normal r (fileTokens ls) ms ids) as [i3 E]. rewrite E in H. exact (K MNormal ms i3 (or_introl eq_refl) H).
    + cbn [fst] in H. destruct t; try discriminate H; [exact (KA r _ _ H) | exact (KN _ _ H)].
    + cbn [fst] in H. destruct t; try exact (KA r _ _ H). exact (KN _ _ H).
Qed.
Lemma only_true : C97_only_claim true true.
Proof.
  intros ls ms ids s N G H D.
  destruct (only_lines ls MNormal [] [] ms ids (or_introl eq_refl) (N eq_refl) (G eq_refl) H s D) as [[] | X]. exact X.
Qed.

Lemma total_lines : forall ls ms ids, noNull ls -> goodInclude ls -> goodDefine ls ->
  exists ms' ids', collect MNormal (fileTokens ls) ms ids = Ok ms' ids'.
Proof.
  induction ls as [ | l ls IH]; intros ms ids N Gi Gd; [exists ms, ids; reflexivity | ].
  assert (N' : noNull ls) by (intros X; apply N; right; exact X).
  assert (Gi' : goodInclude ls) by (intros r Hr; apply Gi; right; exact Hr).
  assert (Gd' : goodDefine ls) by (intros r Hr; apply Gd; right; exact Hr).
  assert (Nl : l <> [THash]) by (intros ->; apply N; left; reflexivity).
  assert (Gl : forall r, l = THash :: TId nInclude :: r -> (exists r', r = TLit :: r') \/ exists a b, r = TLess :: a ++ TGreater :: b)
    by (intros r ->; apply Gi; left; reflexivity).
  rewrite tokens_cons.
  destruct (line_normal l (fileTokens ls) ms ids Nl Gl) as [[i1 [E ND]] | [[s1 [i1 [D1 E]]] | [ND [[r [El Bad]] _]]]].
  - rewrite E. apply IH; assumption.
  - rewrite E. apply IH; assumption.
  - subst l. destruct (Gd r (or_introl eq_refl)) as [s [r' ->]]. contradiction (Bad s r' eq_refl).
Qed.
Lemma total_true : C97_total_claim true true true.
Proof. intros ls N Gi Gd. exact (total_lines ls [] [] (N eq_refl) (Gi eq_refl) (Gd eq_refl)). Qed.

(** * A search *)
Lemma files_collect : forall fs ms ids, (forall ls, In ls fs -> noNull ls) -> (forall ls, In ls fs -> goodInclude ls) ->
  collectFiles (map fileTokens fs) = Ok ms ids -> forall ls s, In ls fs -> defined ls s -> In s ms.
Proof.
  induction fs as [ | f fs IH]; intros ms ids N G H ls s Hl D; [destruct Hl | ].
  cbn [map collectFiles] in H. destruct (collectFile (fileTokens f)) as [m1 i1 | | ] eqn:E1; try discriminate H.
  destruct (collectFiles (map fileTokens fs)) as [m2 i2 | | ] eqn:E2; try discriminate H. injection H as <- <-.
  apply in_or_app. destruct Hl as [<- | Hl].
  - left. apply (collect_true f m1 i1 s); [intros _; apply N; left; reflexivity | intros _; apply G; left; reflexivity | exact E1 | exact D].
  - right. apply (IH m2 i2) with (ls := ls); [intros x Hx; apply N; right; exact Hx | intros x Hx; apply G; right; exact Hx | reflexivity | exact Hl | exact D].
Qed.

Lemma locs_spec : forall locs v rep v', checkLocs locs v = (rep, v') ->
  NoDup rep /\ (forall p, In p rep -> In (p, true) locs /\ ~ In p v) /\ incl v v'
  /\ (forall p, In p v' -> In p v \/ exists b, In (p, b) locs)
  /\ (forall p, In (p, true) locs -> ~ In (p, false) locs -> ~ In p v -> In p rep).
Proof.
  induction locs as [ | [p b] locs IH]; intros v rep v' H.
  - cbn in H. apply pair_equal_spec in H. destruct H as [<- <-]. split; [constructor | ]. split; [intros p [] | ]. split; [apply incl_refl | ].
    split; [intros p Hp; left; exact Hp | intros p []].
  - cbn [checkLocs] in H. destruct (existsb (Nat.eqb p) v) eqn:E.
    + destruct (IH v rep v' H) as [A [B [C [D F]]]]. split; [exact A | ]. split; [ | split; [exact C | split]].
      * intros q Hq. destruct (B q Hq) as [X Y]. split; [right; exact X | exact Y].
      * intros q Hq. destruct (D q Hq) as [X | [c X]]; [left; exact X | right; exists c; right; exact X].
      * intros q [X | X] Nf Nv; [ | apply F; [exact X | intros Y; apply Nf; right; exact Y | exact Nv]].
        injection X as -> ->. apply existsb_exists in E. destruct E as [x [Hx Ex]]. apply Nat.eqb_eq in Ex. subst x. contradiction.
    + destruct (checkLocs locs (p :: v)) as [rep1 v1] eqn:E1. apply pair_equal_spec in H. destruct H as [<- <-].
      destruct (IH (p :: v) rep1 v1 E1) as [A [B [C [D F]]]].
      assert (Npv : ~ In p v).
      { intros X. assert (Y : existsb (Nat.eqb p) v = true) by (apply existsb_exists; exists p; split; [exact X | apply Nat.eqb_refl]). congruence. }
      split; [ | split; [ | split; [ | split]]].
      * destruct b; [ | exact A]. constructor; [ | exact A]. intros X. destruct (B p X) as [_ Y]. apply Y. left. reflexivity.
      * intros q Hq. assert (Q : In q rep1 -> In (q, true) ((p, b) :: locs) /\ ~ In q v).
        { intros X. destruct (B q X) as [Y Z]. split; [right; exact Y | intros W; apply Z; right; exact W]. }
        destruct b; [ | exact (Q Hq)]. destruct Hq as [<- | Hq]; [split; [left; reflexivity | exact Npv] | exact (Q Hq)].
      * intros x Hx. apply C. right. exact Hx.
      * intros q Hq. destruct (D q Hq) as [[<- | X] | [c X]]; [right; exists b; left; reflexivity | left; exact X | right; exists c; right; exact X].
      * intros q [X | X] Nf Nv.
        -- injection X as -> ->. left. reflexivity.
        -- apply in_or_app. destruct (Nat.eq_dec q p) as [-> | Nq].
           ++ destruct b; [left; left; reflexivity | contradiction Nf; left; reflexivity].
           ++ right. apply F; [exact X | intros Y; apply Nf; right; exact Y | ]. intros [Y | Y]; [congruence | contradiction].
Qed.
Lemma once_true : C97_once_claim.
Proof.
  intros locs rep v H. destruct (locs_spec locs [] rep v H) as [A [B [_ [_ F]]]]. split; [exact A | ]. split.
  - intros p Hp. destruct (B p Hp) as [X _]. exact X.
  - intros C p Hp. apply F; [exact Hp | exact (C p Hp) | intros []].
Qed.

Lemma raw_spec : forall visited macros range, rawTraverse visited macros RNormal range = Reports [] ->
  (forall l h t r, range = l ++ h :: t :: r -> isHash (snd h) = true -> fst (snd t) = TId nPragma)
  /\ (forall l p s b r, range = l ++ (p, (TId s, b)) :: r -> (forall l' h, l = l' ++ [h] -> isHash (snd h) = false) ->
        In p visited \/ ~ In s macros).
Proof.
  intros visited macros.
  assert (R : forall p x, report p x <> Reports []) by (intros p [l | ]; discriminate).
  assert (S : forall n range, length range <= n -> rawTraverse visited macros RNormal range = Reports [] ->
    (forall l h t r, range = l ++ h :: t :: r -> isHash (snd h) = true -> fst (snd t) = TId nPragma)
    /\ (forall l p s b r, range = l ++ (p, (TId s, b)) :: r -> (forall l' h, l = l' ++ [h] -> isHash (snd h) = false) ->
        In p visited \/ ~ In s macros)).
  { induction n as [ | n IH]; intros range L H.
    { destruct range; [ | cbn in L; lia]. split; [intros l h t r E; destruct l; discriminate E | intros l p s b r E; destruct l; discriminate E]. }
    destruct range as [ | [q t] range].
    { split; [intros l h t r E; destruct l; discriminate E | intros l p s b r E; destruct l; discriminate E]. }
    cbn [length] in L. cbn [rawTraverse] in H. destruct (isHash t) eqn:Eh.
    - destruct range as [ | [q2 t2] range]; [discriminate H | ]. cbn [rawTraverse] in H.
      destruct (fst t2) as [s2 | | | | | ] eqn:E2; try discriminate H.
      destruct (s2 =? nPragma) eqn:Ep.
      + apply Nat.eqb_eq in Ep. subst s2. cbn [length] in L. destruct (IH range ltac:(lia) H) as [A B].
        assert (Nh : isHash t2 = false) by (unfold isHash; rewrite E2; reflexivity).
        split.
        * intros l h x r E Hh. destruct l as [ | y [ | z l]]; cbn in E.
          -- injection E as _ <- _. exact E2.
          -- injection E as _ <- _. cbn in Hh. congruence.
          -- injection E as _ _ E. exact (A l h x r E Hh).
        * intros l p s b r E Hl. destruct l as [ | y [ | z l]]; cbn in E.
          -- injection E as _ Et _. subst t. unfold isHash in Eh. cbn in Eh. discriminate Eh.
          -- injection E as <- _ _ _. pose proof (Hl [] (q, t) eq_refl) as X. cbn in X. congruence.
          -- injection E as _ <- E. apply (B l p s b r E). intros l' h E'. apply (Hl (y :: (q2, t2) :: l') h). rewrite E'. reflexivity.
      + exfalso. destruct ((s2 =? nDefine) || (s2 =? nUndef) || (s2 =? nIfdef) || (s2 =? nIfndef)); [ | exact (R _ _ H)].
        destruct range as [ | [q3 t3] range]; [discriminate H | ]. cbn [rawTraverse] in H. exact (R _ _ H).
    - assert (H' : rawTraverse visited macros RNormal range = Reports []
          /\ forall s b, t = (TId s, b) -> In q visited \/ ~ In s macros).
      { destruct t as [[s | | | | | ] b]; cbn [fst] in H; try (split; [exact H | intros s' b' E; discriminate E]).
        destruct (negb (existsb (Nat.eqb q) visited) && existsb (Nat.eqb s) macros) eqn:Em; [contradiction (R _ _ H) | ].
        split; [exact H | ]. intros s' b' E. injection E as <- <-. apply andb_false_iff in Em. destruct Em as [Em | Em].
        - left. apply negb_false_iff in Em. apply existsb_exists in Em. destruct Em as [x [Hx Ex]]. apply Nat.eqb_eq in Ex. subst x. exact Hx.
        - right. intros X. assert (Y : existsb (Nat.eqb s) macros = true) by (apply existsb_exists; exists s; split; [exact X | apply Nat.eqb_refl]). congruence. }
      destruct H' as [H' Ht]. destruct (IH range ltac:(lia) H') as [A B]. split.
      + intros l h x r E Hh. destruct l as [ | y l]; cbn in E.
        * injection E as <- _. cbn in Hh. congruence.
        * injection E as _ E. exact (A l h x r E Hh).
      + intros l p s b r E Hl. destruct l as [ | y l]; cbn in E.
        * injection E as <- Et _. exact (Ht s b Et).
        * injection E as <- E. apply (B l p s b r E). intros l' h E'. apply (Hl ((q, t) :: l') h). rewrite E'. reflexivity. }
  intros range H. exact (S (length range) range (le_n _) H).
Qed.

Lemma search_true : C97_search_claim true true true.
Proof.
  intros w ms ids same [V1 [V2 V3]] N G O Hc Ha. specialize (N eq_refl). specialize (G eq_refl). specialize (O eq_refl).
  unfold forEachMacro in Ha. destruct (checkLocs (wLocs w) []) as [rep v] eqn:El.
  destruct same; [ | destruct rep; discriminate Ha].
  destruct (rawTraverse v ms RNormal (wRange w)) as [l | ] eqn:Er; [ | discriminate Ha].
  assert (Erep : rep = [] /\ l = []) by (destruct rep; [destruct l; [split; reflexivity | discriminate Ha] | discriminate Ha]).
  destruct Erep as [-> ->]. destruct (raw_spec v ms (wRange w) Er) as [A B]. split; [reflexivity | ]. split; [ | exact A].
  intros p t Hp. destruct (wExpanded w p) eqn:Ex; [ | reflexivity]. exfalso.
  destruct (V2 p t Hp Ex) as [s [Et [Out | [ls [Hls D]]]]]; [contradiction (O s Out) | ].
  apply in_split in Hp. destruct Hp as [l1 [l2 Esp]]. destruct t as [t b]. cbn in Et. subst t.
  assert (Hms : In s ms) by (apply (files_collect (wFiles w) ms ids N G Hc ls s Hls D)).
  destruct (B l1 p s b l2 Esp) as [X | X]; [ | | contradiction].
  - intros l' h E'. destruct (isHash (snd h)) eqn:Eh; [ | reflexivity]. exfalso.
    assert (E2 : wRange w = l' ++ h :: (p, (TId s, b)) :: l2) by (rewrite Esp, E', <- app_assoc; reflexivity).
    pose proof (V1 l' h (p, (TId s, b)) l2 E2 Eh) as Y. cbn in Y. congruence.
  - destruct (locs_spec (wLocs w) [] [] v El) as [_ [_ [_ [D' F]]]]. destruct (D' p X) as [[] | [c Hc']].
    pose proof (V3 p c Hc') as Y. subst c. rewrite Ex in Hc'.
    assert (Z : In p []); [ | destruct Z]. apply F; [exact Hc' | | intros []]. intros W. pose proof (V3 p false W). congruence.
Qed.

Lemma noassert_true : C97_noassert_claim true.
Proof.
  intros ms locs same range G H. specialize (G eq_refl). unfold forEachMacro in H. destruct (checkLocs locs []) as [rep v].
  destruct same; [ | discriminate H].
  assert (R : forall p x, x <> RAssert -> report p x <> RAssert) by (intros p [l | ] X; [discriminate | contradiction]).
  assert (S : forall n range0, length range0 <= n ->
    (forall l h r, range0 = l ++ h :: r -> isHash (snd h) = true -> exists p s b r', r = (p, (TId s, b)) :: r') ->
    rawTraverse v ms RNormal range0 <> RAssert).
  { induction n as [ | n IH]; intros range0 L G0.
    { destruct range0; [discriminate | cbn in L; lia]. }
    destruct range0 as [ | [q t] r0]; [discriminate | ]. cbn [length] in L.
    assert (Tl : forall l x, r0 = l ++ x -> forall l' h r, x = l' ++ h :: r -> isHash (snd h) = true -> exists p s b r', r = (p, (TId s, b)) :: r').
    { intros l x E l' h r E' Hh. apply (G0 ((q, t) :: l ++ l') h r); [ | exact Hh]. cbn. rewrite E, E', app_assoc. reflexivity. }
    cbn [rawTraverse]. destruct (isHash t) eqn:Eh.
    - destruct (G0 [] (q, t) r0 eq_refl Eh) as [p [s [b [r' ->]]]]. cbn [length] in L. cbn [rawTraverse fst].
      assert (Nr : rawTraverse v ms RNormal r' <> RAssert) by (apply IH; [lia | exact (Tl [(p, (TId s, b))] r' eq_refl)]).
      destruct (s =? nPragma); [exact Nr | ].
      destruct ((s =? nDefine) || (s =? nUndef) || (s =? nIfdef) || (s =? nIfndef)); [ | apply R; exact Nr].
      destruct r' as [ | [q3 t3] r']; [discriminate | ]. cbn [rawTraverse]. apply R. cbn [length] in L.
      apply IH; [lia | exact (Tl [(p, (TId s, b)); (q3, t3)] r' eq_refl)].
    - assert (Nr : rawTraverse v ms RNormal r0 <> RAssert) by (apply IH; [lia | exact (Tl [] r0 eq_refl)]).
      destruct (fst t); try exact Nr. destruct (_ && _); [apply R; exact Nr | exact Nr]. }
  pose proof (S (length range) range (le_n _) G) as X. cbn in H. destruct (rawTraverse v ms RNormal range); [discriminate H | contradiction].
Qed.

(** * Assertions *)
Fixpoint go (l : list node) (act : bool) : bool * list nat :=
  match l with
  | [] => (act, [])
  | c :: r => let '(a1, k1) := traverse c act in let '(a2, k2) := go r a1 in (a2, k1 ++ k2)
  end.
Lemma traverse_node : forall i cs, traverse (Node i cs) false = go cs false.
Proof.
  intros i cs. cbn [traverse]. generalize false. induction cs as [ | c cs IH]; intros a; [reflexivity | ].
  cbn [go]. destruct (traverse c a) as [a1 k1]. rewrite IH. reflexivity.
Qed.
Lemma go_app : forall a b act, go (a ++ b) act = (fst (go b (fst (go a act))), snd (go a act) ++ snd (go b (fst (go a act)))).
Proof.
  induction a as [ | c a IH]; intros b act.
  - cbn. destruct (go b act). reflexivity.
  - cbn [app go]. destruct (traverse c act) as [a1 k1]. rewrite IH. destruct (go a a1) as [a2 k2]. cbn. rewrite app_assoc. reflexivity.
Qed.
Lemma go_prags : forall ps, Forall isPrag ps -> go ps true = (true, []).
Proof.
  induction ps as [ | p ps IH]; intros H; [reflexivity | ]. inversion H as [ | ? ? A B]; subst. destruct p as [a | i cs]; [ | destruct A].
  cbn [go traverse]. rewrite orb_true_r. rewrite (IH B). reflexivity.
Qed.

Lemma sub_trans : forall a b c, sub a b -> sub b c -> sub a c.
Proof. intros a b c H. induction H as [n | i cs x m Hx _ IH]; intros K; [exact K | ]. apply (sub_child i cs x c Hx). exact (IH K). Qed.

(** A node is a part of a checked node or its children are traversed. *)
Definition covered (n : node) (act : bool) (m : node) : Prop :=
  exists j cj, In j (snd (traverse n act)) /\ sub n (Node j cj) /\ sub (Node j cj) m.
Lemma visit_node : forall n m, sub n m -> forall act k l, m = Node k l ->
  covered n act m \/ incl (snd (go l false)) (snd (traverse n act)).
Proof.
  intros n m H. induction H as [n | i cs c m Hc Hs IH]; intros act k l E.
  - subst n. destruct act.
    + left. exists k, l. split; [left; reflexivity | ]. split; apply sub_self.
    + right. rewrite traverse_node. apply incl_refl.
  - destruct act.
    + left. exists i, cs. split; [left; reflexivity | ]. split; [apply sub_self | ]. exact (sub_child i cs c m Hc Hs).
    + apply in_split in Hc. destruct Hc as [l1 [l2 ->]].
      assert (Sub : incl (snd (traverse c (fst (go l1 false)))) (snd (traverse (Node i (l1 ++ c :: l2)) false))).
      { rewrite traverse_node, go_app. cbn [snd go]. destruct (traverse c (fst (go l1 false))) as [a1 k1]. destruct (go l2 a1) as [a2 k2].
        cbn [snd]. intros x Hx. apply in_or_app. right. apply in_or_app. left. exact Hx. }
      destruct (IH (fst (go l1 false)) k l E) as [[j [cj [A [B C]]]] | A].
      * left. exists j, cj. split; [exact (Sub j A) | ]. split; [ | exact C].
        apply (sub_child i _ c); [apply in_or_app; right; left; reflexivity | exact B].
      * right. intros x Hx. apply Sub. exact (A x Hx).
Qed.

Lemma assert_true : C97_assert_claim.
Proof.
  intros k ns i cs [k0 [l [ps [r [Hs Fp]]]]].
  assert (Hi : sub (Node k0 (l ++ Prag true :: ps ++ Node i cs :: r)) (Node i cs)).
  { apply (sub_child k0 _ (Node i cs)); [ | apply sub_self]. apply in_or_app. right. right. apply in_or_app. right. left. reflexivity. }
  destruct (visit_node _ _ Hs false k0 _ eq_refl) as [[j [cj [A [B C]]]] | A].
  - exists j, cj. split; [exact A | ]. split; [exact B | exact (sub_trans _ _ _ C Hi)].
  - exists i, cs. split; [ | split; [exact (sub_trans _ _ _ Hs Hi) | apply sub_self]]. apply A.
    rewrite go_app. cbn [snd]. apply in_or_app. right. cbn [go traverse orb].
    rewrite go_app. rewrite (go_prags ps Fp). cbn. destruct (go r false). left. reflexivity.
Qed.

(** Only asserted nodes are checked. *)
Section NodeInd.
  Variable Q : node -> Prop.
  Hypothesis HP : forall a, Q (Prag a).
  Hypothesis HN : forall i cs, Forall Q cs -> Q (Node i cs).
  Fixpoint node_ind' (n : node) : Q n :=
    match n with
    | Prag a => HP a
    | Node i cs => HN i cs ((fix f (l : list node) : Forall Q l := match l with [] => Forall_nil Q | c :: r => Forall_cons c (node_ind' c) (f r) end) cs)
    end.
End NodeInd.

Lemma followed_child : forall i cs c, followed (Node i cs) -> In c cs -> followed c.
Proof. intros i cs c F Hc k l r Hs. apply (F k l r). exact (sub_child i cs c _ Hc Hs). Qed.
Lemma asserted_child : forall i cs c j cj, In c cs -> asserted c j cj -> asserted (Node i cs) j cj.
Proof. intros i cs c j cj Hc [k [l [ps [r [Hs Fp]]]]]. exists k, l, ps, r. split; [exact (sub_child i cs c _ Hc Hs) | exact Fp]. Qed.

Lemma checked_node : forall n i cs, n = Node i cs -> followed n ->
  fst (traverse n false) = false /\ forall j, In j (snd (traverse n false)) -> exists cj, asserted n j cj.
Proof.
  intros n. induction n as [a | i cs IH] using node_ind'; intros i0 cs0 E F; [discriminate E | ]. clear E.
  rewrite traverse_node.
  (* a suffix of the list of children; an active clause is before it *)
  assert (G : forall l2 l1 act, cs = l1 ++ l2 ->
    (act = true -> exists l ps, l1 = l ++ Prag true :: ps /\ Forall isPrag ps) ->
    (act = true -> exists ps i1 c1 r, l2 = ps ++ Node i1 c1 :: r /\ Forall isPrag ps) ->
    fst (go l2 act) = false /\ forall j, In j (snd (go l2 act)) -> exists cj, asserted (Node i cs) j cj).
  { induction l2 as [ | c l2 IHl]; intros l1 act E Before After.
    - destruct act; [ | split; [reflexivity | intros j []]]. destruct (After eq_refl) as [ps [i1 [c1 [r [E1 _]]]]]. destruct ps; discriminate E1.
    - assert (E' : cs = (l1 ++ [c]) ++ l2) by (rewrite <- app_assoc; exact E).
      assert (Hc : In c cs) by (rewrite E; apply in_or_app; right; left; reflexivity).
      cbn [go]. destruct c as [a | i1 c1].
      + cbn [traverse]. destruct (go l2 (a || act)) as [a2 k2] eqn:Eg. cbn [app fst snd].
        assert (X := IHl (l1 ++ [Prag a]) (a || act) E'). rewrite Eg in X. apply X.
        * intros Ha. destruct a; [exists l1, []; split; [reflexivity | constructor] | ].
          destruct (Before Ha) as [l [ps [-> Fp]]]. exists l, (ps ++ [Prag false]). split; [rewrite <- app_assoc; reflexivity | ].
          apply Forall_app. split; [exact Fp | constructor; [exact Logic.I | constructor]].
        * intros Ha. destruct a.
          -- destruct (F i l1 l2) as [ps [i1 [c1 [r [E1 Fp]]]]]; [rewrite <- E; apply sub_self | ]. exists ps, i1, c1, r. split; assumption.
          -- destruct (After Ha) as [ps [i1 [c1 [r [E1 Fp]]]]]. destruct ps as [ | p ps]; [discriminate E1 | ]. cbn in E1. injection E1 as _ E1.
             inversion Fp; subst. exists ps, i1, c1, r. split; [reflexivity | assumption].
      + destruct act.
        * cbn [traverse]. destruct (go l2 false) as [a2 k2] eqn:Eg. cbn [app fst snd].
          assert (X := IHl (l1 ++ [Node i1 c1]) false E'). rewrite Eg in X.
          destruct X as [X1 X2]; [discriminate | discriminate | ]. split; [exact X1 | ]. intros j [<- | Hj]; [ | exact (X2 j Hj)].
          exists c1. destruct (Before eq_refl) as [l [ps [-> Fp]]]. exists i, l, ps, l2. split; [ | exact Fp].
          rewrite <- app_assoc in E. cbn [app] in E. rewrite <- E. apply sub_self.
        * rewrite Forall_forall in IH. destruct (IH _ Hc i1 c1 eq_refl (followed_child i cs _ F Hc)) as [T1 T2].
          destruct (traverse (Node i1 c1) false) as [a1 k1]. cbn [fst snd] in T1, T2. subst a1.
          destruct (go l2 false) as [a2 k2] eqn:Eg. assert (X := IHl (l1 ++ [Node i1 c1]) false E'). rewrite Eg in X.
          destruct X as [X1 X2]; [discriminate | discriminate | ]. cbn [fst snd] in *. split; [exact X1 | ].
          intros j Hj. apply in_app_or in Hj. destruct Hj as [Hj | Hj]; [ | exact (X2 j Hj)].
          destruct (T2 j Hj) as [cj A]. exists cj. exact (asserted_child i cs _ j cj Hc A). }
  apply (G cs [] false eq_refl); discriminate.
Qed.
Lemma checked_true : C97_checked_claim true.
Proof. intros k ns j F Hj. destruct (checked_node (Node k ns) k ns eq_refl (F eq_refl)) as [_ X]. exact (X j Hj). Qed.

(** * Refutations *)
(** # <newline> #define 10 *)
Lemma collect_null : ~ C97_collect_claim false true.
Proof.
  intros C. assert (X : In 10 []); [ | destruct X].
  apply (C [[THash]; [THash; TId nDefine; TId 10]] [] [10; nDefine] 10); [discriminate | | reflexivity | ].
  - intros _ r [H | [H | []]]; discriminate H.
  - exists [THash; TId nDefine; TId 10]. split; [right; left; reflexivity | exists []; reflexivity].
Qed.
(** #if 0, #include <a, #endif, #define 10, x > y *)
Lemma collect_include : ~ C97_collect_claim true false.
Proof.
  intros C. assert (X : In 10 []); [ | destruct X].
  apply (C [[THash; TId 20; TLit]; [THash; TId nInclude; TLess; TId 11]; [THash; TId 21]; [THash; TId nDefine; TId 10]; [TId 12; TGreater; TId 13]] [] [13] 10).
  - intros _ [H | [H | [H | [H | [H | []]]]]]; discriminate H.
  - discriminate.
  - reflexivity.
  - exists [THash; TId nDefine; TId 10]. split; [cbn; tauto | exists []; reflexivity].
Qed.
(** # <newline> define x *)
Lemma only_null : ~ C97_only_claim false true.
Proof.
  intros C. destruct (C [[THash]; [TId nDefine; TId 10]] [10] [] 10) as [l [H [r D]]]; [discriminate | | reflexivity | left; reflexivity | ].
  - intros _ r [H | [H | []]]; discriminate H.
  - destruct H as [<- | [<- | []]]; discriminate D.
Qed.
(** #if 0, #define, #endif *)
Lemma only_define : ~ C97_only_claim true false.
Proof.
  intros C. destruct (C [[THash; TId nDefine]; [TId 10]] [10] [] 10) as [l [H [r D]]]; [ | discriminate | reflexivity | left; reflexivity | ].
  - intros _ [H | [H | []]]; discriminate H.
  - destruct H as [<- | [<- | []]]; discriminate D.
Qed.
(** # <newline> define = 1 *)
Lemma total_null : ~ C97_total_claim false true true.
Proof.
  intros C. destruct (C [[THash]; [TId nDefine; TOther; TLit]]) as [ms [ids E]]; [discriminate | | | discriminate E].
  - intros _ r [H | [H | []]]; discriminate H.
  - intros _ r [H | [H | []]]; discriminate H.
Qed.
(** #include NAME *)
Lemma total_include : ~ C97_total_claim true false true.
Proof.
  intros C. destruct (C [[THash; TId nInclude; TId 10]]) as [ms [ids E]]; [ | discriminate | | discriminate E].
  - intros _ [H | []]; discriminate H.
  - intros _ r [H | []]; discriminate H.
Qed.
Lemma total_define : ~ C97_total_claim true true false.
Proof.
  intros C. destruct (C [[THash; TId nDefine]]) as [ms [ids E]]; [ | | discriminate | discriminate E].
  - intros _ [H | []]; discriminate H.
  - intros _ r [H | []]; discriminate H.
Qed.

(** A macro is found in a range neither in AST nor in collected names. *)
Definition wLost (files : list (list (list tok))) (out : nat -> Prop) : world :=
  World files out (fun p => p =? 1) [(0, (TId 12, true)); (1, (TId 10, false)); (2, (TOther, false))] [(0, false); (2, false)].
Lemma lost_valid : forall files out, (out 10 \/ exists ls, In ls files /\ defined ls 10) -> valid (wLost files out).
Proof.
  intros files out H. split; [ | split].
  - intros l h t r E Hh. cbn in E. destruct l as [ | a [ | b [ | c l]]]; cbn in E.
    + injection E as <- <- _. discriminate Hh.
    + injection E as _ <- <- _. discriminate Hh.
    + injection E as _ _ _ E. discriminate E.
    + injection E as _ _ _ E. destruct l; discriminate E.
  - intros p t [E | [E | [E | []]]] Hx; injection E as <- <-; try discriminate Hx. exists 10. split; [reflexivity | exact H].
  - intros p b [E | [E | []]]; injection E as <- <-; reflexivity.
Qed.
Lemma search_null : ~ C97_search_claim false true true.
Proof.
  intros C. destruct (C (wLost [[[THash]; [THash; TId nDefine; TId 10]]] (fun _ => False)) [] [10; nDefine] true) as [_ [X _]].
  - apply lost_valid. right. eexists. split; [left; reflexivity | ]. exists [THash; TId nDefine; TId 10].
    split; [right; left; reflexivity | exists []; reflexivity].
  - discriminate.
  - intros _ ls [<- | []] r [H | [H | []]]; discriminate H.
  - intros _ s [].
  - reflexivity.
  - reflexivity.
  - discriminate (X 1 (TId 10, false) ltac:(cbn; tauto)).
Qed.
Lemma search_include : ~ C97_search_claim true false true.
Proof.
  intros C.
  destruct (C (wLost [[[THash; TId nInclude; TLess; TId 11]; [THash; TId nDefine; TId 10]; [TId 12; TGreater; TId 13]]] (fun _ => False)) [] [13] true) as [_ [X _]].
  - apply lost_valid. right. eexists. split; [left; reflexivity | ]. exists [THash; TId nDefine; TId 10].
    split; [right; left; reflexivity | exists []; reflexivity].
  - intros _ ls [<- | []] [H | [H | [H | []]]]; discriminate H.
  - discriminate.
  - intros _ s [].
  - reflexivity.
  - reflexivity.
  - discriminate (X 1 (TId 10, false) ltac:(cbn; tauto)).
Qed.
(** A macro is defined in a command line. *)
Lemma search_outside : ~ C97_search_claim true true false.
Proof.
  intros C. destruct (C (wLost [] (fun s => s = 10)) [] [] true) as [_ [X _]].
  - apply lost_valid. left. reflexivity.
  - intros _ ls [].
  - intros _ ls [].
  - discriminate.
  - reflexivity.
  - reflexivity.
  - discriminate (X 1 (TId 10, false) ltac:(cbn; tauto)).
Qed.
Lemma noassert_null : ~ C97_noassert_claim false.
Proof. intros C. apply (C [] [] true [(0, (THash, true)); (1, (TOther, true))]); [discriminate | reflexivity]. Qed.
(** { { #pragma spf assert nomacro } x; } *)
Definition leak : node := Node 0 [Node 1 [Prag true]; Node 2 []].
Lemma sub_inv : forall a b, sub a b -> a = b \/ exists i cs c, a = Node i cs /\ In c cs /\ sub c b.
Proof. intros a b [n | i cs c m Hc Hs]; [left; reflexivity | right; exists i, cs, c; split; [reflexivity | split; assumption]]. Qed.
Lemma checked_leak : ~ C97_checked_claim false.
Proof.
  intros C. destruct (C 0 [Node 1 [Prag true]; Node 2 []] 2) as [cj [k [l [ps [r [Hs Fp]]]]]]; [discriminate | left; reflexivity | ].
  destruct (sub_inv _ _ Hs) as [E | [i [cs [c [E [Hc Hs']]]]]].
  - destruct l as [ | a [ | b l]]; [discriminate E | discriminate E | injection E as _ _ _ E; destruct l; discriminate E].
  - injection E as <- <-. destruct Hc as [<- | [<- | []]]; destruct (sub_inv _ _ Hs') as [E | [i [cs [c [E [Hc Hs2]]]]]].
    + destruct l as [ | a l]; [injection E as _ E; destruct ps; discriminate E | injection E as _ _ E; destruct l; discriminate E].
    + injection E as <- <-. destruct Hc as [<- | []]. destruct (sub_inv _ _ Hs2) as [E | [i [cs [c [E _]]]]]; discriminate E.
    + injection E as _ E. destruct l; discriminate E.
    + injection E as <- <-. destruct Hc.
Qed.
