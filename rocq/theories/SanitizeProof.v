(** Proofs for C92. *)
From Coq Require Import PeanoNat Bool List Permutation Lia.
From Verif Require Import SanitizeModel SanitizeSpec.
Import ListNotations.

Lemma hasDep_dep : forall t, hasDep t = true <-> dep t.
Proof.
  intros t. unfold dep. destruct t as [f a o | | k]; cbn [hasDep].
  - split.
    + intros H. exists f, a, o. split; [reflexivity | ]. apply orb_true_iff in H. destruct H as [H | H]; [ | tauto].
      apply orb_true_iff in H. tauto.
    + intros [f' [a' [o' [E H]]]]. injection E as <- <- <-. destruct H as [-> | [-> | ->]];
        [reflexivity | destruct f; reflexivity | apply orb_true_r].
  - split; [discriminate | intros [f [a [o [E _]]]]; discriminate E].
  - split; [discriminate | intros [f [a [o [E _]]]]; discriminate E].
Qed.

Lemma id_sanitizeNode : forall ds n, nId (sanitizeNode ds n) = nId n.
Proof.
  intros ds n. unfold sanitizeNode. destruct (_ && _); [reflexivity | ]. destruct (hasDep (nTrait n)); reflexivity.
Qed.
Lemma id_at : forall ds i, map nId (sanitizeAt ds i) = map nId ds.
Proof.
  intros ds i. unfold sanitizeAt. rewrite map_map. apply map_ext. intros n.
  destruct (nId n =? i); [apply id_sanitizeNode | reflexivity].
Qed.
Lemma id_sanitize : forall o ds, map nId (sanitize o ds) = map nId ds.
Proof.
  unfold sanitize. induction o as [ | i o IH]; intros ds; [reflexivity | ]. cbn [fold_left]. rewrite IH. apply id_at.
Qed.

(** Search in a changed list. *)
Lemma find_map : forall (f : dnode -> dnode) i ds, (forall n, nId (f n) = nId n) ->
  get (map f ds) i = option_map f (get ds i).
Proof.
  intros f i ds H. unfold get. induction ds as [ | n ds IH]; [reflexivity | ]. cbn [map find].
  rewrite H. destruct (nId n =? i); [reflexivity | exact IH].
Qed.
Lemma get_id : forall ds i n, get ds i = Some n -> nId n = i /\ In n ds.
Proof.
  intros ds i n H. unfold get in H. apply find_some in H. destruct H as [H1 H2].
  apply Nat.eqb_eq in H2. split; assumption.
Qed.
Lemma get_at : forall ds j i, get (sanitizeAt ds j) i
  = if i =? j then option_map (sanitizeNode ds) (get ds i) else get ds i.
Proof.
  intros ds j i. unfold sanitizeAt. rewrite find_map.
  - destruct (get ds i) as [n | ] eqn:E; [ | destruct (i =? j); reflexivity].
    cbn [option_map]. destruct (get_id ds i n E) as [-> _]. destruct (i =? j); reflexivity.
  - intros n. destruct (nId n =? j); [apply id_sanitizeNode | reflexivity].
Qed.
Lemma get_in : forall ds n, NoDup (map nId ds) -> In n ds -> get ds (nId n) = Some n.
Proof.
  induction ds as [ | m ds IH]; intros n N H; [destruct H | ]. cbn [map] in N. inversion N; subst.
  unfold get. cbn [find]. destruct H as [<- | H].
  - rewrite Nat.eqb_refl. reflexivity.
  - destruct (nId m =? nId n) eqn:E; [ | exact (IH n H3 H)].
    apply Nat.eqb_eq in E. exfalso. apply H2. rewrite E. apply in_map. exact H.
Qed.

Lemma get_skip : forall o ds i, ~ In i o -> get (sanitize o ds) i = get ds i.
Proof.
  unfold sanitize. induction o as [ | j o IH]; intros ds i H; [reflexivity | ]. cbn [fold_left].
  rewrite IH by (intros Hi; apply H; right; exact Hi). rewrite get_at.
  destruct (Nat.eqb_spec i j) as [-> | _]; [ | reflexivity]. contradiction H. left. reflexivity.
Qed.
(** Each node is processed once in some intermediate state. *)
Lemma get_once : forall o1 i o2 ds, ~ In i o1 -> ~ In i o2 ->
  get (sanitize (o1 ++ i :: o2) ds) i = option_map (sanitizeNode (sanitize o1 ds)) (get ds i).
Proof.
  intros o1 i o2 ds H1 H2. unfold sanitize at 1. rewrite fold_left_app. cbn [fold_left].
  fold (sanitize o1 ds). fold (sanitize o2 (sanitizeAt (sanitize o1 ds) i)).
  rewrite get_skip by exact H2. rewrite get_at, Nat.eqb_refl. rewrite get_skip by exact H1. reflexivity.
Qed.

Lemma result_step : forall o ds n n', visits o ds -> result o ds n n' ->
  exists o1 o2, o = o1 ++ nId n :: o2 /\ ~ In (nId n) o2 /\ n' = sanitizeNode (sanitize o1 ds) n.
Proof.
  intros o ds n n' [N P] [H1 [H2 E]].
  assert (Hin : In (nId n) o).
  { apply Permutation_in with (l := map nId ds); [apply Permutation_sym; exact P | apply in_map; exact H1]. }
  apply in_split in Hin. destruct Hin as [o1 [o2 ->]].
  assert (No : NoDup (o1 ++ nId n :: o2)).
  { apply Permutation_NoDup with (l := map nId ds); [apply Permutation_sym; exact P | exact N]. }
  pose proof (NoDup_remove_2 _ _ _ No) as R. exists o1, o2. split; [reflexivity | ].
  assert (R1 : ~ In (nId n) o1) by (intros H; apply R; apply in_or_app; left; exact H).
  assert (R2 : ~ In (nId n) o2) by (intros H; apply R; apply in_or_app; right; exact H).
  split; [exact R2 | ].
  pose proof (get_once o1 (nId n) o2 ds R1 R2) as G. rewrite (get_in ds n N H1) in G. cbn [option_map] in G.
  assert (N' : NoDup (map nId (sanitize (o1 ++ nId n :: o2) ds))) by (rewrite id_sanitize; exact N).
  pose proof (get_in _ n' N' H2) as G'. rewrite <- E in G'. rewrite G in G'. injection G' as G'. symmetry. exact G'.
Qed.

Lemma same_true : C92_same_claim.
Proof.
  intros o ds V. split; [apply id_sanitize | ]. intros n n' R.
  destruct (result_step o ds n n' V R) as [o1 [o2 [_ [_ ->]]]]. unfold sanitizeNode.
  destruct (_ && _); [split; reflexivity | ]. destruct (hasDep (nTrait n)); [ | split; reflexivity].
  cbn [nLocs nUnknown]. rewrite map_map. split; [ | reflexivity]. apply map_ext. intros l. unfold updateLoc.
  destruct (hasDep _); reflexivity.
Qed.

Lemma alone_test : forall n, ((match nUnknown n with [] => true | _ => false end) && (length (nLocs n) =? 1) = true) <-> alone n.
Proof.
  intros n. unfold alone. rewrite andb_true_iff, Nat.eqb_eq. split.
  - intros [H1 H2]. split; [destruct (nUnknown n); [reflexivity | discriminate H1] | ].
    destruct (nLocs n) as [ | l [ | l' ls]]; try discriminate H2. exists l. reflexivity.
  - intros [H1 [l H2]]. rewrite H1, H2. split; reflexivity.
Qed.

Lemma untouched_true : C92_untouched_claim.
Proof.
  intros o ds n n' V R H. destruct (result_step o ds n n' V R) as [o1 [o2 [_ [_ ->]]]]. unfold sanitizeNode.
  destruct (_ && _) eqn:E; [reflexivity | ]. destruct (hasDep (nTrait n)) eqn:D; [ | reflexivity].
  destruct H as [H | H]; [contradiction H; apply hasDep_dep; exact D | ].
  apply alone_test in H. rewrite H in E. discriminate E.
Qed.
Lemma has_dep : forall k t, has k t -> dep t.
Proof.
  intros k t H. destruct t as [f a o | | ]; cbn [has] in H; try (destruct H; fail). exists f, a, o.
  split; [reflexivity | ]. destruct k; tauto.
Qed.
Lemma set_has : forall k a b, has k (setTrait a b) <-> has k a \/ (dep a \/ (exists f g o, a = TDep f g o)) /\ has k b.
Proof.
  intros k a b. destruct a as [f g o | | m]; cbn [setTrait].
  - destruct b as [f' g' o' | | m']; cbn [has].
    + assert (X : exists x y z, TDep f g o = TDep x y z) by (exists f, g, o; reflexivity).
      destruct k; rewrite orb_true_iff; tauto.
    + tauto.
    + tauto.
  - cbn [has]. split; [intros [] | intros [[] | [[[x [y [z [E _]]]] | [x [y [z E]]]] _]]; discriminate E].
  - cbn [has]. split; [intros [] | intros [[] | [[[x [y [z [E _]]]] | [x [y [z E]]]] _]]; discriminate E].
Qed.
Lemma bits_all : forall t k, dep t -> has k (viaBits t).
Proof.
  intros t k H. apply hasDep_dep in H. unfold viaBits. rewrite H. destruct k; reflexivity.
Qed.
Lemma bits_none : forall t, ~ dep t -> viaBits t = t.
Proof.
  intros t H. unfold viaBits. destruct (hasDep t) eqn:E; [ | reflexivity]. contradiction H. apply hasDep_dep. exact E.
Qed.
Lemma set_replaced : forall l t, dep t -> replaced l (setTrait (viaBits (lTrait l)) t) \/ lTrait l = TDep false false false.
Proof.
  intros l t D. destruct (hasDep (lTrait l)) eqn:E.
  - left. split; [intros N; contradiction N; apply hasDep_dep; exact E | ]. intros H k. apply set_has. left.
    apply bits_all. exact H.
  - assert (N : ~ dep (lTrait l)) by (intros H; apply hasDep_dep in H; rewrite H in E; discriminate E).
    rewrite bits_none by exact N. destruct (lTrait l) as [f a o | | m] eqn:T.
    + right. cbn [hasDep] in E. apply orb_false_iff in E. destruct E as [E1 E3]. apply orb_false_iff in E1.
      destruct E1 as [-> ->]. rewrite E3. reflexivity.
    + left. split; [intros _; rewrite T; reflexivity | rewrite T; intros H; contradiction].
    + left. split; [intros _; rewrite T; reflexivity | rewrite T; intros H; contradiction].
Qed.

Lemma uniform_true : C92_uniform_claim.
Proof.
  intros o ds n n' V R D A D' Hc l k. destruct (result_step o ds n n' V R) as [o1 [o2 [_ [_ En]]]].
  unfold sanitizeNode in En. destruct (_ && _) eqn:E in En; [contradiction A; apply alone_test; exact E | ].
  pose proof D as Dn. apply hasDep_dep in Dn. rewrite Dn in En.
  set (t := match mayIgnoreDereference (sanitize o1 ds) n with
             | Some l => setTrait (viaBits (lTrait l)) (nTrait n) | None => nTrait n end) in *.
  subst n'. cbn [nLocs nTrait] in *. intros H. apply in_map_iff in H. destruct H as [l0 [<- H0]].
  unfold updateLoc. pose proof D' as Dt. apply hasDep_dep in Dt. rewrite Dt. cbn [lTrait]. rewrite set_has. split.
  - intros [X | [_ X]]; [exact X | ]. specialize (Hc l0 k H0 X). unfold t in D' |- *.
    destruct (mayIgnoreDereference (sanitize o1 ds) n) as [m | ]; [ | exact Hc].
    apply set_has. right. split; [ | exact Hc].
    destruct D' as [f [a [ot [ED Hd]]]]. destruct (viaBits (lTrait m)) as [f' a' o' | | q] eqn:Eb.
    + right. exists f', a', o'. reflexivity.
    + discriminate ED.
    + discriminate ED.
  - intros X. left. exact X.
Qed.

Lemma kept_true : C92_kept_claim.
Proof.
  intros o ds n n' V R. destruct (result_step o ds n n' V R) as [o1 [o2 [_ [_ ->]]]]. unfold sanitizeNode.
  assert (Refl : forall ls, Forall2 (fun l l' => lLoad l' = lLoad l /\ (forall k, has k (lTrait l) -> has k (lTrait l'))) ls ls).
  { induction ls as [ | l ls IH]; constructor; [ | exact IH]. split; [reflexivity | ]. intros k H. exact H. }
  destruct (_ && _); [split; [apply Refl | reflexivity] | ].
  destruct (hasDep (nTrait n)); [ | split; [apply Refl | reflexivity]]. cbn [nLocs nTrait].
  set (t := match mayIgnoreDereference (sanitize o1 ds) n with
             | Some l => setTrait (viaBits (lTrait l)) (nTrait n) | None => nTrait n end).
  split.
  - induction (nLocs n) as [ | l ls IH]; [constructor | ]. cbn [map]. constructor; [ | exact IH].
    unfold updateLoc. destruct (hasDep t) eqn:Et; [ | split; [reflexivity | intros k H; exact H]].
    cbn [lLoad lTrait]. split; [reflexivity | ]. intros k H. apply set_has. right. split; [ | exact H].
    left. apply hasDep_dep. exact Et.
  - intros N. rewrite <- (map_id (nLocs n)) at 2. apply map_ext. intros l. unfold updateLoc.
    destruct (hasDep t) eqn:Et; [contradiction N; apply hasDep_dep; exact Et | reflexivity].
Qed.

(** * When a dependence may be dropped *)
Definition via (ds : list dnode) (l : loc) : Prop :=
  exists p np, lLoad l = Some p /\ get ds p = Some np /\ nTrait np = TPrivate.

Lemma ignore_some : forall ds ls m r, ignoreLoop ds (Some m) ls = Some r ->
  r = m /\ forall l, In l ls -> via ds l.
Proof.
  intros ds. induction ls as [ | l ls IH]; intros m r H; cbn [ignoreLoop] in H.
  - injection H as <-. split; [reflexivity | intros l []].
  - destruct (lLoad l) as [p | ] eqn:El; [ | discriminate H]. destruct (get ds p) as [np | ] eqn:Eg; [ | discriminate H].
    destruct (isPrivate (nTrait np)) eqn:Ep; [ | discriminate H]. destruct (IH m r H) as [-> I2].
    split; [reflexivity | ]. intros l' [<- | Hl]; [ | exact (I2 l' Hl)]. exists p, np. split; [exact El | ].
    split; [exact Eg | ]. destruct (nTrait np); [discriminate Ep | reflexivity | discriminate Ep].
Qed.
Lemma ignore_none : forall ds ls r, ignoreLoop ds None ls = Some r ->
  exists b a, ls = b ++ r :: a /\ lLoad r = None /\ forall l, In l (b ++ a) -> via ds l.
Proof.
  intros ds. induction ls as [ | l ls IH]; intros r H; cbn [ignoreLoop] in H; [discriminate H | ].
  destruct (lLoad l) as [p | ] eqn:El.
  - destruct (get ds p) as [np | ] eqn:Eg; [ | discriminate H].
    destruct (isPrivate (nTrait np)) eqn:Ep; [ | discriminate H]. destruct (IH r H) as [b [a [-> [I1 I2]]]].
    exists (l :: b), a. split; [reflexivity | ]. split; [exact I1 | ]. intros l' [<- | Hl]; [ | exact (I2 l' Hl)].
    exists p, np. split; [exact El | ]. split; [exact Eg | ].
    destruct (nTrait np); [discriminate Ep | reflexivity | discriminate Ep].
  - destruct (ignore_some ds ls l r H) as [-> I2]. exists [], ls. split; [reflexivity | ]. split; [exact El | exact I2].
Qed.

(** Private nodes stay private. *)
Lemma private_step : forall ds j p np, get ds p = Some np -> nTrait np = TPrivate ->
  get (sanitizeAt ds j) p = Some np.
Proof.
  intros ds j p np G T. rewrite get_at. destruct (p =? j); [ | exact G]. rewrite G. cbn [option_map].
  unfold sanitizeNode. rewrite T. cbn [hasDep]. destruct (_ && _); reflexivity.
Qed.
Lemma private_stays : forall o ds p np, get ds p = Some np -> nTrait np = TPrivate ->
  get (sanitize o ds) p = Some np.
Proof.
  unfold sanitize. induction o as [ | j o IH]; intros ds p np G T; [exact G | ]. cbn [fold_left].
  apply IH; [apply private_step; assumption | exact T].
Qed.

Lemma change_reason : forall ds n, nTrait (sanitizeNode ds n) = nTrait n
  \/ exists main b a, nLocs n = b ++ main :: a /\ lLoad main = None
     /\ (forall l, In l (b ++ a) -> via ds l) /\ replaced main (nTrait (sanitizeNode ds n)).
Proof.
  intros ds n. unfold sanitizeNode. destruct (_ && _); [left; reflexivity | ].
  destruct (hasDep (nTrait n)) eqn:D; [ | left; reflexivity]. cbn [nTrait].
  destruct (mayIgnoreDereference ds n) as [r | ] eqn:E; [ | left; reflexivity].
  unfold mayIgnoreDereference in E. destruct (ignore_none ds _ r E) as [b [a [H1 [H2 H3]]]].
  apply hasDep_dep in D. destruct (set_replaced r (nTrait n) D) as [P | P].
  - right. exists r, b, a. split; [exact H1 | ]. split; [exact H2 | ]. split; [exact H3 | exact P].
  - left. rewrite P. cbn. destruct D as [f [g [o [-> _]]]]. reflexivity.
Qed.

Lemma reason_true : C92_reason_claim.
Proof.
  intros o ds n n' V R. destruct (result_step o ds n n' V R) as [o1 [o2 [Eo [_ ->]]]].
  destruct (change_reason (sanitize o1 ds) n) as [H | [main [b [a [H1 [H2 [H3 H4]]]]]]]; [left; exact H | ].
  right. exists main. split; [ | exact H4]. exists b, a. split; [exact H1 | ]. split; [exact H2 | ].
  intros l Hl. destruct (H3 l Hl) as [p [np [L [G T]]]]. exists p, np. split; [exact L | ].
  assert (G' : get (sanitize o ds) p = Some np).
  { rewrite Eo. unfold sanitize. rewrite fold_left_app. apply (private_stays (nId n :: o2)); assumption. }
  destruct (get_id _ _ _ G') as [E I]. split; [exact I | ]. split; [exact E | exact T].
Qed.

(** * Pointers which are not changed *)
Lemma nodep_step : forall ds n, ~ dep (nTrait n) -> sanitizeNode ds n = n.
Proof.
  intros ds n H. unfold sanitizeNode. destruct (_ && _); [reflexivity | ].
  destruct (hasDep (nTrait n)) eqn:E; [ | reflexivity]. contradiction H. apply hasDep_dep. exact E.
Qed.
Lemma nodep_stays : forall o ds p, (forall np, get ds p = Some np -> ~ dep (nTrait np)) ->
  get (sanitize o ds) p = get ds p.
Proof.
  unfold sanitize. induction o as [ | j o IH]; intros ds p H; [reflexivity | ]. cbn [fold_left].
  assert (E : get (sanitizeAt ds j) p = get ds p).
  { rewrite get_at. destruct (p =? j); [ | reflexivity]. destruct (get ds p) as [np | ]; [ | reflexivity].
    cbn [option_map]. rewrite nodep_step; [reflexivity | ]. apply H. reflexivity. }
  rewrite IH; [exact E | ]. rewrite E. exact H.
Qed.
Lemma ignore_ext : forall ds1 ds2 ls m, (forall l p, In l ls -> lLoad l = Some p -> get ds1 p = get ds2 p) ->
  ignoreLoop ds1 m ls = ignoreLoop ds2 m ls.
Proof.
  intros ds1 ds2. induction ls as [ | l ls IH]; intros m H; [reflexivity | ]. cbn [ignoreLoop].
  destruct (lLoad l) as [p | ] eqn:E.
  - rewrite (H l p (or_introl eq_refl) E). destruct (get ds2 p) as [np | ]; [ | reflexivity].
    destruct (isPrivate (nTrait np)); [ | reflexivity]. apply IH. intros l' p' Hl. apply H. right. exact Hl.
  - destruct m; [reflexivity | ]. apply IH. intros l' p' Hl. apply H. right. exact Hl.
Qed.
Lemma plain_step : forall o ds n, plain_pointers ds -> In n ds -> sanitizeNode (sanitize o ds) n = sanitizeNode ds n.
Proof.
  intros o ds n H Hn. unfold sanitizeNode. unfold mayIgnoreDereference.
  rewrite (ignore_ext (sanitize o ds) ds); [reflexivity | ]. intros l p Hl L.
  apply nodep_stays. intros np G. destruct (get_id _ _ _ G) as [E I]. exact (H n l p np Hn Hl L I E).
Qed.

Lemma original_true : C92_original_claim true.
Proof.
  intros o ds n n' V R H. specialize (H eq_refl). destruct (result_step o ds n n' V R) as [o1 [o2 [_ [_ ->]]]].
  rewrite plain_step; [ | exact H | apply R].
  destruct (change_reason ds n) as [E | [main [b [a [H1 [H2 [H3 H4]]]]]]]; [left; exact E | ].
  right. exists main. split; [ | exact H4]. exists b, a. split; [exact H1 | ]. split; [exact H2 | ].
  intros l Hl. destruct (H3 l Hl) as [p [np [L [G T]]]]. exists p, np. split; [exact L | ].
  destruct (get_id _ _ _ G) as [E I]. split; [exact I | ]. split; [exact E | exact T].
Qed.

Lemma list_by_get : forall a b, map nId a = map nId b -> NoDup (map nId a) ->
  (forall i, In i (map nId a) -> get a i = get b i) -> a = b.
Proof.
  induction a as [ | x a IH]; intros b E N G; destruct b as [ | y b]; try discriminate E; [reflexivity | ].
  cbn [map] in E. injection E as E1 E2. cbn [map] in N. inversion N; subst.
  assert (X : x = y).
  { pose proof (G (nId x) (or_introl eq_refl)) as Gx. unfold get in Gx. cbn [find] in Gx.
    rewrite <- E1, Nat.eqb_refl in Gx. injection Gx as Gx. exact Gx. }
  subst y. f_equal. apply IH; [exact E2 | assumption | ]. intros i Hi.
  pose proof (G i (or_intror Hi)) as Gi. unfold get in Gi. cbn [find] in Gi.
  destruct (Nat.eqb_spec (nId x) i) as [Ex | _]; [subst i; contradiction | exact Gi].
Qed.

Lemma plain_result : forall o ds, visits o ds -> plain_pointers ds -> sanitize o ds = map (sanitizeNode ds) ds.
Proof.
  intros o ds V H. destruct V as [N P]. apply list_by_get.
  - rewrite id_sanitize, map_map. apply map_ext. intros n. symmetry. apply id_sanitizeNode.
  - rewrite id_sanitize. exact N.
  - intros i Hi. rewrite id_sanitize in Hi. apply in_map_iff in Hi. destruct Hi as [n [<- Hn]].
    rewrite find_map by apply id_sanitizeNode. rewrite (get_in ds n N Hn). cbn [option_map].
    assert (Hin : In (nId n) o).
    { apply Permutation_in with (l := map nId ds); [apply Permutation_sym; exact P | apply in_map; exact Hn]. }
    apply in_split in Hin. destruct Hin as [o1 [o2 ->]].
    assert (No : NoDup (o1 ++ nId n :: o2)).
    { apply Permutation_NoDup with (l := map nId ds); [apply Permutation_sym; exact P | exact N]. }
    pose proof (NoDup_remove_2 _ _ _ No) as R.
    rewrite get_once; [ | intros X; apply R; apply in_or_app; left; exact X | intros X; apply R; apply in_or_app; right; exact X].
    rewrite (get_in ds n N Hn). cbn [option_map]. rewrite plain_step by assumption. reflexivity.
Qed.
Lemma order_true : C92_order_claim true.
Proof.
  intros o1 o2 ds V1 V2 H. specialize (H eq_refl). rewrite (plain_result o1 ds V1 H), (plain_result o2 ds V2 H). reflexivity.
Qed.

Lemma ignore_missing : forall ds ls m l p, In l ls -> lLoad l = Some p -> get ds p = None -> ignoreLoop ds m ls = None.
Proof.
  intros ds. induction ls as [ | x ls IH]; intros m l p H L G; [destruct H | ]. cbn [ignoreLoop]. destruct H as [-> | H].
  - rewrite L, G. reflexivity.
  - destruct (lLoad x) as [q | ].
    + destruct (get ds q) as [nq | ]; [ | reflexivity]. destruct (isPrivate (nTrait nq)); [ | reflexivity].
      exact (IH m l p H L G).
    + destruct m; [reflexivity | ]. exact (IH _ l p H L G).
Qed.
Lemma get_none : forall ds p, (forall np, In np ds -> nId np <> p) -> get ds p = None.
Proof.
  intros ds p H. destruct (get ds p) as [np | ] eqn:E; [ | reflexivity]. destruct (get_id _ _ _ E) as [E1 E2].
  contradiction (H np E2).
Qed.
Lemma unknown_true : C92_unknown_claim true.
Proof.
  intros o ds n n' u V R D Hu Du H. specialize (H eq_refl).
  destruct (result_step o ds n n' V R) as [o1 [o2 [_ [_ ->]]]]. unfold sanitizeNode.
  destruct (_ && _); [exact D | ]. pose proof D as D'. apply hasDep_dep in D'. rewrite D'. cbn [nTrait].
  assert (E : mayIgnoreDereference (sanitize o1 ds) n = None).
  { unfold mayIgnoreDereference. destruct H as [-> | [l [p [Hl [L Hp]]]]]; [reflexivity | ].
    apply (ignore_missing _ _ _ l p Hl L). apply get_none. intros np Hin E.
    assert (I : In p (map nId (sanitize o1 ds))) by (rewrite <- E; apply in_map; exact Hin).
    rewrite id_sanitize in I. apply in_map_iff in I. destruct I as [nq [E1 E2]]. exact (Hp nq E2 E1). }
  rewrite E. exact D.
Qed.

(** * A dependence which may be dropped *)
Lemma loop_main : forall ds a m, (forall l, In l a -> via ds l) -> ignoreLoop ds (Some m) a = Some m.
Proof.
  intros ds. induction a as [ | l a IH]; intros m H; [reflexivity | ]. cbn [ignoreLoop].
  destruct (H l (or_introl eq_refl)) as [p [np [L [G T]]]]. rewrite L, G, T. cbn [isPrivate].
  apply IH. intros l' Hl. apply H. right. exact Hl.
Qed.
Lemma loop_found : forall ds b main a, lLoad main = None -> (forall l, In l (b ++ a) -> via ds l) ->
  ignoreLoop ds None (b ++ main :: a) = Some main.
Proof.
  intros ds. induction b as [ | l b IH]; intros main a L H; cbn [app ignoreLoop].
  - rewrite L. apply loop_main. exact H.
  - destruct (H l (or_introl eq_refl)) as [p [np [Lp [G T]]]]. rewrite Lp, G, T. cbn [isPrivate].
    apply IH; [exact L | ]. intros l' Hl. apply H. right. exact Hl.
Qed.
Lemma drop_true : C92_drop_claim.
Proof.
  intros o ds n n' main V R D A W [b [a [E [L J]]]]. destruct (result_step o ds n n' V R) as [o1 [o2 [_ [_ ->]]]].
  assert (F : mayIgnoreDereference (sanitize o1 ds) n = Some main).
  { unfold mayIgnoreDereference. rewrite E. apply loop_found; [exact L | ]. intros l Hl.
    destruct (J l Hl) as [p [np [Lp [Hin [Hid T]]]]]. exists p, np. split; [exact Lp | ]. split; [ | exact T].
    apply private_stays; [ | exact T]. rewrite <- Hid. apply get_in; [apply V | exact Hin]. }
  unfold sanitizeNode. destruct (_ && _) eqn:Ea; [contradiction A; apply alone_test; exact Ea | ].
  pose proof D as D1. apply hasDep_dep in D1. rewrite D1, F. cbn [nTrait].
  destruct (set_replaced main (nTrait n) D) as [P | P]; [exact P | contradiction (W P)].
Qed.
