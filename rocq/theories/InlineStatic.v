(** Static lemmas about the transformation of programs (C72). *)
From Coq Require Import List Bool Arith ZArith Lia.
From Verif Require Import InlineModel InlineSpec InlineSem InlineRen.
Import ListNotations.

Section T.
Variable H : nat -> expr -> expr -> nat -> option (list stmt * option expr * nat).
Variable M : mode.
Lemma tS_block last b l k : tS H M last (SBlock b l) k = let '(b1, k1) := tL H M false b k in ([SBlock b1 l], k1).
Proof.
  cbn [tS]. match goal with |- (let '(_, _) := ?x b k in _) = _ => assert (E : forall k, x b k = tL H M false b k) end; [|now rewrite E].
  clear. induction b as [|s b IH]; intro k; [reflexivity|]. cbn [tL andb]. destruct (tS H M false s k) as [t k1]. now rewrite IH.
Qed.
Lemma tL_one s k : tL H M false [s] k = let '(t, k1) := tS H M false s k in (t ++ [], k1).
Proof. cbn [tL andb]. destruct (tS H M false s k) as [t k1]. reflexivity. Qed.

(** Counters of names grow *)
Hypothesis HM : forall f a b k p r k1, H f a b k = Some (p, r, k1) -> k <= k1.
Lemma hoist_mono e : forall dis k p e1 k1 v, hoist H dis e k = (p, e1, k1, v) -> k <= k1.
Proof.
  induction e as [z|y|w o a IHa b IHb|s a IHa b IHb|c IHc a IHa b IHb|y a IHa|m f a IHa b IHb]; intros dis k p e1 k1 v E; cbn [hoist] in E.
  - injection E as <- <- <- <-. lia.
  - injection E as <- <- <- <-. lia.
  - destruct (hoist H dis a k) as [[[p1 a1] k2] v1] eqn:E1. destruct (hoist H (dis || w) b k2) as [[[p2 b1] k3] v2] eqn:E2. injection E as <- <- <- <-.
    apply IHa in E1. apply IHb in E2. lia.
  - destruct (hoist H (dis || isComma s) a k) as [[[p1 a1] k2] v1] eqn:E1. destruct (hoist H (dis || negb (isComma s)) b k2) as [[[p2 b1] k3] v2] eqn:E2. injection E as <- <- <- <-.
    apply IHa in E1. apply IHb in E2. lia.
  - destruct (hoist H true c k) as [[[p1 c1] k2] v1] eqn:E1. destruct (hoist H true a k2) as [[[p2 a1] k3] v2] eqn:E2. destruct (hoist H true b k3) as [[[p3 b1] k4] v3] eqn:E3.
    injection E as <- <- <- <-. apply IHc in E1. apply IHa in E2. apply IHb in E3. lia.
  - destruct (hoist H dis a k) as [[[p1 a1] k2] v1] eqn:E1. injection E as <- <- <- <-. exact (IHa _ _ _ _ _ _ E1).
  - destruct (hoist H dis a k) as [[[p1 a1] k2] v1] eqn:E1. destruct (hoist H dis b k2) as [[[p2 b1] k3] v2] eqn:E2. apply IHa in E1. apply IHb in E2.
    destruct (m && negb dis); [|injection E as <- <- <- <-; lia]. destruct (H f a1 b1 k3) as [[[p3 [r|]] k4]|] eqn:E3.
    + apply HM in E3. injection E as <- <- <- <-. lia.
    + apply HM in E3. injection E as <- <- <- <-. lia.
    + injection E as <- <- <- <-. lia.
Qed.
Lemma hoistDs_mono ds : forall k p ds1 k1 v, hoistDs H ds k = (p, ds1, k1, v) -> k <= k1.
Proof.
  induction ds as [|[x [e|]] ds IH]; intros k p ds1 k1 v E; cbn [hoistDs] in E.
  - injection E as <- <- <- <-. lia.
  - destruct (hoist H false e k) as [[[p1 e1] k2] v1] eqn:E1. destruct (hoistDs H ds k2) as [[[p2 ds2] k3] v2] eqn:E2. injection E as <- <- <- <-.
    apply hoist_mono in E1. apply IH in E2. lia.
  - destruct (hoistDs H ds k) as [[[p2 ds2] k3] v2] eqn:E2. injection E as <- <- <- <-. exact (IH _ _ _ _ _ E2).
Qed.
Lemma tL_mono1 b : Forall (fun s => forall last k t k1, tS H M last s k = (t, k1) -> k <= k1) b -> forall last k t k1, tL H M last b k = (t, k1) -> k <= k1.
Proof.
  induction 1 as [|s b HS _ IH]; intros last k t k1 E; cbn [tL] in E; [injection E as <- <-; lia|].
  destruct (tS H M (last && isNil b) s k) as [t1 k2] eqn:E1. destruct (tL H M last b k2) as [t2 k3] eqn:E2. injection E as <- <-.
  apply HS in E1. apply IH in E2. lia.
Qed.
Lemma tS_mono s : forall last k t k1, tS H M last s k = (t, k1) -> k <= k1.
Proof.
  induction s as [e|ds|e s1 s2 I1 I2|c i s IH|init c i s I1 IH|b l IH|o|l] using stmt_ind2; intros last k t k1 E.
  - cbn [tS] in E. destruct (hoist H false e k) as [[[p e1] k2] v] eqn:E1. injection E as <- <-. exact (hoist_mono _ _ _ _ _ _ _ E1).
  - cbn [tS] in E. destruct (hoistDs H ds k) as [[[p e1] k2] v] eqn:E1. injection E as <- <-. exact (hoistDs_mono _ _ _ _ _ _ E1).
  - cbn [tS] in E. destruct (hoist H false e k) as [[[p e1] k2] v] eqn:E1. destruct (tS H M false s1 k2) as [t1 k3] eqn:E2. destruct (tS H M false s2 k3) as [t2 k4] eqn:E3.
    injection E as <- <-. apply hoist_mono in E1. apply I1 in E2. apply I2 in E3. lia.
  - cbn [tS] in E. destruct (tS H M false s k) as [t1 k3] eqn:E2. injection E as <- <-. exact (IH _ _ _ _ E2).
  - destruct init; cbn [tS] in E; try (injection E as <- <-; lia).
    + destruct (hoist H false e k) as [[[p e1] k2] v] eqn:E1. destruct (tS H M false s k2) as [t1 k3] eqn:E2. injection E as <- <-. apply hoist_mono in E1. apply IH in E2. lia.
    + destruct (hoistDs H ds k) as [[[p e1] k2] v] eqn:E1. destruct (tS H M false s k2) as [t1 k3] eqn:E2. injection E as <- <-. apply hoistDs_mono in E1. apply IH in E2. lia.
  - rewrite tS_block in E. destruct (tL H M false b k) as [t1 k3] eqn:E2. injection E as <- <-. exact (tL_mono1 b IH _ _ _ _ E2).
  - destruct o as [e|]; cbn [tS] in E; [|injection E as <- <-; lia]. destruct (hoist H false e k) as [[[p e1] k2] v] eqn:E1. injection E as <- <-. exact (hoist_mono _ _ _ _ _ _ _ E1).
  - cbn [tS] in E. injection E as <- <-. lia.
Qed.
Lemma tL_mono b last k t k1 : tL H M last b k = (t, k1) -> k <= k1.
Proof. apply tL_mono1. apply Forall_forall. intros s _. apply tS_mono. Qed.
End T.

Lemma below_in (n : nat) xs : below n xs = true <-> forall x, In x xs -> x < n.
Proof. unfold below. rewrite forallb_forall. split; intros E x X; apply Nat.ltb_lt; now apply E. Qed.
Section P.
Variable fn : nat -> option func.
Variable enabled : nat -> bool.
Definition handler (depth : nat) (stack : list nat) : nat -> expr -> expr -> nat -> option (list stmt * option expr * nat) :=
  match depth with 0 => fun _ _ _ _ => None | S d => compile fn enabled (inline fn enabled d) stack end.
Lemma inline_eq depth M stack b k : inline fn enabled depth M stack b k = tL (handler depth stack) M true b k.
Proof. destruct depth; reflexivity. Qed.
(** A call which is expanded *)
Lemma handler_inv depth stack f a b k p r k1 : handler depth stack f a b k = Some (p, r, k1) ->
  exists d G t, depth = S d /\ fn f = Some G /\ enabled f = true /\ check fn stack G = true /\
    tL (handler d (f :: stack)) (MCallee k (S k)) true (map (renS (parName G (S (S k)) (S (S (S k))))) (fBody G)) (S (S (S (S k)))) = (t, k1) /\
    p = (if fVoid G then [] else [SDecl [(k, None)]]) ++ [SBlock (SDecl [(S (S k), Some a)] :: SDecl [(S (S (S k)), Some b)] :: t) (Some (S k))] /\
    r = if fVoid G then None else Some (EVar k).
Proof.
  destruct depth as [|d]; [discriminate|]. cbn [handler]. unfold compile. destruct (fn f) as [G|] eqn:FG; [|discriminate].
  destruct (enabled f && check fn stack G) eqn:EN; [|discriminate]. apply andb_true_iff in EN. destruct EN as (EN & CH). rewrite inline_eq.
  destruct (tL _ _ _ _ _) as [t k2] eqn:ET. intro E. injection E as <- <- <-. exists d, G, t. now repeat split.
Qed.
Lemma handler_mono depth : forall stack f a b k p r k1, handler depth stack f a b k = Some (p, r, k1) -> k <= k1.
Proof.
  induction depth as [|d IH]; intros stack f a b k p r k1 E; [discriminate|]. apply handler_inv in E. destruct E as (d1 & G & t & ED & _ & _ & _ & ET & _ & _).
  injection ED as <-. apply (tL_mono (handler d (f :: stack)) (MCallee k (S k))) in ET; [lia|]. intros. eapply IH. eassumption.
Qed.
(** Nothing is changed in an expression without calls which may be expanded *)
Lemma handler_mark depth stack m f a b k : mayInline fn enabled m f = false -> (if m then handler depth stack f a b k else None) = None.
Proof.
  unfold mayInline. destruct m; [|reflexivity]. destruct depth as [|d]; [reflexivity|]. cbn [handler andb]. unfold compile. destruct (fn f) as [G|]; [|reflexivity].
  rewrite andb_true_r. intros ->. reflexivity.
Qed.
Lemma hoist_id depth stack e : forall dis k, dis = true \/ marked fn enabled e = false -> hoist (handler depth stack) dis e k = ([], e, k, false).
Proof.
  assert (D : forall dis x e, dis = true \/ marked fn enabled e = false -> dis || x = true \/ marked fn enabled e = false) by (intros dis x e0 [->|?]; tauto).
  induction e as [z|y|w o a IHa b IHb|s a IHa b IHb|c IHc a IHa b IHb|y a IHa|m f a IHa b IHb]; intros dis k E; cbn [hoist marked] in *; try reflexivity.
  - rewrite orb_false_iff in E. rewrite IHa by tauto. rewrite IHb by (apply D; tauto). reflexivity.
  - rewrite orb_false_iff in E. rewrite IHa by (apply D; tauto). rewrite IHb by (apply D; tauto). reflexivity.
  - rewrite IHc, IHa, IHb by tauto. reflexivity.
  - rewrite IHa by exact E. reflexivity.
  - rewrite !orb_false_iff in E. rewrite IHa by tauto. rewrite IHb by tauto. destruct E as [->|((E & _) & _)].
    + rewrite andb_false_r. reflexivity.
    + apply (handler_mark depth stack m f a b k) in E. destruct m; [|reflexivity]. destruct dis; [reflexivity|]. cbn [andb negb]. now rewrite E.
Qed.
Definition unmarkedDs (ds : list (nat * option expr)) : bool := forallb (fun d => match snd d with Some e => negb (marked fn enabled e) | None => true end) ds.
Lemma hoistDs_id depth stack ds k : unmarkedDs ds = true -> hoistDs (handler depth stack) ds k = ([], ds, k, false).
Proof.
  induction ds as [|[x [e|]] ds IH]; intro U; cbn [hoistDs]; [reflexivity| |]; cbn [unmarkedDs forallb snd] in U; apply andb_true_iff in U; destruct U as (U & UD).
  - apply negb_true_iff in U. rewrite hoist_id by now right. now rewrite IH.
  - now rewrite IH.
Qed.
(** A statement is not removed without calls of void functions *)
Lemma hoist_novoid depth stack e : noVoid fn e = true -> forall dis k p e1 k1 v, hoist (handler depth stack) dis e k = (p, e1, k1, v) -> v = false.
Proof.
  induction e as [z|y|w o a IHa b IHb|s a IHa b IHb|c IHc a IHa b IHb|y a IHa|m f a IHa b IHb]; intros NV dis k p e1 k1 v E; cbn [hoist noVoid] in *.
  - now injection E as <- <- <- <-.
  - now injection E as <- <- <- <-.
  - apply andb_true_iff in NV. destruct (hoist _ dis a k) as [[[p1 a1] k2] v1] eqn:E1. destruct (hoist _ (dis || w) b k2) as [[[p2 b1] k3] v2] eqn:E2. injection E as <- <- <- <-.
    apply IHa in E1; [|tauto]. apply IHb in E2; [|tauto]. now subst.
  - apply andb_true_iff in NV. destruct (hoist _ (dis || isComma s) a k) as [[[p1 a1] k2] v1] eqn:E1. destruct (hoist _ (dis || negb (isComma s)) b k2) as [[[p2 b1] k3] v2] eqn:E2.
    injection E as <- <- <- <-. apply IHa in E1; [|tauto]. apply IHb in E2; [|tauto]. now subst.
  - rewrite !andb_true_iff in NV. destruct (hoist _ true c k) as [[[p1 c1] k2] v1] eqn:E1. destruct (hoist _ true a k2) as [[[p2 a1] k3] v2] eqn:E2.
    destruct (hoist _ true b k3) as [[[p3 b1] k4] v3] eqn:E3. injection E as <- <- <- <-. apply IHc in E1; [|tauto]. apply IHa in E2; [|tauto]. apply IHb in E3; [|tauto]. now subst.
  - destruct (hoist _ dis a k) as [[[p1 a1] k2] v1] eqn:E1. injection E as <- <- <- <-. exact (IHa NV _ _ _ _ _ _ E1).
  - rewrite !andb_true_iff in NV. destruct (hoist _ dis a k) as [[[p1 a1] k2] v1] eqn:E1. destruct (hoist _ dis b k2) as [[[p2 b1] k3] v2] eqn:E2.
    apply IHa in E1; [|tauto]. apply IHb in E2; [|tauto]. subst. destruct (m && negb dis); [|now injection E as <- <- <- <-].
    destruct (handler depth stack f a1 b1 k3) as [[[p3 [r|]] k4]|] eqn:E3; [now injection E as <- <- <- <-| |now injection E as <- <- <- <-].
    exfalso. apply handler_inv in E3. destruct E3 as (d & G & t & _ & FG & _ & _ & _ & _ & ER). destruct (fVoid G) eqn:VG; [|discriminate].
    destruct NV as ((NV & _) & _). unfold isVoid in NV. rewrite FG, VG in NV. discriminate.
Qed.

(** ** Renaming keeps conditions *)
Variable r : nat -> nat.
Variables N K : nat.
Hypothesis RK : forall x, x < N -> r x < K.
Hypothesis NK : N <= K.
Lemma ren_marked e : marked fn enabled (renE r e) = marked fn enabled e.
Proof. induction e; cbn [renE marked]; congruence. Qed.
Lemma ren_commaOk e : commaOk fn enabled (renE r e) = commaOk fn enabled e.
Proof. induction e; cbn [renE commaOk]; rewrite ?ren_marked; congruence. Qed.
Lemma ren_noVoid e : noVoid fn (renE r e) = noVoid fn e.
Proof. induction e; cbn [renE noVoid]; congruence. Qed.
Lemma ren_wholeVoid e : wholeVoid fn (renE r e) = wholeVoid fn e.
Proof. destruct e; cbn [renE wholeVoid noVoid]; rewrite ?ren_noVoid; reflexivity. Qed.
Variable X : conds.
Lemma ren_okE e : okE X fn enabled N e = true -> okE X fn enabled K (renE r e) = true.
Proof.
  unfold okE. rewrite !andb_true_iff, ren_commaOk, !below_in. intros (B & C). split; [|exact C]. intros x Y. apply renE_free in Y. destruct Y as (y & Y & ->). apply RK. now apply B.
Qed.
Lemma ren_okV e : okV X fn enabled N e = true -> okV X fn enabled K (renE r e) = true.
Proof. unfold okV. rewrite !andb_true_iff, ren_noVoid. intros (B & C). split; [now apply ren_okE|exact C]. Qed.
Lemma ren_okDs ds : okDs X fn enabled N ds = true -> okDs X fn enabled K (map (renD r) ds) = true.
Proof.
  unfold okDs. rewrite !andb_true_iff. intros (B & C). split.
  - rewrite forallb_forall in *. intros d D. apply in_map_iff in D. destruct D as ([x o] & <- & D). specialize (B _ D). cbn [renD fst snd] in *.
    apply andb_true_iff in B. destruct B as (B & O). apply andb_true_iff. apply Nat.ltb_lt in B. split; [apply Nat.ltb_lt; lia|]. destruct o as [e|]; [|reflexivity]. cbn [option_map]. now apply ren_okV.
  - rewrite map_length. rewrite orb_true_iff in *. destruct C as [C|C]; [now left|right]. rewrite forallb_forall in *. intros d D. apply in_map_iff in D. destruct D as ([x o] & <- & D).
    specialize (C _ D). cbn [renD fst snd] in *. destruct o as [e|]; [|reflexivity]. cbn [option_map]. now rewrite ren_marked.
Qed.
Lemma ren_okS void s : okS X fn enabled N void s = true -> okS X fn enabled K void (renS r s) = true.
Proof.
  induction s as [e|ds|e s1 s2 I1 I2|c i s IH|init c i s I1 IH|b l IH|o|l] using stmt_ind2; cbn [okS renS]; rewrite ?andb_true_iff, ?ren_wholeVoid; intro O.
  - split; [now apply ren_okE|tauto].
  - now apply ren_okDs.
  - destruct O as ((O1 & O2) & O3). repeat split; [now apply ren_okV|now apply I1|now apply I2].
  - destruct O as ((O1 & O2) & O3). repeat split; [now apply ren_okE|now apply ren_okE|now apply IH].
  - destruct O as (((O1 & O2) & O3) & O4). repeat split; [|now apply ren_okE|now apply ren_okE|now apply IH]. destruct init; cbn [renS]; try discriminate; [now apply ren_okV|now apply ren_okDs].
  - destruct O as (O1 & O2). split; [exact O1|]. rewrite forallb_forall in *. rewrite Forall_forall in IH. intros s D. apply in_map_iff in D. destruct D as (s1 & <- & D). apply IH; [exact D|]. now apply O2.
  - destruct o as [e|]; cbn [option_map]; [|exact O]. rewrite andb_true_iff in *. split; [tauto|now apply ren_okV].
  - exact O.
Qed.
End P.

(** Names of correct programs *)
Section Names.
Variable fn : nat -> option func.
Variable enabled : nat -> bool.
Variable N : nat.
Variable X : conds.
Lemma okDs_names ds : okDs X fn enabled N ds = true -> (forall x, In x (freeDs ds) -> x < N) /\ (forall x, In x (map fst ds) -> x < N).
Proof.
  unfold okDs. rewrite andb_true_iff. intros (B & _). induction ds as [|[x o] ds IH]; [split; intros x []|]. cbn [forallb fst snd] in B. rewrite !andb_true_iff in B.
  destruct B as ((B & O) & BD). destruct (IH BD) as (I1 & I2). apply Nat.ltb_lt in B. split; intros y Y; cbn [freeDs map fst] in Y.
  - rewrite in_app_iff, remove_iff in Y. destruct Y as [Y|(Y & _)]; [|now apply I1]. destruct o as [e|]; [|destruct Y]. unfold okV, okE in O. rewrite !andb_true_iff, below_in in O. now apply O.
  - destruct Y as [<-|Y]; [exact B|now apply I2].
Qed.
Lemma okE_names e : okE X fn enabled N e = true -> forall x, In x (freeE e) -> x < N.
Proof. unfold okE. rewrite andb_true_iff, below_in. tauto. Qed.
Lemma okV_names e : okV X fn enabled N e = true -> forall x, In x (freeE e) -> x < N.
Proof. unfold okV. rewrite andb_true_iff. intros (O & _). now apply okE_names. Qed.
Lemma okS_names void s : okS X fn enabled N void s = true -> (forall x, In x (freeS s) -> x < N) /\ (forall x, In x (declaredS s) -> x < N).
Proof.
  induction s as [e|ds|e s1 s2 I1 I2|c i s IH|init c i s I1 IH|b l IH|o|l] using stmt_ind2; cbn [okS declaredS]; rewrite ?andb_true_iff; intro O.
  - cbn [freeS]. split; [now apply okE_names|intros x []].
  - cbn [freeS]. now apply okDs_names.
  - destruct O as ((O1 & O2) & O3). pose proof (okV_names _ O1) as F0. destruct (I1 O2) as (F1 & D1). destruct (I2 O3) as (F2 & D2). cbn [freeS]. split; intros x Y; rewrite !in_app_iff in Y; firstorder.
  - destruct O as ((O1 & O2) & O3). pose proof (okE_names _ O1) as F0. pose proof (okE_names _ O2) as F1. destruct (IH O3) as (F2 & D2). cbn [freeS]. split; [|exact D2]. intros x Y; rewrite !in_app_iff in Y; firstorder.
  - destruct O as (((O1 & O2) & O3) & O4). pose proof (okE_names _ O2) as F0. pose proof (okE_names _ O3) as F1. destruct (IH O4) as (F2 & D2).
    assert (FI : (forall x, In x (freeS init) -> x < N) /\ (forall x, In x (declaredS init) -> x < N)).
    { destruct init; try discriminate; cbn [freeS declaredS]; [split; [now apply okV_names|intros x []]|now apply okDs_names]. }
    destruct FI as (F3 & D3). cbn [freeS]. split; intros x Y; rewrite in_app_iff in Y; destruct Y as [Y|Y]; auto. apply remove_iff in Y. destruct Y as (Y & _). rewrite !in_app_iff in Y. firstorder.
  - destruct O as (_ & O). rewrite freeS_block. rewrite forallb_forall in O. induction IH as [|s b HS _ IHb]; [split; intros x []|]. cbn [freeL flat_map].
    destruct (HS (O s (or_introl eq_refl))) as (F1 & D1). destruct (IHb (fun x Y => O x (or_intror Y))) as (F2 & D2). split; intros x Y; rewrite in_app_iff in Y; destruct Y as [Y|Y]; auto.
    apply remove_iff in Y. now apply F2.
  - cbn [freeS]. split; [|intros x []]. destruct o as [e|]; [|intros x []]. rewrite andb_true_iff in O. destruct O as (_ & O). now apply okV_names.
  - discriminate.
Qed.
Lemma okL_names void b : forallb (okS X fn enabled N void) b = true -> (forall x, In x (freeL b) -> x < N) /\ (forall x, In x (flat_map declaredS b) -> x < N).
Proof.
  intro O. destruct (okS_names void (SBlock b None)) as (F & D); [cbn [okS andb]; exact O|]. rewrite freeS_block in F. now split.
Qed.
End Names.
