(** C47: parallel constructs which exist do not refer to destroyed ones. *)
From Coq Require Import Arith Bool List Lia.
From Verif Require Import ParItemModel ParItemSpec.
Import ListNotations.

Lemma has_In : forall l x, has l x = true <-> In x l.
Proof.
  intros l x. unfold has. rewrite existsb_exists. split.
  - intros (y & H & E). apply Nat.eqb_eq in E. congruence.
  - intros H. exists x. rewrite Nat.eqb_refl. auto.
Qed.
Lemma alive_has : forall s x, alive s x = has (live s) x.
Proof. reflexivity. Qed.

Fixpoint iter (n : nat) (x : nat) (l : list nat) : list nat :=
  match n with O => l | S n => iter n x (removeFirst x l) end.
Definition drop (x : nat) (l : list nat) : list nat := filter (fun y => negb (y =? x)) l.
Notation count := (count_occ Nat.eq_dec).
Lemma iter_nil : forall n x, iter n x [] = [].
Proof. induction n; cbn; auto. Qed.
Lemma iter_cons : forall n x y l, y <> x -> iter n x (y :: l) = y :: iter n x l.
Proof.
  induction n as [|n IH]; intros x y l H; cbn; [reflexivity|].
  apply Nat.eqb_neq in H. rewrite H. apply Nat.eqb_neq in H. apply IH. exact H.
Qed.
Lemma iter_drop : forall l x, iter (count l x) x l = drop x l.
Proof.
  induction l as [|y l IH]; intros x; cbn [count_occ drop filter]; [reflexivity|].
  destruct (Nat.eq_dec y x) as [->|H].
  - cbn [iter removeFirst]. rewrite Nat.eqb_refl. cbn. apply IH.
  - rewrite iter_cons by exact H. apply Nat.eqb_neq in H. rewrite H. cbn. f_equal. apply IH.
Qed.

Lemma leaveKids_ok : forall l s x, (forall c, In c l -> alive s c = true) ->
  exists s', leaveKids s x l = Some s' /\ live s' = live s /\ made s' = made s /\
    marker s' = marker s /\ level s' = level s /\ class s' = class s /\ kids s' = kids s /\
    forall c, parents s' c = iter (count l c) x (parents s c).
Proof.
  induction l as [|c l IH]; intros s x H; cbn [leaveKids].
  - exists s. repeat split; auto.
  - rewrite (H c) by (left; reflexivity).
    destruct (IH (setParents s c (removeFirst x (parents s c))) x) as (s' & E & H1 & H2 & H3 & H4 & H5 & H6 & H7).
    { intros d Hd. apply H. right; exact Hd. }
    exists s'. repeat split; auto. intros d. rewrite H7. cbn [count_occ parents setParents]. unfold upd.
    destruct (Nat.eq_dec c d) as [->|Hd].
    + rewrite Nat.eqb_refl. reflexivity.
    + destruct (Nat.eqb_spec d c); [congruence|reflexivity].
Qed.
Lemma leaveParents_ok : forall l s x,
  (forall p, In p l -> alive s p = true /\ level s p = true) ->
  exists s', leaveParents s x l = Some s' /\ live s' = live s /\ made s' = made s /\
    marker s' = marker s /\ level s' = level s /\ class s' = class s /\ parents s' = parents s /\
    forall p, kids s' p = iter (count l p) x (kids s p).
Proof.
  induction l as [|p l IH]; intros s x H; cbn [leaveParents].
  - exists s. repeat split; auto.
  - destruct (H p) as [Ha Hl]; [left; reflexivity|]. rewrite Ha, Hl.
    destruct (IH (setKids s p (removeFirst x (kids s p))) x) as (s' & E & H1 & H2 & H3 & H4 & H5 & H6 & H7).
    { intros d Hd. apply H. right; exact Hd. }
    exists s'. repeat split; auto. intros d. rewrite H7. cbn [count_occ kids setKids]. unfold upd.
    destruct (Nat.eq_dec p d) as [->|Hd].
    + rewrite Nat.eqb_refl. reflexivity.
    + destruct (Nat.eqb_spec d p); [congruence|reflexivity].
Qed.

(** The storage agrees with the expected world. *)
Record Agree (w : world) (s : state) : Prop := {
  agMade : forall x, In x (made s) <-> In x (used w);
  agLive : live s = exist w;
  agUsed : forall x, In x (exist w) -> In x (used w);
  agTags : forall x, In x (levels w) \/ In x (markers w) -> In x (used w);
  agLevel : forall x, In x (exist w) -> level s x = has (levels w) x;
  agMarker : forall x, In x (exist w) -> marker s x = has (markers w) x;
  agApart : forall x, In x (markers w) -> ~ In x (levels w);
  agEnds : forall p x, In (p, x) (nested w) ->
    In p (exist w) /\ In x (exist w) /\ In p (levels w) /\ ~ In x (markers w);
  agKids : forall p, In p (exist w) -> kids s p = inside w p;
  agParents : forall x, In x (exist w) -> ~ In x (markers w) -> parents s x = around w x
}.

Lemma filter_filter : forall A (f g : A -> bool) l,
  filter f (filter g l) = filter (fun x => f x && g x) l.
Proof.
  intros A f g l; induction l as [|x l IH]; cbn; [reflexivity|].
  destruct (g x); cbn; [|rewrite andb_false_r; exact IH].
  rewrite andb_true_r. destruct (f x); [f_equal|]; exact IH.
Qed.
Lemma count_links : forall (l : list (nat * nat)) p x,
  count (map snd (filter (fun l => fst l =? p) l)) x =
  count (map fst (filter (fun l => snd l =? x) l)) p.
Proof.
  induction l as [|[a b] l IH]; intros p x; cbn [filter fst snd]; [reflexivity|].
  destruct (Nat.eqb_spec a p) as [->|Ha]; destruct (Nat.eqb_spec b x) as [->|Hb]; cbn [map count_occ fst snd].
  - destruct (Nat.eq_dec x x); [|contradiction]. destruct (Nat.eq_dec p p); [|contradiction].
    f_equal. apply IH.
  - destruct (Nat.eq_dec b x); [contradiction|]. apply IH.
  - destruct (Nat.eq_dec a p); [contradiction|]. apply IH.
  - apply IH.
Qed.
Lemma drop_around : forall w c x, c <> x ->
  drop x (around w c) = around (next w (Delete x)) c.
Proof.
  intros w c x Hc. unfold around, next, drop. cbn.
  induction (nested w) as [|[a b] l IH]; cbn; [reflexivity|].
  destruct (Nat.eqb_spec b c) as [->|Hb]; cbn.
  - destruct (Nat.eqb_spec a x) as [->|Ha]; cbn; [exact IH|].
    destruct (Nat.eqb_spec c x) as [E|_]; [contradiction|]. cbn.
    rewrite Nat.eqb_refl. cbn. f_equal. exact IH.
  - destruct (negb (a =? x) && negb (b =? x)); cbn; [|exact IH].
    apply Nat.eqb_neq in Hb. rewrite Hb. exact IH.
Qed.
Lemma drop_inside : forall w p x, p <> x ->
  drop x (inside w p) = inside (next w (Delete x)) p.
Proof.
  intros w p x Hp. unfold inside, next, drop. cbn.
  induction (nested w) as [|[a b] l IH]; cbn; [reflexivity|].
  destruct (Nat.eqb_spec a p) as [->|Ha]; cbn.
  - destruct (Nat.eqb_spec p x) as [E|_]; [contradiction|]. cbn.
    destruct (Nat.eqb_spec b x) as [->|Hb]; cbn; [exact IH|].
    rewrite Nat.eqb_refl. cbn. f_equal. exact IH.
  - destruct (negb (a =? x) && negb (b =? x)); cbn; [|exact IH].
    apply Nat.eqb_neq in Ha. rewrite Ha. exact IH.
Qed.
Lemma in_inside : forall w p x, In x (inside w p) <-> In (p, x) (nested w).
Proof.
  intros w p x. unfold inside. rewrite in_map_iff. split.
  - intros ([a b] & <- & H). apply filter_In in H. destruct H as [H E].
    apply Nat.eqb_eq in E. cbn in *. subst a. exact H.
  - intros H. exists (p, x). split; [reflexivity|]. apply filter_In. split; [exact H|apply Nat.eqb_refl].
Qed.
Lemma in_around : forall w p x, In p (around w x) <-> In (p, x) (nested w).
Proof.
  intros w p x. unfold around. rewrite in_map_iff. split.
  - intros ([a b] & <- & H). apply filter_In in H. destruct H as [H E].
    apply Nat.eqb_eq in E. cbn in *. subst b. exact H.
  - intros H. exists (p, x). split; [reflexivity|]. apply filter_In. split; [exact H|apply Nat.eqb_refl].
Qed.

Lemma upd_other : forall A (f : nat -> A) x v y, y <> x -> upd f x v y = f y.
Proof. intros A f x v y H. unfold upd. apply Nat.eqb_neq in H. rewrite H. reflexivity. Qed.
Lemma upd_same : forall A (f : nat -> A) x v, upd f x v x = v.
Proof. intros A f x v. unfold upd. rewrite Nat.eqb_refl. reflexivity. Qed.
Lemma has_cons : forall x l y, y <> x -> has (x :: l) y = has l y.
Proof. intros x l y H. unfold has. cbn. apply Nat.eqb_neq in H. rewrite H. reflexivity. Qed.
Lemma not_has : forall l x, has l x = false <-> ~ In x l.
Proof. intros l x. rewrite <- has_In. destruct (has l x); intuition congruence. Qed.

Lemma step_agree : forall w s o, Agree w s -> allowed w o = true ->
  exists s', perform s o = Some s' /\ Agree (next w o) s'.
Proof.
  intros w s o [Am Al Au At Av Ak Aa Ae Ac Ap] H. destruct o as [x c lev|x b|p x|m p|x]; cbn in H.
  - (* a new construct *)
    apply negb_true_iff in H. apply not_has in H.
    cbn. unfold create.
    assert (Hf : existsb (Nat.eqb x) (made s) = false) by (apply not_has; rewrite Am; exact H).
    rewrite Hf. eexists. split; [reflexivity|].
    assert (Hx : ~ In x (exist w)) by (intros Hx; apply H; auto).
    assert (Hlv : ~ In x (levels w)) by (intros Hx'; apply H; auto).
    assert (Hmk : ~ In x (markers w)) by (intros Hx'; apply H; auto).
    assert (Hn : forall p y, In (p, y) (nested w) -> p <> x /\ y <> x).
    { intros p y Hp. destruct (Ae _ _ Hp) as (H1 & H2 & _). split; intros ->; contradiction. }
    constructor; cbn [next used exist levels markers nested made live level marker kids parents].
    + intros y. cbn. rewrite Am. tauto.
    + rewrite Al. reflexivity.
    + intros y [->|Hy]; [left; reflexivity|right; auto].
    + intros y Hy. destruct (Nat.eq_dec y x) as [->|Hyx]; [left; reflexivity|right; apply At].
      destruct Hy as [Hy|Hy]; [|right; exact Hy]. left. destruct lev; [|exact Hy].
      destruct Hy as [E|Hy]; [congruence|exact Hy].
    + intros y Hy. destruct (Nat.eq_dec y x) as [->|Hyx].
      * rewrite upd_same. destruct lev; symmetry; [apply has_In; left; reflexivity|].
        apply not_has. exact Hlv.
      * rewrite upd_other by exact Hyx. destruct Hy as [E|Hy]; [congruence|].
        rewrite (Av y Hy). destruct lev; [rewrite has_cons by exact Hyx|]; reflexivity.
    + intros y Hy. destruct (Nat.eq_dec y x) as [->|Hyx].
      * rewrite upd_same. symmetry. apply not_has. exact Hmk.
      * rewrite upd_other by exact Hyx. destruct Hy as [E|Hy]; [congruence|]. exact (Ak y Hy).
    + intros y Hy. destruct lev; [|apply Aa; exact Hy].
      intros [E|Hl]; [subst y; contradiction|]. exact (Aa y Hy Hl).
    + intros p y Hp. destruct (Ae _ _ Hp) as (H1 & H2 & H3 & H4).
      repeat split; [right; exact H1|right; exact H2|destruct lev; [right|]; exact H3|exact H4].
    + intros p Hp. destruct (Nat.eq_dec p x) as [->|Hpx].
      * rewrite upd_same. symmetry. destruct (inside _ x) as [|y l] eqn:E; [reflexivity|exfalso].
        assert (Hy : In (x, y) (nested w)) by (apply in_inside; change (inside w x) with (inside (next w (New x c lev)) x); cbn [next]; rewrite E; left; reflexivity).
        destruct (Hn _ _ Hy). contradiction.
      * rewrite upd_other by exact Hpx. destruct Hp as [E|Hp]; [congruence|]. exact (Ac p Hp).
    + intros y Hy Hny. destruct (Nat.eq_dec y x) as [->|Hpx].
      * rewrite upd_same. symmetry. destruct (around _ x) as [|p l] eqn:E; [reflexivity|exfalso].
        assert (Hp : In (p, x) (nested w)) by (apply in_around; change (around w x) with (around (next w (New x c lev)) x); cbn [next]; rewrite E; left; reflexivity).
        destruct (Hn _ _ Hp). contradiction.
      * rewrite upd_other by exact Hpx. destruct Hy as [E|Hy]; [congruence|]. exact (Ap y Hy Hny).
  - (* a new marker *)
    apply andb_true_iff in H. destruct H as [H _]. apply andb_true_iff in H. destruct H as [H _].
    apply negb_true_iff in H. apply not_has in H.
    cbn. unfold createMarker.
    assert (Hf : existsb (Nat.eqb x) (made s) = false) by (apply not_has; rewrite Am; exact H).
    rewrite Hf. eexists. split; [reflexivity|].
    assert (Hx : ~ In x (exist w)) by (intros Hx; apply H; auto).
    assert (Hlv : ~ In x (levels w)) by (intros Hx'; apply H; auto).
    assert (Hn : forall p y, In (p, y) (nested w) -> p <> x /\ y <> x).
    { intros p y Hp. destruct (Ae _ _ Hp) as (H1 & H2 & _). split; intros ->; contradiction. }
    constructor; cbn [next used exist levels markers nested made live level marker kids parents].
    + intros y. cbn. rewrite Am. tauto.
    + rewrite Al. reflexivity.
    + intros y [->|Hy]; [left; reflexivity|right; auto].
    + intros y [Hy|[<-|Hy]]; [right; auto|left; reflexivity|right; auto].
    + intros y Hy. destruct (Nat.eq_dec y x) as [->|Hyx].
      * rewrite upd_same. symmetry. apply not_has. exact Hlv.
      * rewrite upd_other by exact Hyx. destruct Hy as [E|Hy]; [congruence|]. exact (Av y Hy).
    + intros y Hy. destruct (Nat.eq_dec y x) as [->|Hyx].
      * rewrite upd_same. symmetry. apply has_In. left; reflexivity.
      * rewrite upd_other by exact Hyx. destruct Hy as [E|Hy]; [congruence|].
        rewrite has_cons by exact Hyx. exact (Ak y Hy).
    + intros y [<-|Hy]; [exact Hlv|apply Aa; exact Hy].
    + intros p y Hp. destruct (Ae _ _ Hp) as (H1 & H2 & H3 & H4). destruct (Hn _ _ Hp) as [N1 N2].
      repeat split; [right; exact H1|right; exact H2|exact H3|].
      intros [E|Hy]; [congruence|contradiction].
    + intros p Hp. destruct (Nat.eq_dec p x) as [->|Hpx].
      * rewrite upd_same. symmetry. destruct (inside _ x) as [|y l] eqn:E; [reflexivity|exfalso].
        assert (Hy : In (x, y) (nested w)) by (apply in_inside; change (inside w x) with (inside (next w (NewMarker x b)) x); cbn [next]; rewrite E; left; reflexivity).
        destruct (Hn _ _ Hy). contradiction.
      * rewrite upd_other by exact Hpx. destruct Hp as [E|Hp]; [congruence|]. exact (Ac p Hp).
    + intros y Hy Hny. destruct (Nat.eq_dec y x) as [->|Hpx].
      * exfalso. apply Hny. left; reflexivity.
      * rewrite upd_other by exact Hpx. destruct Hy as [E|Hy]; [congruence|].
        apply (Ap y Hy). intros Hm. apply Hny. right; exact Hm.
  - (* nesting *)
    rewrite !andb_true_iff, negb_true_iff in H. destruct H as [[[H1 H2] H3] H4].
    apply has_In in H1. apply has_In in H2. apply not_has in H4.
    cbn. unfold childInsert, parentInsert. rewrite !alive_has, Al.
    rewrite (proj2 (has_In _ _) H1), (proj2 (has_In _ _) H2), (Av p H1), H3, (Ak x H2).
    rewrite (proj2 (not_has _ _) H4). cbn [andb negb]. cbn [live setKids].
    rewrite !alive_has. cbn [live setKids]. rewrite Al, (proj2 (has_In _ _) H2).
    apply has_In in H3.
    eexists. split; [reflexivity|].
    constructor; cbn [next used exist levels markers nested made live level marker kids parents setKids setParents]; auto.
    + intros q y Hq. apply in_app_iff in Hq. destruct Hq as [Hq|[[= <- <-]|[]]]; auto.
    + intros q Hq. unfold inside. cbn. rewrite filter_app, map_app. cbn. unfold upd.
      destruct (Nat.eqb_spec q p) as [->|Hqp].
      * rewrite Nat.eqb_refl. cbn. rewrite (Ac p H1). reflexivity.
      * destruct (Nat.eqb_spec p q); [congruence|]. cbn. rewrite app_nil_r. exact (Ac q Hq).
    + intros y Hy Hny. unfold around. cbn. rewrite filter_app, map_app. cbn. unfold upd.
      destruct (Nat.eqb_spec y x) as [->|Hyx].
      * rewrite Nat.eqb_refl. cbn. rewrite (Ap x H2 H4). reflexivity.
      * destruct (Nat.eqb_spec x y); [congruence|]. cbn. rewrite app_nil_r. exact (Ap y Hy Hny).
  - (* one more construct of a marker *)
    rewrite !andb_true_iff in H. destruct H as [[H1 H2] H3].
    cbn. unfold parentInsert. rewrite alive_has, Al, H1.
    apply has_In in H1. apply has_In in H2.
    eexists. split; [reflexivity|].
    constructor; cbn [next made live level marker kids parents setParents]; auto.
    intros y Hy Hny. rewrite upd_other; [auto|]. intros ->. contradiction.
  - (* destruction *)
    cbn [perform]. unfold destroy. rewrite alive_has, Al, H. apply has_In in H.
    assert (HK : exists s1, (if level s x then leaveKids s x (kids s x) else Some s) = Some s1 /\
      live s1 = live s /\ made s1 = made s /\ marker s1 = marker s /\ level s1 = level s /\
      kids s1 = kids s /\
      forall c, parents s1 c = iter (count (kids s x) c) x (parents s c)).
    { destruct (level s x) eqn:El.
      - destruct (leaveKids_ok (kids s x) s x) as (s1 & E & G1 & G2 & G3 & G4 & _ & G6 & G7).
        + intros c Hc. rewrite alive_has, Al. apply has_In. rewrite (Ac x H) in Hc.
          apply in_inside in Hc. apply Ae in Hc. tauto.
        + exists s1. repeat split; auto.
      - exists s. repeat split; auto. intros c.
        assert (Hk : kids s x = []).
        { rewrite (Ac x H). destruct (inside w x) as [|y l] eqn:E; [reflexivity|exfalso].
          assert (Hy : In (x, y) (nested w)) by (apply in_inside; rewrite E; left; reflexivity).
          apply Ae in Hy. rewrite (Av x H) in El. apply not_has in El. tauto. }
        rewrite Hk. reflexivity. }
    destruct HK as (s1 & -> & L1 & M1 & K1 & V1 & C1 & P1).
    (* parents of constructs without x *)
    assert (HP : forall c, In c (exist w) -> ~ In c (markers w) -> parents s1 c = drop x (around w c)).
    { intros c Hc Hm. rewrite P1, (Ap c Hc Hm), (Ac x H). unfold inside, around.
      rewrite count_links. apply iter_drop. }
    assert (HQ : exists s2, (if marker s1 x then Some s1 else leaveParents s1 x (parents s1 x)) = Some s2 /\
      live s2 = live s /\ made s2 = made s /\ marker s2 = marker s /\ level s2 = level s /\
      parents s2 = parents s1 /\
      forall p, In p (exist w) -> p <> x -> kids s2 p = drop x (inside w p)).
    { rewrite K1, (Ak x H). destruct (has (markers w) x) eqn:Em.
      - exists s1. repeat split; auto. intros p Hp Hpx. rewrite C1, (Ac p Hp).
        assert (Hno : ~ In x (inside w p)).
        { intros Hi. apply in_inside in Hi. apply Ae in Hi. apply has_In in Em. tauto. }
        unfold drop. symmetry. clear - Hno. induction (inside w p) as [|y l IH]; cbn; [reflexivity|].
        destruct (Nat.eqb_spec y x) as [->|Hy]; [exfalso; apply Hno; left; reflexivity|].
        cbn. f_equal. apply IH. intros Hi. apply Hno. right; exact Hi.
      - apply not_has in Em.
        destruct (leaveParents_ok (parents s1 x) s1 x) as (s2 & E & G1 & G2 & G3 & G4 & _ & G6 & G7).
        + intros p Hp. rewrite (HP x H Em) in Hp. unfold drop in Hp. apply filter_In in Hp.
          destruct Hp as [Hp _]. apply in_around in Hp. destruct (Ae _ _ Hp) as (E1 & _ & E3 & _).
          rewrite alive_has, L1, Al, V1, (Av p E1). split; apply has_In; assumption.
        + exists s2. repeat split; try congruence. intros p Hp Hpx. rewrite G7, C1, (Ac p Hp).
          rewrite (HP x H Em).
          assert (Hcnt : count (drop x (around w x)) p = count (inside w p) x).
          { unfold inside. rewrite count_links. fold (around w x). unfold drop. clear - Hpx.
            induction (around w x) as [|y l IH]; cbn [filter count_occ]; [reflexivity|].
            destruct (Nat.eqb_spec y x) as [->|Hy]; cbn [negb count_occ].
            - destruct (Nat.eq_dec x p); [congruence|exact IH].
            - destruct (Nat.eq_dec y p); [f_equal|]; exact IH. }
          rewrite Hcnt. apply iter_drop. }
    destruct HQ as (s2 & -> & L2 & M2 & K2 & V2 & P2 & C2).
    eexists. split; [reflexivity|].
    assert (Hin : forall y, In y (filter (fun z => negb (z =? x)) (exist w)) <-> In y (exist w) /\ y <> x).
    { intros y. rewrite filter_In, negb_true_iff, Nat.eqb_neq. reflexivity. }
    constructor; cbn [used exist levels markers nested made live level marker kids parents].
    + intros y. rewrite M2. apply Am.
    + rewrite L2, Al. reflexivity.
    + intros y Hy. apply Hin in Hy. apply Au. tauto.
    + exact At.
    + intros y Hy. apply Hin in Hy. rewrite V2. apply Av. tauto.
    + intros y Hy. apply Hin in Hy. rewrite K2. apply Ak. tauto.
    + exact Aa.
    + intros p y Hp. apply filter_In in Hp. destruct Hp as [Hp E]. cbn in E.
      rewrite andb_true_iff, !negb_true_iff, !Nat.eqb_neq in E.
      destruct (Ae _ _ Hp) as (E1 & E2 & E3 & E4).
      cbn [next exist]. rewrite !Hin. tauto.
    + intros p Hp. apply Hin in Hp. destruct Hp as [Hp Hpx]. rewrite (C2 p Hp Hpx).
      apply drop_inside. exact Hpx.
    + intros y Hy Hny. apply Hin in Hy. destruct Hy as [Hy Hyx]. rewrite P2, (HP y Hy Hny).
      apply drop_around. exact Hyx.
Qed.

Lemma run_agree : forall h w s, Agree w s -> legal w h = true ->
  exists s', run s h = Some s' /\ Agree (fold_left next h w) s'.
Proof.
  induction h as [|o h IH]; intros w s Ha Hl; cbn in *; [eauto|].
  apply andb_true_iff in Hl. destruct Hl as [H1 H2].
  destruct (step_agree _ _ _ Ha H1) as (s1 & -> & Ha1). exact (IH _ _ Ha1 H2).
Qed.
Lemma agree_none : Agree nothing none.
Proof. constructor; cbn; try tauto; try reflexivity. Qed.

(** After every history of creation, nesting and destruction constructs which exist
    know exactly constructs which they are nested in and which are nested in them,
    all of these exist, and nothing destroyed is ever accessed. *)
Theorem C47_partial : forall h, legal nothing h = true ->
  exists s, run none h = Some s /\ live s = exist (after h) /\
  (forall p, In p (exist (after h)) -> kids s p = inside (after h) p /\
     forall x, In x (kids s p) -> In x (exist (after h))) /\
  (forall x, In x (exist (after h)) -> ~ In x (markers (after h)) ->
     parents s x = around (after h) x /\
     forall p, In p (parents s x) -> In p (exist (after h))).
Proof.
  intros h Hl. destruct (run_agree h _ _ agree_none Hl) as (s & Hs & [Am Al Au At Av Ak Aa Ae Ac Ap]).
  exists s. split; [exact Hs|]. fold (after h) in *. split; [exact Al|]. split.
  - intros p Hp. split; [exact (Ac p Hp)|]. intros x Hx. rewrite (Ac p Hp) in Hx.
    apply in_inside in Hx. apply Ae in Hx. tauto.
  - intros x Hx Hm. split; [exact (Ap x Hx Hm)|]. intros p Hp. rewrite (Ap x Hx Hm) in Hp.
    apply in_around in Hp. apply Ae in Hp. tauto.
Qed.

(* destructors do not change parents of markers *)
Lemma destroy_marker : forall w s x m s', Agree w s -> In m (exist w) -> In m (markers w) ->
  m <> x -> In x (exist w) -> destroy s x = Some s' -> parents s' m = parents s m.
Proof.
  intros w s x m s' [Am Al Au At Av Ak Aa Ae Ac Ap] Hm Hmm Hmx Hx. unfold destroy.
  rewrite alive_has, Al, (proj2 (has_In _ _) Hx).
  assert (Hk : ~ In m (kids s x)).
  { rewrite (Ac x Hx). intros Hi. apply in_inside in Hi. apply Ae in Hi. tauto. }
  assert (HK : forall l s1 s2, ~ In m l -> leaveKids s1 x l = Some s2 -> parents s2 m = parents s1 m).
  { induction l as [|c l IH]; cbn; intros s1 s2 Hn E; [injection E as <-; reflexivity|].
    destruct (alive s1 c); [|discriminate]. rewrite (IH _ _ (fun H => Hn (or_intror H)) E).
    cbn. apply upd_other. intros ->. apply Hn. left; reflexivity. }
  assert (HP : forall l s1 s2, leaveParents s1 x l = Some s2 -> parents s2 m = parents s1 m).
  { induction l as [|c l IH]; cbn; intros s1 s2 E; [injection E as <-; reflexivity|].
    destruct (alive s1 c); [|discriminate]. rewrite (IH _ _ E). destruct (level s1 c); reflexivity. }
  destruct (if level s x then leaveKids s x (kids s x) else Some s) as [s1|] eqn:E1; [|discriminate].
  assert (H1 : parents s1 m = parents s m).
  { destruct (level s x); [eapply HK; eauto|congruence]. }
  destruct (if marker s1 x then Some s1 else leaveParents s1 x (parents s1 x)) as [s2|] eqn:E2;
    [|discriminate].
  intros [= <-]. cbn. rewrite <- H1. destruct (marker s1 x); [congruence|eapply HP; eauto].
Qed.

(** A marker still refers to a destroyed construct: to find out what it marks is
    undefined behaviour, even if another construct was added to it before. *)
Theorem C47_marker_refuted : forall h m b r c, legal nothing h = true ->
  In (NewMarker m b) h -> In m (exist (after h)) ->
  legal (after h) [Mark m r; Delete b] = true ->
  (forall s, run none h = Some s -> exists l, parents s m = b :: l) ->
  exists s, run none (h ++ [Mark m r; Delete b]) = Some s /\ alive s m = true /\
    getBase s m c = None.
Proof.
  intros h m b r c Hl Hnew Hm Hops Hpar.
  destruct (run_agree h _ _ agree_none Hl) as (s & Hs & Ha). fold (after h) in Ha.
  destruct (Hpar s Hs) as [l Hb].
  cbn [legal] in Hops. rewrite !andb_true_iff in Hops. destruct Hops as (Ho1 & Ho2 & _).
  destruct (step_agree _ _ _ Ha Ho1) as (s1 & E1 & Ha1).
  destruct (step_agree _ _ _ Ha1 Ho2) as (s2 & E2 & Ha2).
  exists s2. split.
  { assert (Happ : forall h1 h2 s0, run s0 (h1 ++ h2) =
       match run s0 h1 with Some s => run s h2 | None => None end).
    { induction h1 as [|o h1 IH]; intros h2 s0; cbn; [reflexivity|].
      destruct (perform s0 o); [apply IH|reflexivity]. }
    rewrite Happ, Hs. cbn [run]. rewrite E1, E2. reflexivity. }
  assert (Hmm : In m (markers (after h))).
  { cbn in Ho1. rewrite !andb_true_iff in Ho1. apply has_In. tauto. }
  assert (Hbe : In b (exist (after h))).
  { cbn in Ho2. apply has_In in Ho2. exact Ho2. }
  assert (Hmb : m <> b).
  { intros ->. (* a marker does not mark itself *)
    assert (Hg : forall h w, legal w h = true -> In (NewMarker b b) h ->
              (forall x, In x (exist w) -> In x (used w)) -> False).
    { clear. induction h as [|o h IH]; intros w Hl Hin Hu; [contradiction|].
      cbn in Hl. apply andb_true_iff in Hl. destruct Hl as [Hl1 Hl2].
      destruct Hin as [->|Hin].
      - cbn in Hl1. rewrite !andb_true_iff, negb_true_iff in Hl1. destruct Hl1 as [[H1 H2] _].
        apply not_has in H1. apply has_In in H2. auto.
      - apply (IH _ Hl2 Hin). destruct o; cbn; auto; intros z Hz; try (destruct Hz; auto).
        apply filter_In in Hz. apply Hu. tauto. }
    apply (Hg h nothing Hl Hnew). intros z []. }
  assert (Hp1 : parents s1 m = b :: l ++ [r]).
  { cbn in E1. unfold parentInsert in E1. destruct (alive s m); [|discriminate].
    injection E1 as <-. cbn. rewrite upd_same, Hb. reflexivity. }
  assert (Hp2 : parents s2 m = b :: l ++ [r]).
  { rewrite <- Hp1. apply (destroy_marker (next (after h) (Mark m r)) s1 b m s2 Ha1); auto. }
  assert (Hal : live s2 = filter (fun y => negb (y =? b)) (exist (after h))).
  { destruct Ha2 as [_ Al2 _ _ _ _ _ _ _ _]. exact Al2. }
  assert (Hlm : alive s2 m = true).
  { rewrite alive_has, Hal. apply has_In. apply filter_In. split; [exact Hm|].
    rewrite negb_true_iff, Nat.eqb_neq. exact Hmb. }
  split; [exact Hlm|]. unfold getBase. rewrite Hlm, Hp2. cbn [firstOf].
  assert (Hd : alive s2 b = false).
  { rewrite alive_has, Hal. apply not_has. rewrite filter_In, Nat.eqb_refl. cbn. intuition discriminate. }
  rewrite Hd. reflexivity.
Qed.

(** The merge of three parallel regions: regions 11, 21, 31 of the class 1 with
    loops 12, 22, 32 nested in them and markers 13, 23, 33 *)
Definition regions :=
  [New 11 1 true; New 12 2 true; Nest 11 12; NewMarker 13 11;
   New 21 1 true; New 22 2 true; Nest 21 22; NewMarker 23 21;
   New 31 1 true; New 32 2 true; Nest 31 32; NewMarker 33 31].
Theorem C47_merge_refuted : exists s s', run none regions = Some s /\
  getBase s 33 1 = Some (Some 31) /\
  mergeRegions s (11, 13) [(21, 23)] (31, 33) = Some s' /\
  live s' = [33; 32; 22; 12; 11] /\ parents s' 32 = [] /\ parents s' 12 = [11] /\
  parents s' 33 = [31; 11] /\ getBase s' 33 1 = None.
Proof.
  eexists. eexists. split; [vm_compute; reflexivity|]. split; [vm_compute; reflexivity|].
  split; [vm_compute; reflexivity|]. repeat split; vm_compute; reflexivity.
Qed.

Example C47_nonvacuous :
  let h := regions ++ [Nest 12 22; Delete 13; Delete 21; Delete 22] in
  legal nothing h = true /\ inside (after h) 11 = [12] /\ around (after h) 32 = [31] /\
  exist (after h) = [33; 32; 31; 23; 12; 11].
Proof. vm_compute. repeat split. Qed.
Example C47_marker_nonvacuous :
  legal nothing regions = true /\ In (NewMarker 33 31) regions /\ In 33 (exist (after regions)) /\
  legal (after regions) [Mark 33 11; Delete 31] = true /\
  forall s, run none regions = Some s -> exists l, parents s 33 = 31 :: l.
Proof.
  split; [reflexivity|]. split; [cbn; tauto|]. split; [vm_compute; tauto|]. split; [reflexivity|].
  intros s H. vm_compute in H. injection H as <-. eexists. vm_compute. reflexivity.
Qed.

Print Assumptions C47_partial.
Print Assumptions C47_marker_refuted.
Print Assumptions C47_merge_refuted.
