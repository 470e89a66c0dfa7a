(** Invariant of reference counting of alias nodes. *)
From Coq Require Import Arith Bool List Lia.
From Verif Require Import AliasNodeModel AliasNodeSpec.
Import ListNotations.

Definition mem (x : nat) (l : list nat) : bool := existsb (Nat.eqb x) l.
Lemma mem_in x l : mem x l = true <-> In x l.
Proof.
  unfold mem. rewrite existsb_exists. split.
  - intros (y & Y & E). apply Nat.eqb_eq in E. now subst.
  - intro X. exists x. now rewrite Nat.eqb_refl.
Qed.
Lemma alive_in s n : alive s n = true <-> In n (pool s).
Proof. exact (mem_in n (pool s)). Qed.
Lemma in_without c l x : In x (without c l) <-> In x l /\ x <> c.
Proof. unfold without. rewrite filter_In, negb_true_iff, Nat.eqb_neq. tauto. Qed.
Lemma nodup_filter {A} (g : A -> bool) l : NoDup l -> NoDup (filter g l).
Proof.
  induction 1; cbn; [constructor|]. destruct (g x); [|assumption].
  constructor; [|assumption]. rewrite filter_In. tauto.
Qed.

Lemma NoDup_app_iff_local (l : list nat) n : NoDup l -> ~ In n l -> NoDup (l ++ [n]).
Proof.
  induction 1 as [|x l X ND IH]; cbn; intro N; [constructor; [easy|constructor]|].
  constructor; [|tauto]. rewrite in_app_iff. cbn. intuition.
Qed.

(** ** Counters *)
Definition is (o : option nat) (n : nat) : bool :=
  match o with Some x => x =? n | None => false end.
Lemma is_true o n : is o n = true <-> o = Some n.
Proof. destruct o; cbn; rewrite ?Nat.eqb_eq; split; congruence. Qed.
Definition b2n (b : bool) : nat := if b then 1 else 0.
Definition cnt (f : nat -> option nat) (x : nat) (l : list nat) : nat :=
  length (filter (fun m => is (f m) x) l).
Lemma cnt_pos f l x m : In m l -> f m = Some x -> 0 < cnt f x l.
Proof.
  unfold cnt. intros I G.
  assert (J : In m (filter (fun m => is (f m) x) l)) by (apply filter_In; split; [exact I|now apply is_true]).
  destruct (filter (fun m => is (f m) x) l); [destruct J|cbn; lia].
Qed.
Lemma cnt_upd (f : nat -> option nat) n v x l : NoDup l -> In n l ->
  cnt (upd f n v) x l + b2n (is (f n) x) = cnt f x l + b2n (is v x).
Proof.
  unfold cnt. induction 1 as [|y l N ND IH]; intro I; [destruct I|].
  destruct I as [->|I].
  - cbn. unfold upd at 1. rewrite Nat.eqb_refl.
    assert (E : filter (fun m => is (upd f n v m) x) l = filter (fun m => is (f m) x) l).
    { apply filter_ext_in. intros a A. unfold upd. destruct (Nat.eqb_spec a n); [subst; tauto|reflexivity]. }
    rewrite E. destruct (is v x), (is (f n) x); cbn; lia.
  - cbn. unfold upd at 1. destruct (Nat.eqb_spec y n); [subst; tauto|].
    specialize (IH I). destruct (is (f y) x); cbn; lia.
Qed.
Lemma cnt_ext f g x l : (forall m, In m l -> f m = g m) -> cnt f x l = cnt g x l.
Proof. intro E. unfold cnt. f_equal. apply filter_ext_in. intros m M. now rewrite E. Qed.
Lemma cnt_zero f x l : (forall m, In m l -> f m <> Some x) -> cnt f x l = 0.
Proof.
  unfold cnt. induction l as [|m l IH]; cbn; intro E; [reflexivity|].
  destruct (is (f m) x) eqn:Q; [apply is_true in Q; now apply E in Q; auto|].
  apply IH. auto.
Qed.
Lemma cnt_without f x n l : NoDup l -> In n l ->
  cnt f x l = cnt f x (without n l) + b2n (is (f n) x).
Proof.
  unfold cnt. induction 1 as [|y l N ND IH]; intro I; [destruct I|]. destruct I as [->|I].
  - cbn. rewrite Nat.eqb_refl. cbn.
    assert (E : filter (fun y => negb (y =? n)) l = l).
    { clear IH ND. induction l as [|a l IH]; cbn; [reflexivity|].
      destruct (Nat.eqb_spec a n); cbn in *; [subst; tauto|]. f_equal. apply IH. tauto. }
    unfold without. rewrite E. destruct (is (f n) x); cbn; lia.
  - cbn. destruct (Nat.eqb_spec y n); [subst; tauto|]. cbn. specialize (IH I).
    unfold without in IH. destruct (is (f y) x); cbn; lia.
Qed.

(** ** Chains of forwarding nodes *)
Inductive chain (f : node -> option node) : node -> node -> Prop :=
| chainEnd n : f n = None -> chain f n n
| chainStep n m r : f n = Some m -> chain f m r -> chain f n r.
Inductive reach (f : node -> option node) : node -> node -> Prop :=
| reachSelf n : reach f n n
| reachStep n m x : f n = Some m -> reach f m x -> reach f n x.
Lemma reach_trans f a b c : reach f a b -> reach f b c -> reach f a c.
Proof. induction 1; intro; [assumption|]. econstructor; eauto. Qed.
Lemma chain_last f n r : chain f n r -> f r = None /\ reach f n r.
Proof.
  induction 1 as [n E|n m r E C (IH1 & IH2)]; [split; [exact E|constructor]|].
  split; [exact IH1|]. econstructor; eauto.
Qed.
Lemma chain_unique f n r : chain f n r -> forall r', chain f n r' -> r = r'.
Proof.
  induction 1; intros r' H'; inversion H'; subst; try congruence.
  assert (m = m0) by congruence. subst. auto.
Qed.
Lemma chain_reach f n x : reach f n x -> forall r, chain f n r -> chain f x r.
Proof.
  induction 1; intros r C; [assumption|]. inversion C; subst; [congruence|].
  assert (m = m0) by congruence. subst. auto.
Qed.
Lemma chain_acyclic f n r : chain f n r -> forall m, f n = Some m -> ~ reach f m n.
Proof.
  induction 1 as [n E|n q r E C IH]; intros m M R; [congruence|].
  assert (m = q) by congruence. subst q.
  inversion R as [z|z q x E' R']; subst.
  - exact (IH _ M (reachSelf f _)).
  - apply (IH q E'). apply reach_trans with n; [exact R'|]. econstructor; [exact E|constructor].
Qed.
(* a chain after a shortcut from n to the end d of its chain *)
Lemma chain_shortcut f n m d : f n = Some m -> chain f m d ->
  forall x r, chain f x r -> chain (upd f n (Some d)) x r.
Proof.
  intros E C. destruct (chain_last _ _ _ C) as (D & _).
  assert (ND : n <> d) by congruence.
  assert (CD : chain (upd f n (Some d)) d d).
  { apply chainEnd. unfold upd. destruct (Nat.eqb_spec d n); congruence. }
  intros x r. induction 1 as [x X|x y r X Y IH].
  - apply chainEnd. unfold upd. destruct (Nat.eqb_spec x n); [congruence|exact X].
  - destruct (Nat.eq_dec x n) as [->|N].
    + assert (y = m) by congruence. subst y.
      rewrite (chain_unique _ _ _ Y _ C). apply chainStep with d; [|exact CD].
      unfold upd. now rewrite Nat.eqb_refl.
    + apply chainStep with y; [|exact IH]. unfold upd. destruct (Nat.eqb_spec x n); congruence.
Qed.
Lemma reach_shortcut f n m d : f n = Some m -> reach f m d ->
  forall x y, reach (upd f n (Some d)) x y -> reach f x y.
Proof.
  intros E R x y. induction 1 as [x|x z y X Z IH]; [constructor|].
  unfold upd in X. destruct (Nat.eqb_spec x n) as [->|N].
  - assert (z = d) by congruence. subst z. apply reachStep with m; [exact E|].
    now apply reach_trans with d.
  - now apply reachStep with z.
Qed.

(** ** The invariant.  Nodes of the list [dead] are being destroyed. *)
Definition live (dead : list node) (s : state) : list node :=
  filter (fun x => negb (mem x dead)) (pool s).
Definition handles (dead : list node) (s : state) (n : node) : nat :=
  cnt (par s) n (live dead s) +
  cnt (fwd s) n (live dead s) +
  cnt (lnode s) n (locs s) + b2n (unk s n).
Record Inv (w : into) (dead : list node) (s : state) : Prop := {
  iPool : NoDup (pool s);
  iLocs : NoDup (locs s);
  iPar : forall m p, In m (live dead s) -> par s m = Some p ->
    In p (live dead s) /\ ~ reach (fwd s) p m;
  iFwd : forall m t, In m (live dead s) -> fwd s m = Some t -> In t (live dead s);
  iLoc : forall e n, In e (locs s) -> lnode s e = Some n -> In n (live dead s);
  iUnk : forall n, unk s n = true -> In n (live dead s);
  iCnt : forall n, In n (live dead s) -> handles dead s n <= ref s n;
  iChain : forall n, In n (live dead s) -> chain (fwd s) n (w n)
}.
Lemma live_in dead s x : In x (live dead s) <-> In x (pool s) /\ ~ In x dead.
Proof.
  unfold live. rewrite filter_In, negb_true_iff. split; intros (A & B); split; auto.
  - intro D. apply mem_in in D. congruence.
  - destruct (mem x dead) eqn:E; [|reflexivity]. apply mem_in in E. tauto.
Qed.
Lemma filter_filter {A} (g h k : A -> bool) l : (forall x, k x = g x && h x) ->
  filter k l = filter g (filter h l).
Proof.
  intro E. induction l as [|x l IH]; cbn; [reflexivity|]. rewrite E.
  destruct (h x); cbn; destruct (g x); cbn; now rewrite IH.
Qed.
Lemma live_cons n dead s : live (n :: dead) s = without n (live dead s).
Proof.
  unfold live, without. apply filter_filter. intro x. unfold mem. cbn [existsb].
  now destruct (x =? n).
Qed.
Lemma live_erase n dead s : live dead (setPool s (without n (pool s))) = live (n :: dead) s.
Proof.
  unfold live, without. cbn [pool setPool]. symmetry. apply filter_filter. intro x.
  unfold mem. cbn [existsb]. now destruct (x =? n), (existsb (Nat.eqb x) dead).
Qed.
Lemma live_nil s : live [] s = pool s.
Proof.
  unfold live, mem. cbn [existsb negb]. induction (pool s) as [|x l IH]; cbn; [reflexivity|].
  now rewrite IH.
Qed.
Lemma live_nodup dead s : NoDup (pool s) -> NoDup (live dead s).
Proof. apply nodup_filter. Qed.
Lemma handles_zero w dead s n : Inv w dead s -> handles dead s n = 0 ->
  (forall m, In m (live dead s) -> par s m <> Some n /\ fwd s m <> Some n) /\
  (forall e, In e (locs s) -> lnode s e <> Some n) /\ unk s n = false.
Proof.
  intros IV H. unfold handles in H. split; [|split].
  - intros m M. split; intro E.
    + pose proof (cnt_pos (par s) _ n m M E). lia.
    + pose proof (cnt_pos (fwd s) _ n m M E). lia.
  - intros e I E. pose proof (cnt_pos (lnode s) _ n e I E). lia.
  - destruct (unk s n); [cbn in H; lia|reflexivity].
Qed.

(** ** release *)
Definition rest (s s' : state) : Prop :=
  kinds s' = kinds s /\ par s' = par s /\ unk s' = unk s /\ locs s' = locs s /\
  lnode s' = lnode s.
Lemma release_ok f n r : chain f n r -> forall w dead s, fwd s = f -> Inv w dead s ->
  In n (live dead s) -> handles dead s n < ref s n ->
  exists N s', (forall fuel, N <= fuel -> release fuel s n = Some s') /\
    Inv w dead s' /\ rest s s' /\ fwd s' = fwd s /\
    (forall x, In x (pool s') -> In x (pool s)) /\
    (forall x, In x (pool s) -> ~ reach f n x \/ In x dead -> In x (pool s')).
Proof.
  induction 1 as [n E|n m r E C IH]; intros w dead s F IV L H.
  - (* the last node of a chain *)
    exists 1. pose proof (proj1 (live_in _ _ _) L) as (LP & LD).
    apply alive_in in LP. destruct (ref s n) as [|k] eqn:R; [lia|].
    destruct (Nat.eqb_spec k 0) as [->|K].
    + exists (setPool (setRef s n 0) (without n (pool s))).
      split; [intros [|fuel] FU; [lia|]; cbn; rewrite LP, R; cbn; now rewrite F, E|].
      assert (H0 : handles dead s n = 0) by lia.
      destruct (handles_zero _ _ _ _ IV H0) as (Z1 & Z2 & Z3).
      destruct IV as [I1 I2 I3 I4 I5 I6 I7 I8].
      assert (LV : live dead (setPool (setRef s n 0) (without n (pool s))) = without n (live dead s)).
      { etransitivity; [exact (live_erase n dead (setRef s n 0))|]. exact (live_cons n dead s). }
      split; [|split; [repeat split|split; [reflexivity|]]].
      * constructor; cbn [pool locs par fwd lnode unk ref setPool setRef]; rewrite ?LV.
        -- apply nodup_filter, I1.
        -- exact I2.
        -- intros x p X P. apply in_without in X as (X & XN). destruct (I3 x p X P) as (A & B).
           split; [|exact B]. apply in_without. split; [exact A|]. intro; subst p.
           exact (proj1 (Z1 x X) P).
        -- intros x t X T. apply in_without in X as (X & XN). apply in_without.
           split; [exact (I4 x t X T)|]. intro; subst t. exact (proj2 (Z1 x X) T).
        -- intros e y IE EY. apply in_without. split; [exact (I5 e y IE EY)|].
           intro; subst y. exact (Z2 e IE EY).
        -- intros y Y. apply in_without. split; [exact (I6 y Y)|]. intro; subst; congruence.
        -- intros x X. apply in_without in X as (X & XN). unfold upd.
           destruct (Nat.eqb_spec x n); [congruence|].
           eapply Nat.le_trans; [|exact (I7 x X)]. unfold handles.
           cbn [par fwd lnode locs unk setPool setRef]. rewrite LV.
           rewrite (cnt_without (par s) x n (live dead s) (live_nodup _ _ I1) L).
           rewrite (cnt_without (fwd s) x n (live dead s) (live_nodup _ _ I1) L). lia.
        -- intros x X. apply in_without in X as (X & XN). exact (I8 x X).
      * cbn. split.
        -- intros x X. now apply in_without in X.
        -- intros x X [NR|D]; apply in_without; (split; [exact X|]); intro; subst x.
           ++ apply NR. constructor.
           ++ tauto.
    + exists (setRef s n k).
      split; [intros [|fuel] FU; [lia|]; cbn; rewrite LP, R; cbn;
              destruct (Nat.eqb_spec k 0); [congruence|reflexivity]|].
      split; [|split; [repeat split|split; [reflexivity|split; auto]]].
      destruct IV as [I1 I2 I3 I4 I5 I6 I7 I8].
      constructor; auto.
      intros x X. cbn [ref setRef]. unfold upd. change (live dead (setRef s n k)) with (live dead s) in X.
      change (handles dead (setRef s n k) x) with (handles dead s x).
      destruct (Nat.eqb_spec x n) as [->|]; [lia|exact (I7 x X)].
  - (* a forwarding node *)
    pose proof (proj1 (live_in _ _ _) L) as (LP & LD). pose proof LP as LP'.
    apply alive_in in LP. destruct (ref s n) as [|k] eqn:R; [lia|].
    destruct (Nat.eqb_spec k 0) as [->|K].
    + assert (H0 : handles dead s n = 0) by lia.
      destruct (handles_zero _ _ _ _ IV H0) as (Z1 & Z2 & Z3).
      assert (FN : fwd s n = Some m) by now rewrite F.
      assert (ML : In m (live dead s)) by exact (iFwd _ _ _ IV n m L FN).
      assert (MN : m <> n) by (intro; subst m; exact (proj2 (Z1 n L) FN)).
      set (s1 := setRef s n 0).
      assert (LV : live (n :: dead) s1 = without n (live dead s)) by exact (live_cons n dead s).
      assert (HC : forall x, handles (n :: dead) s1 x + b2n (is (par s n) x) + b2n (is (fwd s n) x)
                             = handles dead s x).
      { intro x. unfold handles. rewrite LV. cbn [par fwd lnode locs unk setRef s1].
        rewrite (cnt_without (par s) x n (live dead s) (live_nodup _ _ (iPool _ _ _ IV)) L).
        rewrite (cnt_without (fwd s) x n (live dead s) (live_nodup _ _ (iPool _ _ _ IV)) L).
        lia. }
      assert (IV1 : Inv w (n :: dead) s1).
      { destruct IV as [I1 I2 I3 I4 I5 I6 I7 I8].
        constructor; rewrite ?LV; cbn [pool locs par fwd lnode unk ref setRef s1].
        - exact I1.
        - exact I2.
        - intros x p X P. apply in_without in X as (X & XN). destruct (I3 x p X P) as (A & B).
          split; [|exact B]. apply in_without. split; [exact A|]. intro; subst p.
          exact (proj1 (Z1 x X) P).
        - intros x t X T. apply in_without in X as (X & XN). apply in_without.
          split; [exact (I4 x t X T)|]. intro; subst t. exact (proj2 (Z1 x X) T).
        - intros e y IE EY. apply in_without. split; [exact (I5 e y IE EY)|].
          intro; subst y. exact (Z2 e IE EY).
        - intros y Y. apply in_without. split; [exact (I6 y Y)|]. intro; subst; congruence.
        - intros x X. apply in_without in X as (X & XN). unfold upd.
          destruct (Nat.eqb_spec x n); [congruence|]. pose proof (I7 x X). pose proof (HC x). lia.
        - intros x X. apply in_without in X as (X & XN). exact (I8 x X). }
      destruct (IH w (n :: dead) s1 F IV1) as (N & s2 & RS & IV2 & RE & FW & SUB & KEEP).
      { rewrite LV. now apply in_without. }
      { pose proof (HC m). pose proof (iCnt _ _ _ IV m ML). rewrite FN in H1.
        cbn [is] in H1. rewrite Nat.eqb_refl in H1. cbn [b2n] in H1.
        cbn [ref setRef s1]. unfold upd. destruct (Nat.eqb_spec m n); [congruence|]. lia. }
      assert (NP : In n (pool s2)) by (apply KEEP; [exact LP'|right; now left]).
      exists (S N), (setPool s2 (without n (pool s2))).
      split.
      { intros [|fuel] FU; [lia|]. cbn [release]. rewrite LP, R. cbn [Nat.eqb].
        change (fwd (setRef s n 0) n) with (fwd s n). rewrite FN.
        fold s1. rewrite RS by lia. apply alive_in in NP. now rewrite NP. }
      split; [|split; [|split; [exact FW|split]]].
      * destruct IV2 as [I1 I2 I3 I4 I5 I6 I7 I8].
        assert (LV2 : live dead (setPool s2 (without n (pool s2))) = live (n :: dead) s2)
          by apply live_erase.
        constructor; rewrite ?LV2; cbn [pool locs par fwd lnode unk ref setPool]; auto.
        -- apply nodup_filter, I1.
        -- intros x X. specialize (I7 x X). unfold handles in *. rewrite LV2.
           cbn [par fwd lnode locs unk setPool]. exact I7.
      * destruct RE as (A & B & D & G & K). repeat split; cbn; assumption.
      * cbn. intros x X. apply in_without in X as (X & _). now apply SUB in X.
      * cbn. intros x X NR. apply in_without. split.
        -- apply KEEP; [exact X|]. destruct NR as [NR|D]; [left|right; now right].
           intro Q. apply NR. now apply reachStep with m.
        -- intro; subst x. destruct NR as [NR|D]; [apply NR; constructor|tauto].
    + exists 1, (setRef s n k).
      split; [intros [|fuel] FU; [lia|]; cbn; rewrite LP, R; cbn;
              destruct (Nat.eqb_spec k 0); [congruence|reflexivity]|].
      split; [|split; [repeat split|split; [reflexivity|split; auto]]].
      destruct IV as [I1 I2 I3 I4 I5 I6 I7 I8].
      constructor; auto.
      intros x X. cbn [ref setRef]. unfold upd. change (live dead (setRef s n k)) with (live dead s) in X.
      change (handles dead (setRef s n k) x) with (handles dead s x).
      destruct (Nat.eqb_spec x n) as [->|]; [lia|exact (I7 x X)].
Qed.

(** release neither reads nor changes parents and locations. *)
Lemma release_setPar fuel : forall s n v o,
  release fuel (setPar s n v) o = option_map (fun s => setPar s n v) (release fuel s o).
Proof.
  induction fuel as [|fuel IH]; intros s n v o; [reflexivity|]. cbn [release].
  change (alive (setPar s n v) o) with (alive s o).
  change (ref (setPar s n v) o) with (ref s o).
  destruct (alive s o); [|reflexivity]. destruct (ref s o) as [|r]; [reflexivity|].
  change (setRef (setPar s n v) o r) with (setPar (setRef s o r) n v).
  destruct (r =? 0); [|reflexivity].
  change (fwd (setPar (setRef s o r) n v) o) with (fwd (setRef s o r) o).
  destruct (fwd (setRef s o r) o) as [m|]; [|reflexivity].
  rewrite IH. destruct (release fuel (setRef s o r) m) as [s'|]; [|reflexivity]. cbn [option_map].
  change (alive (setPar s' n v) o) with (alive s' o). now destruct (alive s' o).
Qed.
Lemma release_setLoc fuel : forall s n v o,
  release fuel (setLoc s n v) o = option_map (fun s => setLoc s n v) (release fuel s o).
Proof.
  induction fuel as [|fuel IH]; intros s n v o; [reflexivity|]. cbn [release].
  change (alive (setLoc s n v) o) with (alive s o).
  change (ref (setLoc s n v) o) with (ref s o).
  destruct (alive s o); [|reflexivity]. destruct (ref s o) as [|r]; [reflexivity|].
  change (setRef (setLoc s n v) o r) with (setLoc (setRef s o r) n v).
  destruct (r =? 0); [|reflexivity].
  change (fwd (setLoc (setRef s o r) n v) o) with (fwd (setRef s o r) o).
  destruct (fwd (setRef s o r) o) as [m|]; [|reflexivity].
  rewrite IH. destruct (release fuel (setRef s o r) m) as [s'|]; [|reflexivity]. cbn [option_map].
  change (alive (setLoc s' n v) o) with (alive s' o). now destruct (alive s' o).
Qed.
Lemma release_setFwd fuel : forall s n v o, ~ reach (fwd s) o n ->
  release fuel (setFwd s n v) o = option_map (fun s => setFwd s n v) (release fuel s o).
Proof.
  induction fuel as [|fuel IH]; intros s n v o NR; [reflexivity|]. cbn [release].
  change (alive (setFwd s n v) o) with (alive s o).
  change (ref (setFwd s n v) o) with (ref s o).
  destruct (alive s o); [|reflexivity]. destruct (ref s o) as [|r]; [reflexivity|].
  change (setRef (setFwd s n v) o r) with (setFwd (setRef s o r) n v).
  destruct (r =? 0); [|reflexivity].
  assert (E : fwd (setFwd (setRef s o r) n v) o = fwd s o).
  { cbn [fwd setFwd setRef]. unfold upd. destruct (Nat.eqb_spec o n); [|reflexivity].
    subst. exfalso. apply NR. constructor. }
  rewrite E. change (fwd (setRef s o r) o) with (fwd s o).
  destruct (fwd s o) as [m|] eqn:FO; [|reflexivity].
  rewrite IH by (intro Q; apply NR; now apply reachStep with m).
  destruct (release fuel (setRef s o r) m) as [s'|]; [|reflexivity]. cbn [option_map].
  change (alive (setFwd s' n v) o) with (alive s' o). now destruct (alive s' o).
Qed.

Lemma release_keeps fuel : forall s o z, release fuel s o = Some z ->
  par z = par s /\ lnode z = lnode s.
Proof.
  induction fuel as [|fuel IH]; intros s o z Z; [discriminate|].
  cbn [release] in Z. destruct (alive s o); [|discriminate].
  destruct (ref s o) as [|r]; [discriminate|]. destruct (r =? 0); [|now injection Z as <-].
  destruct (fwd (setRef s o r) o) as [m|]; [|now injection Z as <-].
  destruct (release fuel (setRef s o r) m) as [z'|] eqn:Q; [|discriminate].
  destruct (alive z' o); [|discriminate]. injection Z as <-. exact (IH _ _ _ Q).
Qed.

(** ** States outside of a release *)
Definition OK (w : into) (s : state) : Prop := Inv w [] s.
Definition count (s : state) (n : node) : nat := handles [] s n.
Lemma ok_intro w s :
  NoDup (pool s) -> NoDup (locs s) ->
  (forall m p, In m (pool s) -> par s m = Some p -> In p (pool s) /\ ~ reach (fwd s) p m) ->
  (forall m t, In m (pool s) -> fwd s m = Some t -> In t (pool s)) ->
  (forall e n, In e (locs s) -> lnode s e = Some n -> In n (pool s)) ->
  (forall n, unk s n = true -> In n (pool s)) ->
  (forall n, In n (pool s) -> count s n <= ref s n) ->
  (forall n, In n (pool s) -> chain (fwd s) n (w n)) -> OK w s.
Proof. intros. constructor; rewrite ?live_nil; assumption. Qed.
Lemma ok_elim w s : OK w s ->
  NoDup (pool s) /\ NoDup (locs s) /\
  (forall m p, In m (pool s) -> par s m = Some p -> In p (pool s) /\ ~ reach (fwd s) p m) /\
  (forall m t, In m (pool s) -> fwd s m = Some t -> In t (pool s)) /\
  (forall e n, In e (locs s) -> lnode s e = Some n -> In n (pool s)) /\
  (forall n, unk s n = true -> In n (pool s)) /\
  (forall n, In n (pool s) -> count s n <= ref s n) /\
  (forall n, In n (pool s) -> chain (fwd s) n (w n)).
Proof. intros [A B C D E F G H]. rewrite live_nil in *. auto 10. Qed.
Lemma ok_end w s n : OK w s -> In n (pool s) -> In (w n) (pool s) /\ fwd s (w n) = None.
Proof.
  intros H I. apply ok_elim in H as (_ & _ & _ & D & _ & _ & _ & C). specialize (C n I).
  revert I. induction C as [x E|x m r E C IH]; intro I; [auto|]. apply IH. exact (D x m I E).
Qed.
Lemma ok_real w s n : OK w s -> real w s n -> In n (pool s) /\ fwd s n = None.
Proof. intros H (I & E). destruct (ok_end _ _ _ H I) as (A & B). now rewrite E in *. Qed.
Lemma count_setPar s n v x : NoDup (pool s) -> In n (pool s) ->
  count (setPar s n v) x + b2n (is (par s n) x) = count s x + b2n (is v x).
Proof.
  intros ND I. unfold count, handles. rewrite !live_nil. cbn [pool par fwd lnode locs unk setPar].
  pose proof (cnt_upd (par s) n v x (pool s) ND I). unfold node, loc in *. lia.
Qed.
Lemma count_setFwd s n v x : NoDup (pool s) -> In n (pool s) ->
  count (setFwd s n v) x + b2n (is (fwd s n) x) = count s x + b2n (is v x).
Proof.
  intros ND I. unfold count, handles. rewrite !live_nil. cbn [pool par fwd lnode locs unk setFwd].
  pose proof (cnt_upd (fwd s) n v x (pool s) ND I). unfold node, loc in *. lia.
Qed.
Lemma count_setLoc s n v x : NoDup (locs s) -> In n (locs s) ->
  count (setLoc s n v) x + b2n (is (lnode s n) x) = count s x + b2n (is v x).
Proof.
  intros ND I. unfold count, handles. rewrite !live_nil. cbn [pool par fwd lnode locs unk setLoc].
  pose proof (cnt_upd (lnode s) n v x (locs s) ND I). unfold node, loc in *. lia.
Qed.
Lemma count_setUnk s n v x :
  count (setUnk s n v) x + b2n (unk s n && (x =? n)) = count s x + b2n (v && (x =? n)).
Proof.
  unfold count, handles. rewrite !live_nil. cbn [pool par fwd lnode locs unk setUnk]. unfold upd.
  destruct (Nat.eqb_spec x n); [subst|]; destruct v, (unk s n); cbn; try lia.
Qed.
Lemma count_setRef s n v x : count (setRef s n v) x = count s x.
Proof. reflexivity. Qed.

Definition free_result (s s' : state) (o : node) : Prop :=
  rest s s' /\ fwd s' = fwd s /\ (forall x, In x (pool s') -> In x (pool s)) /\
  (forall x, In x (pool s) -> ~ reach (fwd s) o x -> In x (pool s')).
Lemma release_now w s o : OK w s -> In o (pool s) -> count s o < ref s o ->
  exists N s', (forall fuel, N <= fuel -> release fuel s o = Some s') /\ OK w s' /\
    free_result s s' o.
Proof.
  intros H I C. pose proof (ok_elim _ _ H) as (_ & _ & _ & _ & _ & _ & _ & CH).
  destruct (release_ok (fwd s) o (w o) (CH o I) w [] s eq_refl H) as (N & s' & R & IV & RE & F & SUB & K).
  - now rewrite live_nil.
  - exact C.
  - exists N, s'. split; [exact R|]. split; [exact IV|]. split; [exact RE|]. split; [exact F|].
    split; [exact SUB|]. intros x X NR. apply K; auto.
Qed.

(* replacement of the parent of a node *)
Lemma ok_clearPar w s n : OK w s -> In n (pool s) -> OK w (setPar s n None).
Proof.
  intros H I. apply ok_elim in H as (A & B & C & D & E & F & G & K).
  apply ok_intro; cbn [pool locs par fwd lnode unk ref setPar]; auto.
  - intros m p M P. unfold upd in P. destruct (m =? n); [discriminate|]. auto.
  - intros x X. pose proof (count_setPar s n None x A I). pose proof (G x X). cbn [is b2n] in H. lia.
Qed.
Lemma ok_setPar w s n p : OK w s -> In n (pool s) -> In p (pool s) -> ~ reach (fwd s) p n ->
  OK w (setRef (setPar s n (Some p)) p (S (ref s p))).
Proof.
  intros H I P NR. apply ok_elim in H as (A & B & C & D & E & F & G & K).
  apply ok_intro; cbn [pool locs par fwd lnode unk ref setPar setRef]; auto.
  - intros m q M Q. unfold upd in Q. destruct (Nat.eqb_spec m n); [|auto].
    injection Q as <-. subst m. auto.
  - intros x X. rewrite count_setRef. pose proof (count_setPar s n (Some p) x A I).
    pose proof (G x X). unfold upd. cbn [is] in H. rewrite Nat.eqb_sym in H.
    destruct (x =? p) eqn:Q; cbn [b2n] in H; [|lia]. apply Nat.eqb_eq in Q. subst. lia.
Qed.
Lemma ok_clearLoc w s e : OK w s -> In e (locs s) -> OK w (setLoc s e None).
Proof.
  intros H I. apply ok_elim in H as (A & B & C & D & E & F & G & K).
  apply ok_intro; cbn [pool locs par fwd lnode unk ref setLoc]; auto.
  - intros m p M P. unfold upd in P. destruct (m =? e); [discriminate|]. eauto.
  - intros x X. pose proof (count_setLoc s e None x B I). pose proof (G x X). cbn [is b2n] in H. lia.
Qed.
Lemma ok_setLoc w s e p : OK w s -> In e (locs s) -> In p (pool s) ->
  OK w (setRef (setLoc s e (Some p)) p (S (ref s p))).
Proof.
  intros H I P. apply ok_elim in H as (A & B & C & D & E & F & G & K).
  apply ok_intro; cbn [pool locs par fwd lnode unk ref setLoc setRef]; auto.
  - intros m q M Q. unfold upd in Q. destruct (Nat.eqb_spec m e); [|eauto].
    injection Q as <-. auto.
  - intros x X. rewrite count_setRef. pose proof (count_setLoc s e (Some p) x B I).
    pose proof (G x X). unfold upd. cbn [is] in H. rewrite Nat.eqb_sym in H.
    destruct (x =? p) eqn:Q; cbn [b2n] in H; [|lia]. apply Nat.eqb_eq in Q. subst. lia.
Qed.
Lemma is_self n : is (Some n) n = true.
Proof. apply Nat.eqb_refl. Qed.

(** ** Resolution of forwarding nodes *)
Lemma resolve_ok f n r : chain f n r -> forall w s, fwd s = f -> OK w s -> In n (pool s) ->
  exists N s', (forall fuel, N <= fuel -> getForwardedTarget fuel s n = Some (s', r)) /\
    OK w s' /\ rest s s' /\ In n (pool s') /\
    (forall a b, reach (fwd s') a b -> reach f a b) /\
    (forall x, ~ reach f n x -> fwd s' x = f x) /\
    (forall x, In x (pool s') -> In x (pool s)) /\
    (forall x, In x (pool s) -> ~ reach f n x -> In x (pool s')).
Proof.
  induction 1 as [n E|n m r E C IH]; intros w s F H I.
  - exists 1, s. pose proof (proj2 (alive_in s n) I) as AL.
    split; [intros [|fuel] FU; [lia|]; cbn; now rewrite AL, F, E|].
    subst f. unfold rest. auto 12.
  - pose proof (proj2 (alive_in s n) I) as AL.
    assert (NR : ~ reach f m n) by (eapply chain_acyclic; [eapply chainStep; eauto|exact E]).
    pose proof (ok_elim _ _ H) as (_ & _ & _ & D0 & _).
    assert (MI : In m (pool s)) by (apply (D0 n m I); now rewrite F).
    destruct (IH w s F H MI) as (N & s1 & G & OK1 & RE & M1 & RCH & FW & SUB & KEEP).
    assert (NI : In n (pool s1)) by (apply KEEP; auto).
    assert (FN : fwd s1 n = Some m) by (rewrite FW; auto).
    pose proof (ok_elim _ _ OK1) as (P1 & P2 & P3 & P4 & P5 & P6 & P7 & P8).
    destruct (Nat.eq_dec r m) as [RM|RM].
    + exists (S N), s1. split.
      { intros [|fuel] FU; [lia|]. cbn [getForwardedTarget]. rewrite AL, F, E, G by lia.
        apply Nat.eqb_eq in RM. now rewrite RM. }
      split; [exact OK1|]. split; [exact RE|]. split; [exact NI|]. split; [exact RCH|].
      split; [|split; [exact SUB|]].
      * intros x X. apply FW. intro Q. apply X. now apply reachStep with m.
      * intros x X Y. apply KEEP; [exact X|]. intro Q. apply Y. now apply reachStep with m.
    + (* the chain of m in s1 ends with r *)
      assert (WM : w m = r).
      { pose proof (ok_elim _ _ H) as (_ & _ & _ & _ & _ & _ & _ & CH).
        specialize (CH m MI). rewrite F in CH. exact (chain_unique _ _ _ CH _ C). }
      assert (C1 : chain (fwd s1) m r) by (rewrite <- WM; auto).
      destruct (chain_last _ _ _ C1) as (FR & R1).
      assert (RI : In r (pool s1)) by (rewrite <- WM; exact (proj1 (ok_end _ _ _ OK1 M1))).
      assert (NR1 : ~ reach (fwd s1) m n) by (intro Q; exact (NR (RCH _ _ Q))).
      set (s2 := setRef s1 r (S (ref s1 r))).
      set (t := setFwd s2 n (Some r)).
      assert (CT : forall x, count t x + b2n (m =? x) = count s1 x + b2n (r =? x)).
      { intro x. pose proof (count_setFwd s2 n (Some r) x P1 NI).
        change (fwd s2 n) with (fwd s1 n) in H0. rewrite FN in H0. exact H0. }
      assert (RT : ref t = upd (ref s1) r (S (ref s1 r))) by reflexivity.
      assert (FT : fwd t = upd (fwd s1) n (Some r)) by reflexivity.
      assert (OKT : OK w t).
      { apply ok_intro; rewrite ?FT; cbn [pool locs par lnode unk t s2 setFwd setRef]; auto.
        - intros x p X P. destruct (P3 x p X P) as (Q1 & Q2). split; [exact Q1|].
          intro Q. apply Q2. exact (reach_shortcut _ _ _ _ FN R1 _ _ Q).
        - intros x y X Y. unfold upd in Y. destruct (x =? n); [|eauto]. now injection Y as <-.
        - intros x X. pose proof (CT x). pose proof (P7 x X). rewrite RT. unfold upd.
          rewrite (Nat.eqb_sym r x) in H0.
          destruct (x =? r) eqn:Q; cbn [b2n] in H0; [|lia]. apply Nat.eqb_eq in Q. subst x. lia.
        - intros x X. apply (chain_shortcut _ _ _ _ FN C1). auto. }
      assert (SL : count t m < ref t m).
      { pose proof (CT m). pose proof (P7 m M1). rewrite RT. unfold upd.
        rewrite Nat.eqb_refl in H0. cbn [b2n] in H0.
        destruct (Nat.eqb_spec m r); [congruence|].
        destruct (Nat.eqb_spec r m); [congruence|]. cbn [b2n] in H0. lia. }
      destruct (release_now w t m OKT M1 SL) as (N2 & s4 & RL & OK4 & RE4 & F4 & SUB4 & KEEP4).
      assert (NRT : ~ reach (fwd t) m n).
      { intro Q. apply NR1. rewrite FT in Q. exact (reach_shortcut _ _ _ _ FN R1 _ _ Q). }
      assert (N4 : In n (pool s4)) by (apply KEEP4; auto).
      exists (S (N + N2)), s4. split.
      { intros [|fuel] FU; [lia|]. cbn [getForwardedTarget]. rewrite AL, F, E, G by lia.
        destruct (Nat.eqb_spec r m); [congruence|]. unfold retain.
        rewrite (proj2 (alive_in s1 r) RI). fold s2.
        specialize (RL fuel ltac:(lia)). unfold t in RL.
        rewrite (release_setFwd fuel s2 n (Some r) m NR1) in RL.
        destruct (release fuel s2 m) as [s3|]; [|discriminate]. cbn in RL. injection RL as <-.
        change (pool (setFwd s3 n (Some r))) with (pool s3) in N4.
        now rewrite (proj2 (alive_in s3 n) N4). }
      split; [exact OK4|]. split.
      { destruct RE as (A1 & A2 & A3 & A4 & A5), RE4 as (B1 & B2 & B3 & B4 & B5).
        unfold t, s2 in B1, B2, B3, B4, B5. cbn [kinds par unk locs lnode setFwd setRef] in B1, B2, B3, B4, B5.
        repeat split; congruence. }
      split; [exact N4|]. split; [|split; [|split]].
      * intros a b Q. rewrite F4, FT in Q. apply RCH. exact (reach_shortcut _ _ _ _ FN R1 _ _ Q).
      * intros x X. rewrite F4, FT. unfold upd.
        destruct (Nat.eqb_spec x n) as [->|XN]; [exfalso; apply X; constructor|].
        apply FW. intro Q. apply X. now apply reachStep with m.
      * intros x X. apply SUB, SUB4, X.
      * intros x X Y. apply KEEP4.
        -- apply (KEEP x X). intro Q. apply Y. now apply reachStep with m.
        -- intro Q. rewrite FT in Q. apply Y. apply reachStep with m; [exact E|].
           apply RCH. exact (reach_shortcut _ _ _ _ FN R1 _ _ Q).
Qed.

(** ** Operations *)
Lemma getParent_ok w s n : OK w s -> In n (pool s) ->
  exists N s', (forall fuel, N <= fuel -> getParent fuel s n = Some (s', parentOf w s n)) /\
    OK w s' /\ In n (pool s') /\ par s' n = parentOf w s n /\
    kinds s' = kinds s /\ unk s' = unk s /\ locs s' = locs s /\ lnode s' = lnode s.
Proof.
  intros H I. pose proof (ok_elim _ _ H) as (P1 & P2 & P3 & P4 & P5 & P6 & P7 & P8).
  unfold getParent, parentOf. destruct (par s n) as [o|] eqn:PO.
  2:{ exists 0, s. cbn. auto 12. }
  destruct (P3 n o I PO) as (OI & NR). rewrite (proj2 (alive_in s o) OI).
  unfold isForwarding. destruct (fwd s o) as [q|] eqn:FO.
  - destruct (resolve_ok (fwd s) o (w o) (P8 o OI) w s eq_refl H OI)
      as (N & s1 & G & OK1 & (R1 & R2 & R3 & R4 & R5) & O1 & RCH & FW & SUB & KEEP).
    assert (N1 : In n (pool s1)) by (apply KEEP; auto).
    destruct (ok_end _ _ _ OK1 O1) as (DI & DF).
    assert (DN : ~ reach (fwd s1) (w o) n).
    { intro Q. apply NR. apply reach_trans with (w o); [exact (proj2 (chain_last _ _ _ (P8 o OI)))|].
      now apply RCH. }
    pose proof (ok_setPar w s1 n (w o) OK1 N1 DI DN) as OK2.
    set (s2 := setRef (setPar s1 n (Some (w o))) (w o) (S (ref s1 (w o)))) in *.
    pose proof (ok_elim _ _ OK1) as (Q1 & _ & _ & _ & _ & _ & Q7 & _).
    assert (SL : count s2 o < ref s2 o).
    { pose proof (count_setPar s1 n (Some (w o)) o Q1 N1) as CT. rewrite R2, PO, is_self in CT.
      cbn [is b2n] in CT. change (count s2 o) with (count (setPar s1 n (Some (w o))) o).
      cbn [ref s2 setRef setPar]. unfold upd. pose proof (Q7 o O1).
      rewrite (Nat.eqb_sym (w o) o) in CT. revert CT.
      destruct (Nat.eqb_spec o (w o)) as [Q|Q]; cbn [b2n]; intro CT;
        [pose proof (f_equal (ref s1) Q)|]; lia. }
    destruct (release_now w s2 o OK2 O1 SL) as (N2 & s3 & RL & OK3 & (T1 & T2 & T3 & T4 & T5) & F3 & SUB3 & KEEP3).
    exists (N + N2), s3. split.
    { intros fuel FU. rewrite G by lia. rewrite (proj2 (alive_in s1 n) N1). unfold retain.
      change (alive (setPar s1 n (Some (w o))) (w o)) with (alive s1 (w o)).
      rewrite (proj2 (alive_in s1 (w o)) DI).
      change (ref (setPar s1 n (Some (w o))) (w o)) with (ref s1 (w o)). fold s2.
      rewrite RL by lia. reflexivity. }
    split; [exact OK3|]. split.
    { apply KEEP3; [exact N1|]. intro Q. apply NR. now apply RCH. }
    rewrite T1, T2, T3, T4, T5. unfold s2.
    cbn [kinds par unk locs lnode setRef setPar option_map]. unfold upd.
    rewrite Nat.eqb_refl. auto 10.
  - exists 0, s. assert (W : w o = o).
    { pose proof (P8 o OI) as C. inversion C; [congruence|congruence]. }
    cbn [option_map]. rewrite W. auto 12.
Qed.
Lemma getAliasNode_ok w s e : OK w s -> In e (locs s) ->
  exists N s', (forall fuel, N <= fuel ->
      getAliasNode fuel s e = Some (s', option_map w (lnode s e))) /\
    OK w s' /\ lnode s' e = option_map w (lnode s e) /\ par s' = par s.
Proof.
  intros H I. pose proof (ok_elim _ _ H) as (P1 & P2 & P3 & P4 & P5 & P6 & P7 & P8).
  unfold getAliasNode. destruct (lnode s e) as [o|] eqn:PO.
  2:{ exists 0, s. cbn. auto 12. }
  pose proof (P5 e o I PO) as OI. rewrite (proj2 (alive_in s o) OI).
  unfold isForwarding. destruct (fwd s o) as [q|] eqn:FO.
  - destruct (resolve_ok (fwd s) o (w o) (P8 o OI) w s eq_refl H OI)
      as (N & s1 & G & OK1 & (R1 & R2 & R3 & R4 & R5) & O1 & RCH & FW & SUB & KEEP).
    assert (N1 : In e (locs s1)) by now rewrite R4.
    destruct (ok_end _ _ _ OK1 O1) as (DI & DF).
    pose proof (ok_setLoc w s1 e (w o) OK1 N1 DI) as OK2.
    set (s2 := setRef (setLoc s1 e (Some (w o))) (w o) (S (ref s1 (w o)))) in *.
    pose proof (ok_elim _ _ OK1) as (_ & Q1 & _ & _ & _ & _ & Q7 & _).
    assert (SL : count s2 o < ref s2 o).
    { pose proof (count_setLoc s1 e (Some (w o)) o Q1 N1) as CT. rewrite R5, PO, is_self in CT.
      cbn [is b2n] in CT. change (count s2 o) with (count (setLoc s1 e (Some (w o))) o).
      cbn [ref s2 setRef setLoc]. unfold upd. pose proof (Q7 o O1).
      rewrite (Nat.eqb_sym (w o) o) in CT. revert CT.
      destruct (Nat.eqb_spec o (w o)) as [Q|Q]; cbn [b2n]; intro CT;
        [pose proof (f_equal (ref s1) Q)|]; lia. }
    destruct (release_now w s2 o OK2 O1 SL) as (N2 & s3 & RL & OK3 & (T1 & T2 & T3 & T4 & T5) & F3 & SUB3 & KEEP3).
    exists (N + N2), s3. split.
    { intros fuel FU. rewrite G by lia. unfold retain.
      change (alive (setLoc s1 e (Some (w o))) (w o)) with (alive s1 (w o)).
      rewrite (proj2 (alive_in s1 (w o)) DI).
      change (ref (setLoc s1 e (Some (w o))) (w o)) with (ref s1 (w o)). fold s2.
      rewrite RL by lia. reflexivity. }
    split; [exact OK3|]. rewrite T2, T5. unfold s2.
    cbn [par lnode setRef setLoc option_map]. unfold upd. rewrite Nat.eqb_refl. auto.
  - exists 0, s. assert (W : w o = o).
    { pose proof (P8 o OI) as C. inversion C; [congruence|congruence]. }
    cbn [option_map]. rewrite W. auto 12.
Qed.
Lemma resolve_now w s n : OK w s -> In n (pool s) ->
  exists N s', (forall fuel, N <= fuel -> getForwardedTarget fuel s n = Some (s', w n)) /\
    OK w s' /\ In n (pool s').
Proof.
  intros H I. pose proof (ok_elim _ _ H) as (_ & _ & _ & _ & _ & _ & _ & P8).
  destruct (resolve_ok (fwd s) n (w n) (P8 n I) w s eq_refl H I) as (N & s1 & G & OK1 & _ & O1 & _).
  eauto 6.
Qed.
Lemma reach_real f p x : f p = None -> reach f p x -> p = x.
Proof. intros F. inversion 1; congruence. Qed.
Lemma setParent_ok w s n p : OK w s -> In n (pool s) -> In p (pool s) -> fwd s p = None -> n <> p ->
  (parentOf w s n = Some p -> unk s p = true \/ exists e, In e (locs s) /\ lnode s e = Some p) ->
  exists N s', (forall fuel, N <= fuel -> setParent fuel s n p = Some s') /\ OK w s'.
Proof.
  intros H I P FP NP HELD. pose proof (ok_elim _ _ H) as (P1 & P2 & P3 & P4 & P5 & P6 & P7 & P8).
  unfold setParent. rewrite (proj2 (alive_in s n) I).
  assert (FIN : forall s1, OK w s1 -> In n (pool s1) -> In p (pool s1) -> fwd s1 = fwd s ->
    exists s', (if alive s1 n then retain (setPar s1 n (Some p)) p else None) = Some s' /\ OK w s').
  { intros s1 H1 N1 Q1 F1. rewrite (proj2 (alive_in s1 n) N1). unfold retain.
    change (alive (setPar s1 n (Some p)) p) with (alive s1 p). rewrite (proj2 (alive_in s1 p) Q1).
    eexists. split; [reflexivity|].
    assert (NR : ~ reach (fwd s1) p n).
    { rewrite F1. intro R. apply (reach_real _ _ _ FP) in R. congruence. }
    exact (ok_setPar w s1 n p H1 N1 Q1 NR). }
  unfold parentOf in HELD. destruct (par s n) as [o|] eqn:PO.
  2:{ destruct (FIN s H I P eq_refl) as (s' & E & K). exists 0, s'. auto. }
  destruct (P3 n o I PO) as (OI & NR).
  pose proof (ok_clearPar w s n H I) as H0.
  assert (SL : count (setPar s n None) o < ref (setPar s n None) o).
  { pose proof (count_setPar s n None o P1 I) as CT. rewrite PO, is_self in CT.
    cbn [is b2n] in CT. cbn [ref setPar]. pose proof (P7 o OI). lia. }
  destruct (release_now w (setPar s n None) o H0 OI SL)
    as (N & s1 & RL & OK1 & (T1 & T2 & T3 & T4 & T5) & F1 & SUB & KEEP).
  assert (N1 : In n (pool s1)) by (apply KEEP; auto).
  assert (Q1 : In p (pool s1)).
  { pose proof (ok_elim _ _ OK1) as (_ & _ & _ & _ & Q5 & Q6 & _ & _).
    destruct (Nat.eq_dec (w o) p) as [E|NE].
    - cbn [option_map] in HELD. rewrite E in HELD. destruct (HELD eq_refl) as [U|(e & E1 & E2)].
      + apply Q6. now rewrite T3.
      + apply (Q5 e); [now rewrite T4|now rewrite T5].
    - apply KEEP; [exact P|]. cbn [fwd setPar]. intro R. apply NE.
      pose proof (chain_reach _ _ _ R _ (P8 o OI)) as C. inversion C; congruence. }
  (* the state which the code is in has the old parent of n yet *)
  assert (EX : exists s0, (forall fuel, N <= fuel -> release fuel s o = Some s0) /\
            s1 = setPar s0 n None).
  { pose proof (RL N (le_n N)) as R0. rewrite release_setPar in R0.
    destruct (release N s o) as [s0|] eqn:E0; [|discriminate]. cbn in R0. injection R0 as R0.
    exists (State (pool s1) (kinds s1) (par s) (fwd s1) (ref s1) (unk s1) (locs s1) (lnode s1)).
    split.
    - intros fuel FU. pose proof (RL fuel FU) as R1. rewrite release_setPar in R1.
      destruct (release fuel s o) as [z|] eqn:EZ; [|discriminate]. cbn in R1. injection R1 as R1.
      pose proof (proj1 (release_keeps _ _ _ _ EZ)) as PZ. rewrite <- R1, <- PZ. destruct z. reflexivity.
    - pose proof (proj1 (release_keeps _ _ _ _ E0)) as PZ. rewrite <- R0, <- PZ. destruct s0. reflexivity. }
  destruct EX as (s0 & RL0 & ->).
  destruct (FIN (setPar s0 n None) OK1 N1 Q1 F1) as (s' & E & K).
  exists N. 
  change (alive (setPar s0 n None) n) with (alive s0 n) in E.
  rewrite (proj2 (alive_in s0 n) N1) in E. unfold retain in *.
  change (alive (setPar (setPar s0 n None) n (Some p)) p) with (alive s0 p) in E.
  rewrite (proj2 (alive_in s0 p) Q1) in E. injection E as E.
  exists (setRef (setPar s0 n (Some p)) p (S (ref s0 p))). split.
  - intros fuel FU. rewrite RL0 by exact FU. rewrite (proj2 (alive_in s0 n) N1).
    change (alive (setPar s0 n (Some p)) p) with (alive s0 p).
    now rewrite (proj2 (alive_in s0 p) Q1).
  - subst s'. revert K. clear. intro K.
    pose proof (ok_elim _ _ K) as (Q1 & Q2 & Q3 & Q4 & Q5 & Q6 & Q7 & Q8).
    assert (PE : forall x, upd (upd (par s0) n None) n (Some p) x = upd (par s0) n (Some p) x).
    { intro x. unfold upd. now destruct (x =? n). }
    apply ok_intro; cbn [pool locs par fwd lnode unk ref setPar setRef] in *; auto.
    + intros m q M E. rewrite <- PE in E. auto.
    + intros x X. eapply Nat.le_trans; [|exact (Q7 x X)]. unfold count, handles.
      rewrite !live_nil. cbn [pool locs par fwd lnode unk setPar setRef].
      rewrite (cnt_ext _ _ _ _ (fun m _ => PE m)). apply le_n.
Qed.
Lemma setAliasNode_ok w s e p : OK w s -> In e (locs s) -> In p (pool s) -> fwd s p = None ->
  (option_map w (lnode s e) = Some p ->
     unk s p = true \/ exists m, real w s m /\ par s m = Some p) ->
  exists N s', (forall fuel, N <= fuel -> setAliasNode fuel s e p = Some s') /\ OK w s'.
Proof.
  intros H I P FP HELD. pose proof (ok_elim _ _ H) as (P1 & P2 & P3 & P4 & P5 & P6 & P7 & P8).
  unfold setAliasNode. destruct (lnode s e) as [o|] eqn:PO.
  2:{ exists 0. unfold retain. change (alive (setLoc s e (Some p)) p) with (alive s p).
      rewrite (proj2 (alive_in s p) P). eexists. split; [reflexivity|].
      exact (ok_setLoc w s e p H I P). }
  pose proof (P5 e o I PO) as OI.
  pose proof (ok_clearLoc w s e H I) as H0.
  assert (SL : count (setLoc s e None) o < ref (setLoc s e None) o).
  { pose proof (count_setLoc s e None o P2 I) as CT. rewrite PO, is_self in CT.
    cbn [is b2n] in CT. cbn [ref setLoc]. pose proof (P7 o OI). lia. }
  destruct (release_now w (setLoc s e None) o H0 OI SL)
    as (N & s1 & RL & OK1 & (T1 & T2 & T3 & T4 & T5) & F1 & SUB & KEEP).
  assert (Q1 : In p (pool s1)).
  { pose proof (ok_elim _ _ OK1) as (_ & _ & Q3 & _ & Q5 & Q6 & _ & _).
    destruct (Nat.eq_dec (w o) p) as [E|NE].
    - cbn [option_map] in HELD. rewrite E in HELD. destruct (HELD eq_refl) as [U|(m & M1 & M2)].
      + apply Q6. now rewrite T3.
      + destruct (ok_real _ _ _ H M1) as (M3 & M4).
        assert (MI : In m (pool s1)).
        { apply KEEP; [exact M3|]. cbn [fwd setLoc]. intro R.
          pose proof (chain_reach _ _ _ R _ (P8 o OI)) as C.
          assert (m = p) by (inversion C; congruence). subst m.
          apply (proj2 (P3 p p M3 M2)). constructor. }
        refine (proj1 (Q3 m p MI _)). now rewrite T2.
    - apply KEEP; [exact P|]. cbn [fwd setLoc]. intro R. apply NE.
      pose proof (chain_reach _ _ _ R _ (P8 o OI)) as C. inversion C; congruence. }
  assert (EX : exists s0, (forall fuel, N <= fuel -> release fuel s o = Some s0) /\
            s1 = setLoc s0 e None).
  { pose proof (RL N (le_n N)) as R0. rewrite release_setLoc in R0.
    destruct (release N s o) as [s0|] eqn:E0; [|discriminate]. cbn in R0. injection R0 as R0.
    exists (State (pool s1) (kinds s1) (par s1) (fwd s1) (ref s1) (unk s1) (locs s1) (lnode s)).
    split.
    - intros fuel FU. pose proof (RL fuel FU) as R1. rewrite release_setLoc in R1.
      destruct (release fuel s o) as [z|] eqn:EZ; [|discriminate]. cbn in R1. injection R1 as R1.
      pose proof (proj2 (release_keeps _ _ _ _ EZ)) as PZ. rewrite <- R1, <- PZ. destruct z. reflexivity.
    - pose proof (proj2 (release_keeps _ _ _ _ E0)) as PZ. rewrite <- R0, <- PZ. destruct s0. reflexivity. }
  destruct EX as (s0 & RL0 & ->).
  assert (IE : In e (locs s0)) by (cbn [locs setLoc] in T4; now rewrite T4).
  pose proof (ok_setLoc w _ e p OK1 IE Q1) as K.
  exists N, (setRef (setLoc s0 e (Some p)) p (S (ref s0 p))). split.
  - intros fuel FU. rewrite RL0 by exact FU. unfold retain.
    change (alive (setLoc s0 e (Some p)) p) with (alive s0 p).
    now rewrite (proj2 (alive_in s0 p) Q1).
  - revert K. clear. intro K.
    pose proof (ok_elim _ _ K) as (Q1 & Q2 & Q3 & Q4 & Q5 & Q6 & Q7 & Q8).
    assert (PE : forall x, upd (upd (lnode s0) e None) e (Some p) x = upd (lnode s0) e (Some p) x).
    { intro x. unfold upd. now destruct (x =? e). }
    apply ok_intro; cbn [pool locs par fwd lnode unk ref setLoc setRef] in *; auto.
    + intros m q M E. rewrite <- PE in E. eauto.
    + intros x X. eapply Nat.le_trans; [|exact (Q7 x X)]. unfold count, handles.
      rewrite !live_nil. cbn [pool locs par fwd lnode unk setLoc setRef].
      rewrite (cnt_ext _ _ _ _ (fun m _ => PE m)). apply le_n.
Qed.

Lemma reach_upd_none f n : forall x y, reach (upd f n None) x y -> reach f x y.
Proof.
  induction 1 as [x|x z y X Z IH]; [constructor|]. unfold upd in X.
  destruct (x =? n); [discriminate|]. now apply reachStep with z.
Qed.
Lemma makeNode_ok w s n k p : OK w s -> ~ In n (pool s) -> real w s p ->
  exists N s', (forall fuel, N <= fuel -> makeNode fuel s n k p = Some s') /\
    OK (fun x => if x =? n then n else w x) s'.
Proof.
  intros H NI RP. destruct (ok_real _ _ _ H RP) as (P & FP).
  pose proof (ok_elim _ _ H) as (P1 & P2 & P3 & P4 & P5 & P6 & P7 & P8).
  unfold makeNode. destruct (alive s n) eqn:AL; [apply alive_in in AL; tauto|].
  set (t := setPool (setUnk (setRef (setFwd (setPar (setKind s n k) n None) n None) n 0) n false)
              (pool s ++ [n])).
  set (w' := fun x => if x =? n then n else w x).
  assert (TP : pool t = pool s ++ [n]) by reflexivity.
  assert (TI : forall x, In x (pool t) <-> In x (pool s) \/ x = n).
  { intro x. rewrite TP, in_app_iff. cbn. intuition. }
  assert (NE : forall x, In x (pool s) -> (x =? n) = false).
  { intros x X. apply Nat.eqb_neq. intro; subst; tauto. }
  assert (OKT : OK w' t).
  { apply ok_intro.
    - rewrite TP. apply NoDup_app_iff_local; auto.
    - exact P2.
    - intros m q M E. apply TI in M. cbn [par t setPool setUnk setRef setFwd setPar setKind] in E.
      unfold upd in E. destruct M as [M|M]; [|subst m; rewrite Nat.eqb_refl in E; discriminate].
      rewrite (NE m M) in E. destruct (P3 m q M E) as (A & B). split; [apply TI; auto|].
      intro R. apply B. exact (reach_upd_none _ _ _ _ R).
    - intros m q M E. apply TI in M. cbn [fwd t setPool setUnk setRef setFwd setPar setKind] in E.
      unfold upd in E. destruct M as [M|M]; [|subst m; rewrite Nat.eqb_refl in E; discriminate].
      rewrite (NE m M) in E. apply TI. eauto.
    - intros e q IE E. apply TI. left. exact (P5 e q IE E).
    - intros x U. cbn [unk t setPool setUnk setRef setFwd setPar setKind] in U. unfold upd in U.
      destruct (x =? n); [discriminate|]. apply TI. auto.
    - intros x X. apply TI in X.
      assert (CP : cnt (upd (par s) n None) x (pool s ++ [n]) = cnt (par s) x (pool s)).
      { unfold cnt. rewrite filter_app, app_length. cbn [filter length]. unfold upd at 2.
        rewrite Nat.eqb_refl. cbn [is length]. rewrite Nat.add_0_r. apply cnt_ext.
        intros m M. unfold upd. now rewrite (NE m M). }
      assert (CF : cnt (upd (fwd s) n None) x (pool s ++ [n]) = cnt (fwd s) x (pool s)).
      { unfold cnt. rewrite filter_app, app_length. cbn [filter length]. unfold upd at 2.
        rewrite Nat.eqb_refl. cbn [is length]. rewrite Nat.add_0_r. apply cnt_ext.
        intros m M. unfold upd. now rewrite (NE m M). }
      unfold count, handles. rewrite live_nil.
      cbn [pool par fwd lnode locs unk ref t setPool setUnk setRef setFwd setPar setKind].
      unfold node in *. rewrite CP, CF.
      destruct X as [X| ->].
      + unfold upd. rewrite (NE x X). pose proof (P7 x X) as Q. unfold count, handles in Q.
        rewrite live_nil in Q. exact Q.
      + rewrite (cnt_zero (par s)) by (intros m M E; apply NI; exact (proj1 (P3 m n M E))).
        rewrite (cnt_zero (fwd s)) by (intros m M E; apply NI; exact (P4 m n M E)).
        rewrite (cnt_zero (lnode s)) by (intros m M E; apply NI; exact (P5 m n M E)).
        unfold upd. rewrite Nat.eqb_refl. cbn. lia.
    - intros x X. apply TI in X. cbn [fwd t setPool setUnk setRef setFwd setPar setKind]. unfold w'.
      destruct X as [X| ->].
      + rewrite (NE x X). pose proof (P8 x X) as C. revert X. induction C as [x E|x y r E C IH]; intro X.
        * apply chainEnd. unfold upd. now rewrite (NE x X).
        * apply chainStep with y; [unfold upd; now rewrite (NE x X)|]. apply IH. exact (P4 x y X E).
      + rewrite Nat.eqb_refl. apply chainEnd. unfold upd. now rewrite Nat.eqb_refl. }
  apply (setParent_ok w' t n p OKT).
  - apply TI; auto.
  - apply TI; auto.
  - cbn [fwd t setPool setUnk setRef setFwd setPar setKind]. unfold upd. rewrite (NE p P). exact FP.
  - intro; subst; tauto.
  - unfold parentOf. cbn [par t setPool setUnk setRef setFwd setPar setKind]. unfold upd.
    rewrite Nat.eqb_refl. discriminate.
Qed.

Lemma target_ok w s n r : OK w s -> chain (fwd s) n r -> In n (pool s) ->
  exists N, forall fuel, N <= fuel -> target fuel s n = Some r.
Proof.
  intros H C. pose proof (ok_elim _ _ H) as (_ & _ & _ & P4 & _).
  induction C as [x E|x y r E C IH]; intro I.
  - exists 1. intros [|fuel] FU; [lia|]. cbn. now rewrite (proj2 (alive_in s x) I), E.
  - destruct (IH (P4 x y I E)) as (N & R). exists (S N). intros [|fuel] FU; [lia|]. cbn.
    rewrite (proj2 (alive_in s x) I), E. apply R. lia.
Qed.
Lemma parentTarget_ok w s n : OK w s -> In n (pool s) ->
  exists N, forall fuel, N <= fuel -> parentTarget fuel s n = Some (parentOf w s n).
Proof.
  intros H I. pose proof (ok_elim _ _ H) as (_ & _ & P3 & _ & _ & _ & _ & P8).
  unfold parentTarget, parentOf. destruct (par s n) as [o|] eqn:E.
  - destruct (P3 n o I E) as (OI & _). destruct (target_ok w s o _ H (P8 o OI) OI) as (N & R).
    exists N. intros fuel FU. cbn. now rewrite R.
  - exists 0. auto.
Qed.
Lemma same_refl x : same (Some x) (Some x) = true.
Proof. destruct x; cbn; [apply Nat.eqb_refl|reflexivity]. Qed.
Lemma kind_eqb_refl k : kind_eqb k k = true.
Proof. now destruct k. Qed.
Lemma chain_link f an n : f an = None -> f n = None -> an <> n ->
  forall x r, chain f x r -> chain (upd f an (Some n)) x (if r =? an then n else r).
Proof.
  intros A N NE. induction 1 as [x E|x y r E C IH].
  - destruct (Nat.eqb_spec x an) as [->|X].
    + apply chainStep with n; [unfold upd; now rewrite Nat.eqb_refl|]. apply chainEnd.
      unfold upd. destruct (Nat.eqb_spec n an); [congruence|exact N].
    + apply chainEnd. unfold upd. destruct (Nat.eqb_spec x an); [congruence|exact E].
  - apply chainStep with y; [|exact IH]. unfold upd. destruct (Nat.eqb_spec x an); [congruence|exact E].
Qed.
Lemma reach_link f an n x y : reach (upd f an (Some n)) x y ->
  reach f x y \/ (reach f x an /\ reach (upd f an (Some n)) n y).
Proof.
  induction 1 as [x|x z y E R IH]; [left; constructor|]. unfold upd in E.
  destruct (Nat.eqb_spec x an) as [->|X].
  - injection E as <-. right. split; [constructor|exact R].
  - destruct IH as [IH|(IH1 & IH2)]; [left|right; split; [|exact IH2]]; now apply reachStep with z.
Qed.
Lemma ok_link w s n an : OK w s -> real w s n -> real w s an -> n <> an ->
  parentOf w s n <> Some an ->
  OK (fun x => if w x =? an then n else w x)
     (setRef (setFwd s an (Some n)) n (S (ref s n))).
Proof.
  intros H RN RA NE NP. destruct (ok_real _ _ _ H RN) as (NI & NF), (ok_real _ _ _ H RA) as (AI & AF).
  pose proof (ok_elim _ _ H) as (P1 & P2 & P3 & P4 & P5 & P6 & P7 & P8).
  apply ok_intro; cbn [pool locs par fwd lnode unk ref setFwd setRef]; auto.
  - intros m p M P. destruct (P3 m p M P) as (A & B). split; [exact A|]. intro R.
    apply reach_link in R as [R|(R1 & R2)]; [tauto|].
    assert (n = m) as <-.
    { apply (reach_real _ _ _) in R2; [exact R2|]. unfold upd. destruct (Nat.eqb_spec n an); [congruence|exact NF]. }
    apply NP. unfold parentOf. rewrite P. cbn. f_equal.
    pose proof (chain_reach _ _ _ R1 _ (P8 p A)) as C. inversion C; congruence.
  - intros m t M T. unfold upd in T. destruct (m =? an); [|eauto]. now injection T as <-.
  - intros x X. rewrite count_setRef. pose proof (count_setFwd s an (Some n) x P1 AI) as CT.
    rewrite AF in CT. cbn [is b2n] in CT. pose proof (P7 x X). rewrite Nat.eqb_sym in CT.
    unfold upd. destruct (x =? n) eqn:Q; cbn [b2n] in CT; [|lia].
    apply Nat.eqb_eq in Q. subst x. lia.
  - intros x X. apply (chain_link _ _ _ AF NF); auto.
Qed.
Lemma merge_ok w s n an : OK w s -> allowed w s (OMerge n an) ->
  exists N s', (forall fuel, N <= fuel -> mergeNodeIn fuel s n an = Some s') /\
    OK (fun x => if w x =? an then n else w x) s'.
Proof.
  intros H (RN & RA & NE & KE & (p & PA & PN & PP) & NP).
  destruct (ok_real _ _ _ H RN) as (NI & NF), (ok_real _ _ _ H RA) as (AI & AF).
  pose proof (ok_link w s n an H RN RA NE NP) as H1.
  set (w' := fun x => if w x =? an then n else w x) in *.
  set (s1 := setRef (setFwd s an (Some n)) n (S (ref s n))) in *.
  destruct (parentTarget_ok w s an H AI) as (N1 & T1), (parentTarget_ok w s n H NI) as (N2 & T2).
  destruct (getParent_ok w' s1 an H1 AI) as (N3 & s2 & G & OK2 & AI2 & PR & K2 & U2 & L2 & LN2).
  assert (PE : exists q, parentOf w' s1 an = Some q).
  { unfold parentOf in *. change (par s1) with (par s). destruct (par s an); [eexists; reflexivity|discriminate]. }
  destruct PE as (q & PQ).
  pose proof (ok_elim _ _ OK2) as (Q1 & Q2 & Q3 & Q4 & Q5 & Q6 & Q7 & Q8).
  assert (QI : In q (pool s2)).
  { refine (proj1 (Q3 an q AI2 _)). now rewrite PR. }
  assert (NI2 : In n (pool s2)).
  { pose proof (proj1 (ok_end _ _ _ OK2 AI2)) as E. unfold w' in E at 1.
    destruct RA as (_ & RA). rewrite RA, Nat.eqb_refl in E. exact E. }
  assert (IMP : forall fuel, N1 + N2 + N3 <= fuel -> mergeNodeInImp fuel s n an = Some s2).
  { intros fuel FU. unfold mergeNodeInImp, isForwarding. rewrite NF, AF.
    rewrite (proj2 (alive_in s n) NI), (proj2 (alive_in s an) AI), KE, kind_eqb_refl.
    rewrite T1, T2 by lia.
    assert (SM : same (Some (parentOf w s an)) (Some (parentOf w s n)) ||
                 same (Some (parentOf w s an)) (Some (Some n)) = true).
    { rewrite PA. destruct PP as [->|E]; [|now rewrite E, same_refl]. now rewrite same_refl, orb_true_r. }
    rewrite SM. destruct (Nat.eqb_spec an n); [congruence|]. cbn [andb negb].
    unfold retain. change (alive (setFwd s an (Some n)) n) with (alive s n).
    rewrite (proj2 (alive_in s n) NI). change (ref (setFwd s an (Some n)) n) with (ref s n). fold s1.
    rewrite G by lia. rewrite PQ.
    now rewrite (proj2 (alive_in s2 q) QI), (proj2 (alive_in s2 an) AI2). }
  assert (DONE : forall f', (forall fuel, N1 + N2 + N3 <= fuel -> mergeNodeIn fuel s n an = f' fuel) ->
     (exists N s', (forall fuel, N <= fuel -> f' fuel = Some s') /\ OK w' s') ->
     exists N s', (forall fuel, N <= fuel -> mergeNodeIn fuel s n an = Some s') /\ OK w' s').
  { intros f' E (N & s' & R & K). exists (N1 + N2 + N3 + N), s'. split; [|exact K].
    intros fuel FU. rewrite E by lia. apply R. lia. }
  destruct (match kinds s2 n with KUnknown => true | _ => false end && unk s2 an) eqn:KU.
  2:{ apply (DONE (fun _ => Some s2)); [|exists 0, s2; auto].
      intros fuel FU. unfold mergeNodeIn. rewrite (IMP fuel FU).
      destruct (kinds s2 n); try reflexivity. cbn [andb] in KU. rewrite KU. now destruct (unk s2 n). }
  apply andb_true_iff in KU as (KU & UA).
  assert (ANE : an <> n) by congruence.
  destruct (unk s2 n) eqn:UN.
  - (* both are not empty *)
    set (t := setUnk s2 an false).
    assert (CT : forall x, count t x + b2n (x =? an) = count s2 x).
    { intro x. pose proof (count_setUnk s2 an false x) as C. rewrite UA in C. cbn [andb b2n] in C.
      unfold t. lia. }
    assert (OKT : OK w' t).
    { apply ok_intro; cbn [pool locs par fwd lnode unk ref t setUnk]; auto.
      - intros x U. unfold upd in U. destruct (x =? an); [discriminate|auto].
      - intros x X. pose proof (CT x). pose proof (Q7 x X). lia. }
    assert (SL : count t an < ref t an).
    { pose proof (CT an) as C. rewrite Nat.eqb_refl in C. cbn [b2n] in C.
      pose proof (Q7 an AI2). cbn [ref t setUnk]. lia. }
    destruct (release_now w' t an OKT AI2 SL) as (N & s' & R & K & _).
    apply (DONE (fun fuel => release fuel t an)); [|exists N, s'; auto].
    intros fuel FU. unfold mergeNodeIn. rewrite (IMP fuel FU).
    destruct (kinds s2 n); try discriminate. now rewrite UN, UA.
  - (* accesses of an are moved *)
    set (t := setRef (setUnk (setUnk s2 n true) an false) n (S (ref s2 n))).
    assert (CT : forall x, count t x + b2n (x =? an) = count s2 x + b2n (x =? n)).
    { intro x. unfold t. rewrite count_setRef.
      pose proof (count_setUnk (setUnk s2 n true) an false x) as C1.
      pose proof (count_setUnk s2 n true x) as C2.
      cbn [unk setUnk] in C1. unfold upd in C1 at 1. revert C1.
      destruct (Nat.eqb_spec an n); [congruence|]. rewrite UA. rewrite UN in C2.
      cbn [andb b2n] in *. lia. }
    assert (RT : forall x, ref t x = ref s2 x + b2n (x =? n)).
    { intro x. cbn [ref t setRef setUnk]. unfold upd. destruct (Nat.eqb_spec x n); cbn [b2n]; [subst|]; lia. }
    assert (OKT : OK w' t).
    { apply ok_intro; cbn [pool locs par fwd lnode unk t setUnk setRef]; auto.
      - intros x U. unfold upd in U. destruct (x =? an); [discriminate|].
        destruct (Nat.eqb_spec x n); [now subst|auto].
      - intros x X. pose proof (CT x). pose proof (Q7 x X). rewrite RT. lia. }
    assert (SL : count t an < ref t an).
    { pose proof (CT an) as C. rewrite Nat.eqb_refl in C. rewrite RT.
      destruct (Nat.eqb_spec an n); [congruence|]. cbn [b2n] in *.
      pose proof (Q7 an AI2). lia. }
    destruct (release_now w' t an OKT AI2 SL) as (N & s' & R & K & _).
    apply (DONE (fun fuel => release fuel t an)); [|exists N, s'; auto].
    intros fuel FU. unfold mergeNodeIn. rewrite (IMP fuel FU).
    destruct (kinds s2 n); try discriminate. rewrite UN, UA. cbn [negb]. unfold retain.
    change (alive (setUnk (setUnk s2 n true) an false) n) with (alive s2 n).
    now rewrite (proj2 (alive_in s2 n) NI2).
Qed.
Lemma pushUnknown_ok w s n : OK w s -> In n (pool s) ->
  exists s', pushUnknown s n = Some s' /\ OK w s'.
Proof.
  intros H I. unfold pushUnknown, retain. rewrite (proj2 (alive_in s n) I).
  pose proof (ok_elim _ _ H) as (P1 & P2 & P3 & P4 & P5 & P6 & P7 & P8).
  destruct (unk s n) eqn:U; (eexists; split; [reflexivity|]);
    (apply ok_intro; cbn [pool locs par fwd lnode unk ref setUnk setRef]; auto;
     [intros x X; unfold upd in X; destruct (Nat.eqb_spec x n); [now subst|auto]|]).
  - intros x X. pose proof (count_setUnk s n true x) as C. rewrite U in C. pose proof (P7 x X). lia.
  - intros x X. pose proof (count_setUnk (setRef s n (S (ref s n))) n true x) as C.
    cbn [unk setRef] in C. rewrite U in C. rewrite count_setRef in C. pose proof (P7 x X).
    unfold upd. cbn [andb b2n] in C. destruct (Nat.eqb_spec x n); cbn [b2n] in C; [subst|]; lia.
Qed.

Lemma step_ok w s o : OK w s -> allowed w s o ->
  exists N s', (forall fuel, N <= fuel -> step fuel s o = Some s') /\ OK (merged w o) s'.
Proof.
  intros H A. destruct o as [n k p|n p|n an|n|e n|e|n|n]; cbn [step merged].
  - destruct A. now apply makeNode_ok.
  - destruct A as (RN & RP & NE & HE). destruct (ok_real _ _ _ H RN), (ok_real _ _ _ H RP).
    now apply setParent_ok.
  - now apply merge_ok.
  - destruct A as (A & _). destruct (pushUnknown_ok w s n H A) as (s' & E & K). exists 0, s'. auto.
  - destruct A as (IE & RN & HE). destruct (ok_real _ _ _ H RN). now apply setAliasNode_ok.
  - destruct (getAliasNode_ok w s e H A) as (N & s' & G & K & _). exists N, s'.
    split; [|exact K]. intros fuel FU. now rewrite G.
  - destruct (getParent_ok w s n H A) as (N & s' & G & K & _). exists N, s'.
    split; [|exact K]. intros fuel FU. now rewrite G.
  - destruct (resolve_now w s n H A) as (N & s' & G & K & _). exists N, s'.
    split; [|exact K]. intros fuel FU. now rewrite G.
Qed.
Lemma initial_ok ls : NoDup ls -> OK (fun x => x) (initial ls).
Proof.
  intro ND. apply ok_intro; cbn [pool locs par fwd lnode unk ref initial]; try discriminate; auto.
  - repeat constructor; easy.
  - intros n _. unfold count, handles. cbn [par fwd lnode locs unk initial].
    rewrite !cnt_zero by discriminate. apply le_n.
  - intros n _. now apply chainEnd.
Qed.

(** ** Locations and parents *)
Lemma release_frame fuel : forall s o z, release fuel s o = Some z ->
  par z = par s /\ lnode z = lnode s /\ locs z = locs s /\ incl (pool z) (pool s).
Proof.
  induction fuel as [|fuel IH]; intros s o z Z; [discriminate|].
  cbn [release] in Z. destruct (alive s o); [|discriminate].
  destruct (ref s o) as [|r]; [discriminate|].
  destruct (r =? 0); [|injection Z as <-; cbn; auto using incl_refl].
  assert (WI : forall l, incl (without o l) l) by (intros l x X; now apply in_without in X).
  destruct (fwd (setRef s o r) o) as [m|]; [|injection Z as <-; cbn; auto].
  destruct (release fuel (setRef s o r) m) as [z'|] eqn:Q; [|discriminate].
  destruct (alive z' o); [|discriminate]. injection Z as <-.
  destruct (IH _ _ _ Q) as (A & B & C & D). cbn [par lnode locs pool setPool].
  split; [exact A|]. split; [exact B|]. split; [exact C|].
  exact (incl_tran (WI _) D).
Qed.
Lemma retain_frame s n z : retain s n = Some z ->
  par z = par s /\ lnode z = lnode s /\ locs z = locs s /\ incl (pool z) (pool s).
Proof.
  unfold retain. destruct (alive s n); [|discriminate]. intro E. injection E as <-.
  cbn. auto using incl_refl.
Qed.
Lemma resolve_frame fuel : forall s o z d, getForwardedTarget fuel s o = Some (z, d) ->
  par z = par s /\ lnode z = lnode s /\ locs z = locs s /\ incl (pool z) (pool s).
Proof.
  induction fuel as [|fuel IH]; intros s o z d Z; [discriminate|].
  cbn [getForwardedTarget] in Z. destruct (alive s o); [|discriminate].
  destruct (fwd s o) as [m|]; [|injection Z as <- <-; auto using incl_refl].
  destruct (getForwardedTarget fuel s m) as [(s1 & d1)|] eqn:G; [|discriminate].
  destruct (IH _ _ _ _ G) as (A & B & C & D).
  destruct (d1 =? m); [injection Z as <- <-; auto|].
  destruct (retain s1 d1) as [s2|] eqn:R; [|discriminate].
  destruct (release fuel s2 m) as [s3|] eqn:RL; [|discriminate].
  destruct (alive s3 o); [|discriminate]. injection Z as <- <-.
  apply retain_frame in R as (A1 & B1 & C1 & D1). apply release_frame in RL as (A2 & B2 & C2 & D2).
  cbn [par lnode locs pool setFwd]. repeat (split; [congruence|]).
  exact (incl_tran D2 (incl_tran D1 D)).
Qed.
Lemma getParent_frame fuel s n z r : getParent fuel s n = Some (z, r) ->
  lnode z = lnode s /\ locs z = locs s /\ incl (pool z) (pool s) /\
  (forall m, par z m = par s m \/ (m = n /\ par z m = r)).
Proof.
  unfold getParent. destruct (par s n) as [o|]; [|intro Z; injection Z as <- <-; auto using incl_refl].
  destruct (alive s o); [|discriminate].
  destruct (isForwarding s o); [|intro Z; injection Z as <- <-; auto using incl_refl].
  destruct (getForwardedTarget fuel s o) as [(s1 & d)|] eqn:G; [|discriminate].
  destruct (alive s1 n); [|discriminate].
  destruct (retain (setPar s1 n (Some d)) d) as [s2|] eqn:R; [|discriminate].
  destruct (release fuel s2 o) as [s3|] eqn:RL; [|discriminate]. cbn [option_map].
  intro Z. injection Z as <- <-.
  apply resolve_frame in G as (A & B & C & D).
  apply retain_frame in R as (A1 & B1 & C1 & D1). apply release_frame in RL as (A2 & B2 & C2 & D2).
  cbn [par lnode locs pool setPar] in A1, B1, C1, D1.
  split; [congruence|]. split; [congruence|]. split; [exact (incl_tran D2 (incl_tran D1 D))|].
  intro m. rewrite A2, A1. unfold upd. destruct (Nat.eqb_spec m n); [now right|left; now rewrite A].
Qed.
Lemma getAliasNode_frame fuel s n z r : getAliasNode fuel s n = Some (z, r) ->
  par z = par s /\ locs z = locs s /\ incl (pool z) (pool s) /\
  (forall m, lnode z m = lnode s m \/ (m = n /\ lnode z m = r)).
Proof.
  unfold getAliasNode. destruct (lnode s n) as [o|]; [|intro Z; injection Z as <- <-; auto using incl_refl].
  destruct (alive s o); [|discriminate].
  destruct (isForwarding s o); [|intro Z; injection Z as <- <-; auto using incl_refl].
  destruct (getForwardedTarget fuel s o) as [(s1 & d)|] eqn:G; [|discriminate].
  destruct (retain (setLoc s1 n (Some d)) d) as [s2|] eqn:R; [|discriminate].
  destruct (release fuel s2 o) as [s3|] eqn:RL; [|discriminate]. cbn [option_map].
  intro Z. injection Z as <- <-.
  apply resolve_frame in G as (A & B & C & D).
  apply retain_frame in R as (A1 & B1 & C1 & D1). apply release_frame in RL as (A2 & B2 & C2 & D2).
  cbn [par lnode locs pool setLoc] in A1, B1, C1, D1.
  split; [congruence|]. split; [congruence|]. split; [exact (incl_tran D2 (incl_tran D1 D))|].
  intro m. rewrite B2, B1. unfold upd. destruct (Nat.eqb_spec m n); [now right|left; now rewrite B].
Qed.
Lemma setParent_frame fuel s n p z : setParent fuel s n p = Some z ->
  lnode z = lnode s /\ locs z = locs s /\ incl (pool z) (pool s) /\ par z = upd (par s) n (Some p).
Proof.
  unfold setParent. destruct (alive s n); [|discriminate].
  assert (FIN : forall s1, par s1 = par s /\ lnode s1 = lnode s /\ locs s1 = locs s /\ incl (pool s1) (pool s) ->
    (if alive s1 n then retain (setPar s1 n (Some p)) p else None) = Some z ->
    lnode z = lnode s /\ locs z = locs s /\ incl (pool z) (pool s) /\ par z = upd (par s) n (Some p)).
  { intros s1 (A & B & C & D) Z. destruct (alive s1 n); [|discriminate].
    apply retain_frame in Z as (A1 & B1 & C1 & D1). cbn [par lnode locs pool setPar] in A1, B1, C1, D1.
    split; [congruence|]. split; [congruence|]. split; [exact (incl_tran D1 D)|]. now rewrite A1, A. }
  destruct (par s n) as [o|].
  - destruct (release fuel s o) as [s1|] eqn:R; [|discriminate]. apply FIN. exact (release_frame _ _ _ _ R).
  - apply FIN. auto using incl_refl.
Qed.
Lemma setAliasNode_frame fuel s e n z : setAliasNode fuel s e n = Some z ->
  par z = par s /\ locs z = locs s /\ incl (pool z) (pool s) /\ lnode z = upd (lnode s) e (Some n).
Proof.
  unfold setAliasNode.
  assert (FIN : forall s1, par s1 = par s /\ lnode s1 = lnode s /\ locs s1 = locs s /\ incl (pool s1) (pool s) ->
    retain (setLoc s1 e (Some n)) n = Some z ->
    par z = par s /\ locs z = locs s /\ incl (pool z) (pool s) /\ lnode z = upd (lnode s) e (Some n)).
  { intros s1 (A & B & C & D) Z.
    apply retain_frame in Z as (A1 & B1 & C1 & D1). cbn [par lnode locs pool setLoc] in A1, B1, C1, D1.
    split; [congruence|]. split; [congruence|]. split; [exact (incl_tran D1 D)|]. now rewrite B1, B. }
  destruct (lnode s e) as [o|].
  - destruct (release fuel s o) as [s1|] eqn:R; [|discriminate]. apply FIN. exact (release_frame _ _ _ _ R).
  - apply FIN. auto using incl_refl.
Qed.
Lemma pushUnknown_frame s n z : pushUnknown s n = Some z ->
  par z = par s /\ lnode z = lnode s /\ locs z = locs s /\ incl (pool z) (pool s).
Proof.
  unfold pushUnknown. destruct (alive s n) eqn:AL; [|discriminate].
  destruct (unk s n); [intro Z; injection Z as <-; cbn; auto using incl_refl|].
  unfold retain. rewrite AL. intro Z; injection Z as <-; cbn; auto using incl_refl.
Qed.
Lemma mergeNodeIn_frame fuel s n an z : mergeNodeIn fuel s n an = Some z ->
  lnode z = lnode s /\ locs z = locs s /\ incl (pool z) (pool s) /\
  exists z' r, getParent fuel (setRef (setFwd s an (Some n)) n (S (ref s n))) an = Some (z', r) /\
    par z = par z'.
Proof.
  unfold mergeNodeIn, mergeNodeInImp.
  match goal with |- context [if ?b then _ else _] => destruct b; [|discriminate] end.
  destruct (retain (setFwd s an (Some n)) n) as [s1|] eqn:R; [|discriminate].
  assert (S1 : s1 = setRef (setFwd s an (Some n)) n (S (ref s n))).
  { unfold retain in R. destruct (alive (setFwd s an (Some n)) n); [|discriminate]. now injection R as <-. }
  destruct (getParent fuel s1 an) as [(s2 & [p|])|] eqn:G; try discriminate.
  destruct (alive s2 p && alive s2 an); [|discriminate].
  rewrite <- S1. pose proof (getParent_frame _ _ _ _ _ G) as (B & C & D & _).
  rewrite S1 in B, C, D. cbn [lnode locs pool setRef setFwd] in B, C, D.
  assert (FIN : par z = par s2 /\ lnode z = lnode s2 /\ locs z = locs s2 /\ incl (pool z) (pool s2) ->
    lnode z = lnode s /\ locs z = locs s /\ incl (pool z) (pool s) /\
    exists z' r, getParent fuel s1 an = Some (z', r) /\ par z = par z').
  { intros (A1 & B1 & C1 & D1). split; [congruence|]. split; [congruence|].
    split; [exact (incl_tran D1 D)|]. exists s2, (Some p). auto. }
  intro Z. apply FIN. clear FIN.
  destruct (kinds s2 n); try (injection Z as <-; auto using incl_refl; fail).
  destruct (negb (unk s2 n)); destruct (unk s2 an); try (injection Z as <-; auto using incl_refl; fail).
  - destruct (retain (setUnk (setUnk s2 n true) an false) n) as [s3|] eqn:R3; [|discriminate].
    apply retain_frame in R3 as (A1 & B1 & C1 & D1). apply release_frame in Z as (A2 & B2 & C2 & D2).
    cbn [par lnode locs pool setUnk] in A1, B1, C1, D1.
    repeat (split; [congruence|]). exact (incl_tran D2 D1).
  - exact (release_frame _ _ _ _ Z).
Qed.

Definition tracked (w : into) (s : state) (a : loc -> option node) (b : node -> option node) : Prop :=
  (forall e, In e (locs s) -> option_map w (lnode s e) = a e) /\
  (forall n, In n (pool s) -> option_map w (par s n) = b n).
Lemma w_idem w s n : OK w s -> In n (pool s) -> w (w n) = w n.
Proof.
  intros H I. destruct (ok_end _ _ _ H I) as (A & B).
  pose proof (ok_elim _ _ H) as (_ & _ & _ & _ & _ & _ & _ & P8).
  pose proof (P8 _ A) as C. inversion C; congruence.
Qed.
Lemma merged_map (w : into) (n an : node) (x : option node) : option_map (fun x => if w x =? an then n else w x) x =
  if same (Some (option_map w x)) (Some (Some an)) then Some n else option_map w x.
Proof. destruct x as [x|]; cbn; [|reflexivity]. now destruct (w x =? an). Qed.
Lemma step_tracks w s o s' fuel a b : OK w s -> allowed w s o -> step fuel s o = Some s' ->
  (forall r z, o = OMerge r z -> forall z' q,
     getParent fuel (setRef (setFwd s z (Some r)) r (S (ref s r))) z = Some (z', q) ->
     q = parentOf (merged w o) s z) ->
  (forall n z q, o = OGetParent n -> getParent fuel s n = Some (z, q) -> q = parentOf w s n) ->
  (forall e z q, o = OGetAliasNode e -> getAliasNode fuel s e = Some (z, q) ->
     q = option_map w (lnode s e)) ->
  tracked w s a b -> tracked (merged w o) s' (located a o) (lifted b o) /\ locs s' = locs s.
Proof.
  intros H A ST HM HP HA (TA & TB).
  pose proof (ok_elim _ _ H) as (P1 & P2 & P3 & P4 & P5 & P6 & P7 & P8).
  assert (SIMPLE : par s' = par s /\ lnode s' = lnode s /\ locs s' = locs s /\ incl (pool s') (pool s) ->
    tracked w s' a b /\ locs s' = locs s).
  { intros (A1 & B1 & C1 & D1). split; [|exact C1]. split.
    - intros e IE. rewrite B1. apply TA. now rewrite <- C1.
    - intros x X. rewrite A1. auto. }
  destruct o as [n k p|n p|n an|n|e n|e|n|n]; cbn [step merged located lifted] in *.
  - (* make *)
    unfold makeNode in ST. destruct (alive s n) eqn:AL; [discriminate|].
    apply setParent_frame in ST as (B1 & C1 & D1 & A1).
    cbn [par lnode locs pool setPool setUnk setRef setFwd setPar setKind] in A1, B1, C1, D1.
    destruct A as (NI & RP). split; [|exact C1]. split.
    + intros e IE. rewrite C1 in IE. rewrite B1, <- (TA e IE).
      destruct (lnode s e) as [x|] eqn:LE; [|reflexivity]. cbn. pose proof (P5 e x IE LE) as XI.
      destruct (Nat.eqb_spec x n); [subst; tauto|reflexivity].
    + intros x X. apply D1, in_app_iff in X. rewrite A1. unfold upd.
      destruct (Nat.eqb_spec x n) as [->|XN].
      * cbn. destruct RP as (PI & RP). destruct (Nat.eqb_spec p n); [subst; tauto|]. now rewrite RP.
      * destruct X as [X|[X|[]]]; [|congruence]. rewrite <- (TB x X).
        destruct (par s x) as [q|] eqn:PX; [|reflexivity]. cbn. pose proof (proj1 (P3 x q X PX)) as QI.
        destruct (Nat.eqb_spec q n); [subst; tauto|reflexivity].
  - apply setParent_frame in ST as (B1 & C1 & D1 & A1). split; [|exact C1]. split.
    + intros e IE. rewrite B1. apply TA. now rewrite <- C1.
    + intros x X. rewrite A1. unfold upd. destruct (x =? n); [|auto].
      cbn. destruct A as (_ & (_ & RP) & _). now rewrite RP.
  - (* merge *)
    apply mergeNodeIn_frame in ST as (B1 & C1 & D1 & z' & r & G & A1).
    specialize (HM n an eq_refl z' r G).
    apply getParent_frame in G as (_ & _ & _ & PZ). cbn [par setRef setFwd] in PZ.
    split; [|exact C1]. split.
    + intros e IE. rewrite B1, merged_map. rewrite C1 in IE. now rewrite (TA e IE).
    + intros x X. specialize (D1 x X). rewrite A1.
      destruct (PZ x) as [E|(-> & E)].
      * rewrite E, merged_map. now rewrite (TB x D1).
      * rewrite E, HM. unfold parentOf. rewrite <- (TB an D1).
        destruct (par s an) as [q|] eqn:PA; [|reflexivity]. cbn.
        pose proof (w_idem w s q H (proj1 (P3 an q D1 PA))) as WI.
        destruct A as (RN & RA & NE & _).
        destruct (w q =? an) eqn:WQ.
        -- destruct RN as (_ & RN). rewrite RN. destruct (n =? an); reflexivity.
        -- now rewrite WI, WQ.
  - apply SIMPLE. exact (pushUnknown_frame _ _ _ ST).
  - apply setAliasNode_frame in ST as (A1 & C1 & D1 & B1). split; [|exact C1]. split.
    + intros x X. rewrite B1. unfold upd. destruct (x =? e).
      * cbn. destruct A as (_ & (_ & RN) & _). now rewrite RN.
      * apply TA. now rewrite <- C1.
    + intros x X. rewrite A1. auto.
  - destruct (getAliasNode fuel s e) as [(z & q)|] eqn:G; [|discriminate]. cbn in ST. injection ST as <-.
    specialize (HA e z q eq_refl G). apply getAliasNode_frame in G as (A1 & C1 & D1 & B1).
    split; [|exact C1]. split.
    + intros x X. rewrite C1 in X. destruct (B1 x) as [E|(-> & E)]; rewrite E; [auto|].
      rewrite HA, <- (TA e X). destruct (lnode s e) as [y|] eqn:LE; [|reflexivity].
      cbn. f_equal. exact (w_idem w s y H (P5 e y X LE)).
    + intros x X. rewrite A1. auto.
  - destruct (getParent fuel s n) as [(z & q)|] eqn:G; [|discriminate]. cbn in ST. injection ST as <-.
    specialize (HP n z q eq_refl G). apply getParent_frame in G as (B1 & C1 & D1 & A1).
    split; [|exact C1]. split.
    + intros e IE. rewrite B1. apply TA. now rewrite <- C1.
    + intros x X. apply D1 in X. destruct (A1 x) as [E|(-> & E)]; rewrite E; [auto|].
      rewrite HP, <- (TB n X). unfold parentOf. destruct (par s n) as [y|] eqn:LE; [|reflexivity].
      cbn. f_equal. exact (w_idem w s y H (proj1 (P3 n y X LE))).
  - destruct (getForwardedTarget fuel s n) as [(z & q)|] eqn:G; [|discriminate]. cbn in ST. injection ST as <-.
    apply SIMPLE. exact (resolve_frame _ _ _ _ _ G).
Qed.
Lemma history_ok ls s w a b : NoDup ls -> history ls s w a b ->
  OK w s /\ tracked w s a b /\ locs s = ls.
Proof.
  intro ND. induction 1 as [|s w a b o s' HI (IH & TR & LS) A (n & R)].
  { split; [now apply initial_ok|]. split; [|reflexivity]. split; reflexivity. }
  destruct (step_ok w s o IH A) as (N & s2 & R2 & K).
  pose proof (R (n + N) ltac:(lia)) as E1. pose proof (R2 (n + N) ltac:(lia)) as E2.
  rewrite E1 in E2. injection E2 as <-. split; [exact K|].
  assert (EX : exists M,
    (forall r z, o = OMerge r z -> forall fuel, M <= fuel -> forall z' q,
     getParent fuel (setRef (setFwd s z (Some r)) r (S (ref s r))) z = Some (z', q) ->
     q = parentOf (merged w o) s z) /\
    (forall n z q fuel, M <= fuel -> o = OGetParent n -> getParent fuel s n = Some (z, q) -> q = parentOf w s n) /\
    (forall e z q fuel, M <= fuel -> o = OGetAliasNode e -> getAliasNode fuel s e = Some (z, q) ->
     q = option_map w (lnode s e))).
  { destruct o as [x k p|x p|x an|x|e x|e|x|x];
      try (exists 0; repeat split; intros; discriminate).
    - pose proof A as (RN & RA & NE & _ & _ & NP).
      pose proof (ok_link w s x an IH RN RA NE NP) as OKL.
      destruct (getParent_ok _ _ an OKL (proj1 RA)) as (M & z0 & G & _).
      exists M. split; [|split; intros; discriminate].
      intros r z E fuel FU z' q GQ. injection E as <- <-. rewrite (G fuel FU) in GQ.
      injection GQ as _ <-. reflexivity.
    - destruct (getAliasNode_ok w s e IH A) as (M & z0 & G & _).
      exists M. split; [intros; discriminate|]. split; [intros; discriminate|].
      intros e' z q fuel FU E GQ. injection E as <-. rewrite (G fuel FU) in GQ. now injection GQ as _ <-.
    - destruct (getParent_ok w s x IH A) as (M & z0 & G & _).
      exists M. split; [intros; discriminate|]. split; [|intros; discriminate].
      intros e' z q fuel FU E GQ. injection E as <-. rewrite (G fuel FU) in GQ. now injection GQ as _ <-. }
  destruct EX as (M & X1 & X2 & X3).
  destruct (step_tracks w s o s' (n + M) a b IH A (R (n + M) ltac:(lia))) as (T & L).
  - intros r z E. apply (X1 r z E). lia.
  - intros x z q. apply X2. lia.
  - intros e z q. apply X3. lia.
  - exact TR.
  - split; [exact T|]. congruence.
Qed.
