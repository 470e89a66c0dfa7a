(** Proofs about chains of estimate memory locations. *)
From Coq Require Import ZArith Bool List Lia.
From Verif Require Import AliasRelModel EMForestModel EMForestSpec EMChainModel EMChainSpec.
From Verif Require Import Prop_EMForest.
Import ListNotations.
Open Scope nat_scope.

(** ** Sizes *)
Lemma sizecmp_less a b : (sizecmp a b < 0)%Z <-> lessSize a b.
Proof.
  unfold sizecmp, lessSize. destruct a as [n|n| |], b as [m|m| |]; cbn;
    try (destruct (Z.eqb_spec n m); cbn; [split; intro; lia|]);
    try (destruct (Z.ltb_spec n m); cbn);
    try (destruct (Z.eqb_spec n m); cbn);
    split; intro; try lia; try tauto.
Qed.
Lemma sizecmp_greater a b : (sizecmp a b > 0)%Z <-> lessSize b a.
Proof.
  unfold sizecmp, lessSize. destruct a as [n|n| |], b as [m|m| |]; cbn;
    try (destruct (Z.eqb_spec n m); cbn; [split; intro; lia|]);
    try (destruct (Z.ltb_spec n m); cbn);
    try (destruct (Z.eqb_spec n m); cbn);
    split; intro; try lia; try tauto.
Qed.
Lemma sizecmp_equal a b : sizecmp a b = 0%Z <-> equalSize a b.
Proof.
  unfold equalSize. rewrite <- (sizecmp_less a b), <- (sizecmp_greater a b). lia.
Qed.
Lemma less_trans a b c : lessSize a b -> lessSize b c -> lessSize a c.
Proof. unfold lessSize. destruct a, b, c; cbn; try tauto; lia. Qed.
Lemma less_irrefl a : ~ lessSize a a.
Proof. unfold lessSize. destruct a; cbn; try tauto; lia. Qed.
Lemma less_cotrans a b c : lessSize a c -> lessSize a b \/ lessSize b c.
Proof. unfold lessSize. destruct a, b, c; cbn; try tauto; lia. Qed.
Lemma covers_spec T b e : covers T b e = true <-> ~ lessSize (tSize T e) (mSize b).
Proof.
  unfold covers. rewrite Z.leb_le, <- (sizecmp_greater (mSize b) (tSize T e)). lia.
Qed.
Lemma covers_false T b e : covers T b e = false <-> lessSize (tSize T e) (mSize b).
Proof.
  unfold covers. rewrite Z.leb_gt, <- (sizecmp_greater (mSize b) (tSize T e)). lia.
Qed.

(** ** Effects of operations on links, x is a new location *)
Definition isFresh (f : forest) (x : em) : Prop :=
  fParent f x = None /\ fKids f x = [] /\ (forall y, fParent f y <> Some x) /\
  forall y, ~ In x (fKids f y).
Lemma next_parent f x y : getNext f x = Some y <->
  fParent f x = Some y /\ fBase f x = fBase f y.
Proof.
  unfold getNext, isSameBase. destruct (fParent f x) as [p|]; [|split; [discriminate|intros [H _]; discriminate]].
  destruct (Nat.eqb_spec (fBase f x) (fBase f p)) as [E|E].
  - split; [intros [= ->]; auto|intros [[= ->] _]; reflexivity].
  - split; [discriminate|intros [[= ->] H]; contradiction].
Qed.

Lemma nodup_app_two (l : list em) b1 b2 x y : NoDup l -> ~ In x l -> ~ In y l ->
  (b1 = true -> b2 = true -> x <> y) -> NoDup (l ++ appendIf b1 x ++ appendIf b2 y).
Proof.
  intros N X Y D. destruct b1, b2; cbn; rewrite ?app_nil_r.
  - change [x; y] with ([x] ++ [y]). rewrite app_assoc. apply nodup_app_one; [now apply nodup_app_one|].
    rewrite in_app_iff. cbn. intros [H|[H|[]]]; [tauto|]. exact (D eq_refl eq_refl H).
  - now apply nodup_app_one.
  - now apply nodup_app_one.
  - exact N.
Qed.
Lemma in_appendIf b x y : In y (appendIf b x) <-> b = true /\ y = x.
Proof. destruct b; cbn; intuition congruence. Qed.

Lemma links_end f c x f' : linksOk f -> isFresh f x -> c <> x -> nextSpliced f c x f' -> linksOk f'.
Proof.
  intros (L & ND) (XP & XK & XN & XI) CX (P & K & B). split.
  - intros y p. rewrite P, K, !in_app_iff, !in_without, !in_appendIf, opt_eqb_spec, Nat.eqb_eq.
    destruct (Nat.eqb_spec y c) as [->|NC].
    + split.
      * intros [= <-]. right. left. auto.
      * intros [((_ & H) & _)|[(-> & _)|(_ & H)]]; [congruence|reflexivity|congruence].
    + destruct (Nat.eqb_spec y x) as [->|NX].
      * split; [auto|]. intros [(_ & H)|[(_ & H)|(H & _)]]; [congruence|congruence|exact H].
      * rewrite L. split; [auto|]. intros [((H & _) & _)|[(_ & H)|(_ & H)]]; [exact H|congruence|congruence].
  - intro p. rewrite K. apply nodup_app_two.
    + apply nodup_without, nodup_without, ND.
    + rewrite !in_without. tauto.
    + rewrite !in_without. tauto.
    + intros H _. congruence.
Qed.

(** splicePrev of a new location *)
Lemma splicePrev_new f u x : linksOk f -> isFresh f x -> u <> x -> fBase f x = fBase f u ->
  (forall y z, getNext f y = Some u -> getNext f z = Some u -> y = z) ->
  getNext f u <> Some u ->
  exists f', splicePrev f u (Some x) = Some f' /\ linksOk f' /\
    (forall y, fBase f' y = fBase f y) /\
    (forall y p, fParent f' y = Some p ->
       y = x /\ p = u \/ p = x /\ fParent f y = Some u \/ fParent f y = Some p) /\
    (forall y, getNext f' y =
       if Nat.eqb y x then Some u
       else if opt_eqb (getNext f y) (Some u) then Some x else getNext f y).
Proof.
  intros (L & ND) (XP & XK & XN & XI) UX BX UQ UU. unfold splicePrev.
  rewrite !opt_eqb_neq by congruence. unfold leave. rewrite XP.
  set (f1 := setParent f x (Some u)).
  replace (fKids f1 x) with (@nil em) by (unfold f1; cbn; congruence). cbn [fold_left].
  set (f2 := setKids f1 x []).
  assert (P2 : forall y, fParent f2 y = if Nat.eqb y x then Some u else fParent f y) by reflexivity.
  assert (K2 : forall y, fKids f2 y = fKids f y).
  { intro y. unfold f2. cbn. unfold upd. destruct (Nat.eqb_spec y x); subst; auto. }
  assert (B2 : forall y, fBase f2 y = fBase f y) by reflexivity.
  clearbody f2. rewrite K2. destruct (find (fun i => isSameBase f2 i x) (fKids f u)) as [k|] eqn:F.
  - destruct (find_split _ _ _ F) as (l1 & l2 & EL & EK & NK).
    apply find_some in F. destruct F as (KU & KB). unfold isSameBase in KB.
    apply Nat.eqb_eq in KB. rewrite !B2, BX in KB.
    assert (KP : fParent f k = Some u) by (now apply L).
    assert (KX : k <> x) by congruence.
    assert (KN : getNext f k = Some u) by (apply next_parent; auto).
    assert (NKu : k <> u) by (intros ->; contradiction).
    cbn zeta. unfold removeKid. cbn [setKids setParent fKids]. rewrite K2, EL.
    pose proof (ND u) as NDu. rewrite EL in NDu.
    assert (NI : ~ In k (l1 ++ l2)) by (apply NoDup_remove_2 in NDu; exact NDu).
    rewrite insertBefore_split by (rewrite in_app_iff in NI; tauto).
    rewrite !upd_same.
    assert (EX : existsb (Nat.eqb k) (l1 ++ x :: k :: l2) = true).
    { apply existsb_in. rewrite in_app_iff. cbn. tauto. }
    rewrite EX. eexists. split; [reflexivity|].
    assert (WK : without k (l1 ++ x :: k :: l2) = l1 ++ x :: l2).
    { unfold without. rewrite filter_app. cbn [filter].
      rewrite (proj2 (Nat.eqb_neq x k)) by congruence. rewrite Nat.eqb_refl. cbn [negb].
      change (filter _ l1) with (without k l1). change (filter _ l2) with (without k l2).
      rewrite in_app_iff in NI.
      rewrite !without_notin by tauto. reflexivity. }
    match goal with |- linksOk ?g /\ _ => set (f' := g) end.
    assert (P' : forall y, fParent f' y =
      if Nat.eqb y k then Some x else if Nat.eqb y x then Some u else fParent f y).
    { intro y. unfold f'. cbn. unfold upd. rewrite P2. reflexivity. }
    assert (K' : forall y, fKids f' y =
      if Nat.eqb y x then [k] else if Nat.eqb y u then l1 ++ x :: l2 else fKids f y).
    { intro y. unfold f'. cbn. unfold upd. rewrite !K2, ?Nat.eqb_refl, ?WK.
      destruct (Nat.eqb_spec y x) as [->|].
      - destruct (Nat.eqb_spec x u); [congruence|]. now rewrite XK.
      - destruct (Nat.eqb y u); reflexivity. }
    assert (B' : forall y, fBase f' y = fBase f y) by (intro; unfold f'; cbn; now rewrite ?B2).
    clearbody f'. clear WK EX.
    assert (IU : forall y, In y (fKids f u) <-> In y (l1 ++ l2) \/ y = k).
    { intro y. rewrite EL, !in_app_iff. cbn. intuition congruence. }
    split; [split|split; [exact B'|split]].
    + intros y p. rewrite P', K'.
      destruct (Nat.eqb_spec y k) as [->|YK].
      * destruct (Nat.eqb_spec p x) as [->|PX]; [cbn; tauto|].
        split; [intros [= <-]; congruence|]. intro H. exfalso.
        destruct (Nat.eqb_spec p u) as [->|PU].
        -- rewrite in_app_iff in H. cbn in H. rewrite in_app_iff in NI. intuition congruence.
        -- apply L in H. congruence.
      * destruct (Nat.eqb_spec y x) as [->|YX].
        -- destruct (Nat.eqb_spec p x) as [->|PX].
           { split; [intros [= H]; congruence|]. cbn. intuition congruence. }
           destruct (Nat.eqb_spec p u) as [->|PU].
           { rewrite in_app_iff. cbn. tauto. }
           split; [intros [= H]; congruence|]. intro H. now apply XI in H.
        -- destruct (Nat.eqb_spec p x) as [->|PX].
           { split; [intro H; now apply XN in H|]. cbn. intuition congruence. }
           destruct (Nat.eqb_spec p u) as [->|PU].
           { rewrite L, IU, !in_app_iff. cbn. intuition congruence. }
           apply L.
    + intro p. rewrite K'. destruct (Nat.eqb p x); [constructor; [cbn; tauto|constructor]|].
      destruct (Nat.eqb p u); [|apply ND].
      apply NoDup_remove_1 in NDu.
      assert (NX : ~ In x (l1 ++ l2)) by (intro H; apply (XI u), IU; tauto).
      apply NoDup_Add with (a := x) (l := l1 ++ l2); [apply Add_app|]. split; assumption.
    + intros y p. rewrite P'. destruct (Nat.eqb_spec y k) as [->|]; [intros [= <-]; auto|].
      destruct (Nat.eqb_spec y x); [intros [= <-]|]; auto.
    + intro y. destruct (Nat.eqb_spec y x) as [->|YX].
      * apply next_parent. rewrite P', !B'. destruct (Nat.eqb_spec x k); [congruence|].
        rewrite Nat.eqb_refl. auto.
      * destruct (opt_eqb (getNext f y) (Some u)) eqn:Q.
        -- apply opt_eqb_spec in Q. assert (y = k) by (apply UQ; assumption). subst y.
           apply next_parent. rewrite P', !B', Nat.eqb_refl. split; [reflexivity|congruence].
        -- assert (YK : y <> k).
           { intros ->. rewrite KN in Q. cbn in Q. rewrite Nat.eqb_refl in Q. discriminate. }
           unfold getNext, isSameBase. rewrite P', (proj2 (Nat.eqb_neq y k) YK),
             (proj2 (Nat.eqb_neq y x) YX), B'.
           destruct (fParent f y); [now rewrite B'|reflexivity].
  - assert (NOK : forall y, getNext f y <> Some u).
    { intros y H. apply next_parent in H. destruct H as (P & B). apply L in P.
      pose proof (find_none _ _ F y P) as H. cbn in H. unfold isSameBase in H.
      rewrite !B2 in H. apply Nat.eqb_neq in H. congruence. }
    eexists. split; [reflexivity|].
    match goal with |- linksOk ?g /\ _ => set (f' := g) end.
    assert (P' : forall y, fParent f' y = if Nat.eqb y x then Some u else fParent f y).
    { intro y. unfold f'. cbn. apply P2. }
    assert (K' : forall y, fKids f' y = if Nat.eqb y u then fKids f u ++ [x] else fKids f y).
    { intro y. unfold f'. cbn. unfold upd. rewrite !K2. reflexivity. }
    assert (B' : forall y, fBase f' y = fBase f y) by (intro; unfold f'; cbn; now rewrite ?B2).
    clearbody f'. split; [split|split; [exact B'|split]].
    + intros y p. rewrite P', K'. destruct (Nat.eqb_spec y x) as [->|YX].
      * destruct (Nat.eqb_spec p u) as [->|PU]; [rewrite in_app_iff; cbn; tauto|].
        split; [congruence|]. intro H. now apply XI in H.
      * destruct (Nat.eqb_spec p u) as [->|PU]; [|apply L].
        rewrite L, in_app_iff. cbn. intuition congruence.
    + intro p. rewrite K'. destruct (Nat.eqb p u); [|apply ND].
      apply nodup_app_one; [apply ND|apply XI].
    + intros y p. rewrite P'. destruct (Nat.eqb_spec y x); [intros [= <-]|]; auto.
    + intro y. destruct (Nat.eqb_spec y x) as [->|YX].
      * apply next_parent. rewrite P', !B', Nat.eqb_refl. auto.
      * rewrite opt_eqb_neq by apply NOK.
        unfold getNext, isSameBase. rewrite P', (proj2 (Nat.eqb_neq y x) YX), B'.
        destruct (fParent f y); [now rewrite B'|reflexivity].
Qed.

(** spliceNext after the end of a chain *)
Lemma spliceNext_new f c x : linksOk f -> isFresh f x -> c <> x -> fBase f x = fBase f c ->
  getNext f c = None ->
  exists f', spliceNext f c (Some x) = Some f' /\ linksOk f' /\
    (forall y, fBase f' y = fBase f y) /\
    (forall y p, fParent f' y = Some p ->
       y = x /\ fParent f c = Some p \/ y = c /\ p = x \/ fParent f y = Some p) /\
    (forall y, getNext f' y =
       if Nat.eqb y c then Some x else if Nat.eqb y x then None else getNext f y).
Proof.
  intros LK FR CX BX EN. destruct (FR) as (XP & XK & XN & XI).
  destruct (spliceNext_ok f LK c x CX (XN c)) as (f' & E & PIC). exists f'. split; [exact E|].
  split; [exact (links_end f c x f' LK FR CX PIC)|]. destruct PIC as (P & K & B).
  split; [exact B|]. split.
  - intros y p. rewrite P. destruct (Nat.eqb_spec y c) as [->|]; [intros [= <-]; auto|].
    destruct (Nat.eqb_spec y x); auto.
  - intro y. destruct (Nat.eqb_spec y c) as [->|YC].
    + apply next_parent. rewrite P, !B, Nat.eqb_refl. auto.
    + destruct (Nat.eqb_spec y x) as [->|YX].
      * unfold getNext, isSameBase. rewrite P, Nat.eqb_refl, (proj2 (Nat.eqb_neq x c)) by congruence.
        unfold getNext, isSameBase in EN. destruct (fParent f c) as [p|]; [|reflexivity].
        rewrite !B, BX. destruct (Nat.eqb (fBase f c) (fBase f p)); [discriminate|reflexivity].
      * unfold getNext, isSameBase. rewrite P, (proj2 (Nat.eqb_neq y c) YC), (proj2 (Nat.eqb_neq y x) YX), B.
        destruct (fParent f y); [now rewrite B|reflexivity].
Qed.
(** mergeNext of a root and a location of another chain *)
Lemma mergeNext_new f p e : linksOk f -> fParent f p = None -> fBase f p <> fBase f e ->
  exists f', mergeNext f p (Some e) = Some f' /\ linksOk f' /\
    (forall y, fBase f' y = fBase f y) /\
    (forall y q, fParent f' y = Some q -> y = p /\ q = e \/ fParent f y = Some q) /\
    (forall y, getNext f' y = getNext f y).
Proof.
  intros LK PN BN. assert (PE : p <> e) by congruence.
  destruct (mergeNext_ok f LK p e PE ltac:(congruence)) as (f' & E & P & K & B).
  exists f'. split; [exact E|]. destruct LK as (L & ND).
  assert (NI : forall y, ~ In p (fKids f y)) by (intros y H; apply L in H; congruence).
  split; [split|split; [exact B|split]].
  - intros y q. rewrite P, K, without_notin by apply NI. rewrite in_app_iff, in_appendIf, Nat.eqb_eq.
    destruct (Nat.eqb_spec y p) as [->|YP].
    + split; [intros [= <-]; auto|]. intros [H|(-> & _)]; [now apply NI in H|reflexivity].
    + rewrite L. intuition congruence.
  - intro q. rewrite K, without_notin by apply NI.
    destruct (Nat.eqb q e); cbn; [apply nodup_app_one|rewrite app_nil_r]; auto.
  - intros y q. rewrite P. destruct (Nat.eqb_spec y p) as [->|]; [intros [= <-]; auto|auto].
  - intro y. unfold getNext, isSameBase. rewrite P. destruct (Nat.eqb_spec y p) as [->|YP].
    + rewrite !B, PN. now destruct (Nat.eqb_spec (fBase f p) (fBase f e)).
    + rewrite B. destruct (fParent f y); [now rewrite B|reflexivity].
Qed.

(** ** Invariants of trees *)
Record Inv (T : tree) : Prop := {
  iLinks : linksOk (tForest T);
  iAlloc : forall x p, fParent (tForest T) x = Some p -> exists_in T x /\ exists_in T p;
  iPtrs : forall x, exists_in T x -> ptrs T x <> [] /\ fBase (tForest T) x < tCount T;
  iAsc : forall x y, next T x = Some y -> lessSize (tSize T x) (tSize T y);
  iUniq : forall x y z, next T x = Some z -> next T y = Some z -> x = y;
  iBegin : forall k L c, tBases T k = Some L -> In c L ->
    exists_in T c /\ forall x, next T x <> Some c;
  iReach : forall x, exists_in T x ->
    exists k L c, tBases T k = Some L /\ In c L /\ reach T c x;
  iDistinct : forall k L i c k' L' j c', tBases T k = Some L -> nth_error L i = Some c ->
    tBases T k' = Some L' -> nth_error L' j = Some c' ->
    fBase (tForest T) c = fBase (tForest T) c' -> k = k' /\ i = j
}.
Lemma inv_empty : Inv emptyTree.
Proof.
  split; cbn; try discriminate; try (unfold exists_in; cbn; intros; lia).
  split; [intros x p; cbn; split; [discriminate|tauto]|intro; constructor].
Qed.
Lemma next_alloc T x y : Inv T -> next T x = Some y -> exists_in T x /\ exists_in T y.
Proof. intros I H. apply next_parent in H. eapply iAlloc; [exact I|apply H]. Qed.
Lemma inv_fresh T : Inv T -> isFresh (tForest T) (tCount T).
Proof.
  intro I. destruct (iLinks T I) as (L & _).
  assert (NP : forall y, fParent (tForest T) y <> Some (tCount T)).
  { intros y H. apply (iAlloc T I) in H. unfold exists_in in H. lia. }
  assert (PN : fParent (tForest T) (tCount T) = None).
  { destruct (fParent (tForest T) (tCount T)) eqn:E; [|reflexivity].
    apply (iAlloc T I) in E. unfold exists_in in E. lia. }
  split; [exact PN|]. split; [|split; [exact NP|]].
  - destruct (fKids (tForest T) (tCount T)) as [|k l] eqn:E; [reflexivity|].
    exfalso. apply (NP k). apply L. rewrite E. left. reflexivity.
  - intros y H. apply L in H. congruence.
Qed.
Lemma reach_trans T x y z : reach T x y -> reach T y z -> reach T x z.
Proof. induction 1; [auto|]. intro. econstructor; eauto. Qed.
Lemma reach_one T x y : next T x = Some y -> reach T x y.
Proof. intro. econstructor; [eassumption|constructor]. Qed.
Lemma reach_base T x y : reach T x y -> fBase (tForest T) x = fBase (tForest T) y.
Proof.
  induction 1 as [|x y z N R IH]; [reflexivity|]. apply next_parent in N. destruct N. congruence.
Qed.
Lemma reach_exists T x y : Inv T -> reach T x y -> exists_in T x -> exists_in T y.
Proof.
  intros I. induction 1 as [|x y z N R IH]; [auto|]. intros _. apply IH. eapply next_alloc; eauto.
Qed.

(** What later operations keep *)
Record Ext (T T' : tree) : Prop := {
  eCount : tCount T <= tCount T';
  eSize : forall x, exists_in T x -> tSize T' x = tSize T x;
  eBase : forall x, exists_in T x -> fBase (tForest T') x = fBase (tForest T) x;
  ePtrs : forall x, exists_in T x -> exists l, ptrs T' x = ptrs T x ++ l;
  eExpl : forall x, exists_in T x -> tExpl T x = true -> tExpl T' x = true;
  eBegin : forall k L, tBases T k = Some L -> exists L', tBases T' k = Some L' /\
    forall i c, nth_error L i = Some c -> exists c', nth_error L' i = Some c' /\
      fBase (tForest T') c' = fBase (tForest T) c /\ forall y, reach T c y -> reach T' c' y
}.
Lemma ext_refl T : Ext T T.
Proof.
  split; auto.
  - intros x _. exists []. now rewrite app_nil_r.
  - intros k L H. exists L. split; [exact H|]. eauto 6.
Qed.
Lemma ext_trans T U W : Inv T -> Ext T U -> Ext U W -> Ext T W.
Proof.
  intros I A B. assert (X : forall x, exists_in T x -> exists_in U x).
  { intros x. unfold exists_in. pose proof (eCount _ _ A). lia. }
  split.
  - pose proof (eCount _ _ A). pose proof (eCount _ _ B). lia.
  - intros x H. rewrite (eSize _ _ B), (eSize _ _ A); auto.
  - intros x H. rewrite (eBase _ _ B), (eBase _ _ A); auto.
  - intros x H. destruct (ePtrs _ _ A x H) as (l & E). destruct (ePtrs _ _ B x (X x H)) as (l' & E').
    exists (l ++ l'). rewrite E', E, app_assoc. reflexivity.
  - intros x X' H. apply (eExpl _ _ B), (eExpl _ _ A); auto.
  - intros k L H. destruct (eBegin _ _ A k L H) as (L1 & H1 & F1).
    destruct (eBegin _ _ B k L1 H1) as (L2 & H2 & F2). exists L2. split; [exact H2|].
    intros i c N. destruct (F1 i c N) as (c1 & N1 & B1 & R1).
    destruct (F2 i c1 N1) as (c2 & N2 & B2 & R2).
    exists c2. split; [exact N2|]. split; [congruence|auto].
Qed.

(** Chains of a changed tree *)
Section Grow.
Variables (T T' : tree).
Hypothesis I : Inv T.
Let x := tCount T.
Hypothesis HC : tCount T' = S x.
Hypothesis HS : forall y, tSize T' y = if Nat.eqb y x then tSize T' x else tSize T y.
Hypothesis HB : forall y, exists_in T y -> fBase (tForest T') y = fBase (tForest T) y.
Hypothesis HA : forall y, exists_in T y -> ptrs T' y = ptrs T y.
Hypothesis HX : ptrs T' x <> [] /\ fBase (tForest T') x <= x.
Hypothesis HL : linksOk (tForest T').
Hypothesis HP : forall y p, fParent (tForest T') y = Some p -> exists_in T' y /\ exists_in T' p.
Hypothesis HE : forall y, exists_in T y -> tExpl T y = true -> tExpl T' y = true.

Lemma grow_exists y : exists_in T' y <-> exists_in T y \/ y = x.
Proof. unfold exists_in. rewrite HC. unfold x. lia. Qed.
Lemma new_not_next y : next T y <> Some x.
Proof. intro H. apply (next_alloc _ _ _ I) in H. unfold exists_in, x in H. lia. Qed.
Lemma next_not_new : next T x = None.
Proof.
  destruct (next T x) eqn:H; [|reflexivity].
  apply (next_alloc _ _ _ I) in H. unfold exists_in, x in H. lia.
Qed.
Lemma grow_ptrs y : exists_in T' y -> ptrs T' y <> [] /\ fBase (tForest T') y < tCount T'.
Proof.
  rewrite grow_exists, HC. intros [H| ->].
  - rewrite HA, HB by exact H. destruct (iPtrs T I y H). split; [auto|]. unfold x. lia.
  - destruct HX. split; [auto|lia].
Qed.
Lemma size_old y : exists_in T y -> tSize T' y = tSize T y.
Proof. intro H. rewrite HS. destruct (Nat.eqb_spec y x); [unfold exists_in, x in *; lia|reflexivity]. Qed.

(** a location after the end c0 of a chain *)
Lemma grow_end last : exists_in T last -> next T last = None ->
  lessSize (tSize T last) (tSize T' x) -> fBase (tForest T') x = fBase (tForest T) last ->
  (forall y, next T' y = if Nat.eqb y last then Some x else if Nat.eqb y x then None else next T y) ->
  tBases T' = tBases T -> Inv T' /\ Ext T T'.
Proof.
  intros EL NL LS BX N TB.
  assert (LX : last <> x) by (unfold exists_in, x in *; lia).
  assert (old : forall y z, next T y = Some z -> next T' y = Some z).
  { intros y z H. rewrite N. destruct (Nat.eqb_spec y last); [congruence|].
    destruct (Nat.eqb_spec y x) as [->|]; [now rewrite next_not_new in H|exact H]. }
  assert (RR : forall y z, reach T y z -> reach T' y z).
  { induction 1; [constructor|]. econstructor; eauto. }
  split; [split|split]; auto.
  - apply grow_ptrs.
  - intros y z. rewrite N. destruct (Nat.eqb_spec y last) as [->|].
    + intros [= <-]. rewrite (size_old last EL). exact LS.
    + destruct (Nat.eqb_spec y x) as [->|]; [discriminate|]. intro H.
      destruct (next_alloc _ _ _ I H). rewrite !size_old by assumption. now apply (iAsc T I).
  - assert (CASES : forall y z, next T' y = Some z ->
      y = last /\ z = x \/ y <> last /\ next T y = Some z).
    { intros y z. rewrite N. destruct (Nat.eqb_spec y last) as [->|]; [intros [= <-]; auto|].
      destruct (Nat.eqb y x); [discriminate|auto]. }
    intros y y' z H H'.
    destruct (CASES y z H) as [(-> & ->)|(YL & Q)], (CASES y' _ H') as [(-> & E)|(YL' & Q')]; auto.
    + now apply new_not_next in Q'.
    + subst z. now apply new_not_next in Q.
    + eapply (iUniq T I); eauto.
  - intros k L c. rewrite TB. intros H HIn. destruct (iBegin T I _ _ _ H HIn) as (A & B).
    split; [apply grow_exists; auto|]. intro y. rewrite N.
    destruct (Nat.eqb y last).
    { intros [= E]. rewrite <- E in A. unfold exists_in, x in A. lia. }
    destruct (Nat.eqb y x); [discriminate|apply B].
  - intros y. rewrite grow_exists, TB. intros [H| ->].
    + destruct (iReach T I y H) as (k & L & c & A & B & C). eauto 8.
    + destruct (iReach T I last EL) as (k & L & c & A & B & C). exists k, L, c.
      split; [exact A|]. split; [exact B|]. apply reach_trans with last; [auto|].
      apply reach_one. rewrite N, Nat.eqb_refl. reflexivity.
  - intros k L i c k' L' j c'. rewrite TB. intros A B C D E.
    destruct (iBegin T I k L c A (nth_error_In _ _ B)) as (X & _).
    destruct (iBegin T I k' L' c' C (nth_error_In _ _ D)) as (X' & _).
    rewrite !HB in E by assumption. eapply (iDistinct T I); eauto.
  - rewrite HC. unfold x. lia.
  - apply size_old.
  - intros y H. exists []. rewrite app_nil_r. auto.
  - intros k L H. exists L. split; [congruence|]. intros i c D. exists c.
    destruct (iBegin T I k L c H (nth_error_In _ _ D)) as (X & _). auto.
Qed.

(** a location before u *)
Lemma grow_before u : exists_in T u -> lessSize (tSize T' x) (tSize T u) ->
  (forall y, next T y = Some u -> lessSize (tSize T y) (tSize T' x)) ->
  fBase (tForest T') x = fBase (tForest T) u ->
  (forall y, next T' y = if Nat.eqb y x then Some u
     else if opt_eqb (next T y) (Some u) then Some x else next T y) ->
  (tBases T' = tBases T /\ (exists y, next T y = Some u)) \/
  (exists k l1 l2, tBases T k = Some (l1 ++ u :: l2) /\
     tBases T' = upd (tBases T) k (Some (l1 ++ x :: l2))) ->
  Inv T' /\ Ext T T'.
Proof.
  intros EU LS LP BX N TB.
  assert (UX : u <> x) by (unfold exists_in, x in *; lia).
  assert (XU : next T' x = Some u) by (rewrite N, Nat.eqb_refl; reflexivity).
  assert (RR : forall y z, reach T y z -> reach T' y z).
  { induction 1 as [|y w z H R IH]; [constructor|].
    destruct (Nat.eq_dec w u) as [->|W].
    - apply reachNext with x; [|apply reachNext with u; [exact XU|exact IH]].
      rewrite N. destruct (Nat.eqb_spec y x) as [->|]; [now rewrite next_not_new in H|].
      rewrite H. cbn. now rewrite Nat.eqb_refl.
    - apply reachNext with w; [|exact IH]. rewrite N.
      destruct (Nat.eqb_spec y x) as [->|]; [now rewrite next_not_new in H|].
      rewrite H, opt_eqb_neq by congruence. reflexivity. }
  (* edges *)
  assert (CASES : forall y z, next T' y = Some z ->
    y = x /\ z = u \/ z = x /\ y <> x /\ next T y = Some u \/ z <> u /\ y <> x /\ next T y = Some z).
  { intros y z. rewrite N. destruct (Nat.eqb_spec y x) as [->|YX]; [intros [= <-]; auto|].
    destruct (opt_eqb (next T y) (Some u)) eqn:Q.
    - apply opt_eqb_spec in Q. intros [= <-]. auto.
    - intro H. right. right. split; [|auto]. intros ->. rewrite H in Q. cbn in Q.
      rewrite Nat.eqb_refl in Q. discriminate. }
  (* the beginning of a chain *)
  assert (OLD : forall k L c, tBases T k = Some L -> In c L -> exists_in T c /\
    forall y, next T y <> Some c) by (intros; eapply (iBegin T I); eauto).
  assert (BEG : forall k L i c, tBases T k = Some L -> nth_error L i = Some c ->
    exists L' c', tBases T' k = Some L' /\ nth_error L' i = Some c' /\
      (c' = c \/ c' = x /\ c = u)).
  { intros k L i c A B. destruct TB as [(TB & _)|(k0 & l1 & l2 & A0 & TB)].
    - exists L, c. rewrite TB. auto.
    - rewrite TB. unfold upd. destruct (Nat.eqb_spec k k0) as [->|].
      + assert (L = l1 ++ u :: l2) by congruence. subst L. exists (l1 ++ x :: l2).
        destruct (Nat.lt_ge_cases i (length l1)).
        * exists c. rewrite nth_error_app1 in * by assumption. auto.
        * rewrite nth_error_app2 in * by assumption. destruct (i - length l1); cbn in *.
          -- exists x. injection B as ->. auto.
          -- exists c. auto.
      + exists L, c. auto. }
  assert (GEB : forall k L' i c', tBases T' k = Some L' -> nth_error L' i = Some c' ->
    exists L c, tBases T k = Some L /\ nth_error L i = Some c /\
      (c' = c /\ (c = u -> exists y, next T y = Some u) \/ c' = x /\ c = u)).
  { intros k L i c A B. destruct TB as [(TB & PU)|(k0 & l1 & l2 & A0 & TB)]; rewrite TB in A.
    - exists L, c. auto.
    - unfold upd in A. destruct (Nat.eqb_spec k k0) as [->|NK].
      + injection A as <-. exists (l1 ++ u :: l2).
        assert (BU : nth_error (l1 ++ u :: l2) (length l1) = Some u).
        { rewrite nth_error_app2, Nat.sub_diag by lia. reflexivity. }
        assert (SAME : nth_error (l1 ++ u :: l2) i = Some c ->
          i <> length l1 -> c = u -> exists y, next T y = Some u).
        { intros Q NE ->. exfalso. apply NE.
          exact (proj2 (iDistinct T I k0 _ i u k0 _ (length l1) u A0 Q A0 BU eq_refl)). }
        destruct (lt_eq_lt_dec i (length l1)) as [[LT| ->]|GT].
        * exists c. rewrite nth_error_app1 in * by assumption. split; [exact A0|].
          split; [exact B|]. left. split; [reflexivity|]. apply SAME; [exact B|lia].
        * exists u. rewrite nth_error_app2, Nat.sub_diag in B by lia. cbn in B.
          injection B as <-. auto.
        * exists c. rewrite nth_error_app2 in * by lia.
          destruct (i - length l1) as [|m] eqn:E; [lia|]. cbn in *. split; [exact A0|].
          split; [exact B|]. left. split; [reflexivity|]. apply SAME; [exact B|lia].
      + exists L, c. split; [exact A|]. split; [exact B|]. left. split; [reflexivity|].
        intros ->. exfalso. apply NK.
        assert (BU : nth_error (l1 ++ u :: l2) (length l1) = Some u).
        { rewrite nth_error_app2, Nat.sub_diag by lia. reflexivity. }
        exact (proj1 (iDistinct T I k _ i u k0 _ (length l1) u A B A0 BU eq_refl)). }
  split; [split|split]; auto.
  - apply grow_ptrs.
  - intros y z H. destruct (CASES y z H) as [(-> & ->)|[(-> & _ & Q)|(_ & _ & Q)]].
    + rewrite (size_old u EU). exact LS.
    + destruct (next_alloc _ _ _ I Q). rewrite (size_old y) by assumption. auto.
    + destruct (next_alloc _ _ _ I Q). rewrite !size_old by assumption. now apply (iAsc T I).
  - intros y y' z H H'.
    destruct (CASES y z H) as [(-> & ->)|[(-> & _ & Q)|(ZU & _ & Q)]],
      (CASES y' _ H') as [(-> & E)|[(E & _ & Q')|(ZU' & _ & Q')]]; try congruence.
    + eapply (iUniq T I); eauto.
    + now apply new_not_next in Q'.
    + subst z. now apply new_not_next in Q.
    + eapply (iUniq T I); eauto.
  - intros k L' c' A B. apply In_nth_error in B. destruct B as (i & B).
    destruct (GEB k L' i c' A B) as (L & c & A0 & B0 & [(-> & NU)|(-> & ->)]).
    + destruct (OLD k L c A0 (nth_error_In _ _ B0)) as (X & Y). split; [apply grow_exists; auto|].
      intros y H. destruct (CASES y c H) as [(-> & ->)|[(-> & _ & _)|(_ & _ & Q)]].
      * destruct (NU eq_refl) as (w & W). now apply Y in W.
      * unfold exists_in, x in X. lia.
      * now apply Y in Q.
    + destruct (OLD k L u A0 (nth_error_In _ _ B0)) as (X & Y). split; [apply grow_exists; auto|].
      intros y H. destruct (CASES y x H) as [(-> & E)|[(_ & _ & Q)|(_ & _ & Q)]].
      * congruence.
      * now apply Y in Q.
      * now apply new_not_next in Q.
  - (* reachable *)
    assert (UR : forall z, exists_in T z -> exists k L c, tBases T' k = Some L /\ In c L /\ reach T' c z).
    { intros z Z. destruct (iReach T I z Z) as (k & L & c & A & B & C).
      apply In_nth_error in B. destruct B as (i & B).
      destruct (BEG k L i c A B) as (L' & c' & A' & B' & D). exists k, L', c'.
      split; [exact A'|]. split; [eapply nth_error_In; eauto|].
      destruct D as [-> |(-> & ->)]; [auto|]. apply reachNext with u; auto. }
    intros z. rewrite grow_exists. intros [Z| ->]; [auto|].
    destruct TB as [(TB & w & W)|(k0 & l1 & l2 & A0 & TB)].
    + destruct (UR w (proj1 (next_alloc _ _ _ I W))) as (k & L & c & A & B & C).
      exists k, L, c. split; [exact A|]. split; [exact B|]. apply reach_trans with w; [exact C|].
      apply reach_one. rewrite N. destruct (Nat.eqb_spec w x) as [->|].
      * now rewrite next_not_new in W.
      * rewrite W. cbn. now rewrite Nat.eqb_refl.
    + exists k0, (l1 ++ x :: l2), x. rewrite TB. unfold upd. rewrite Nat.eqb_refl.
      split; [reflexivity|]. split; [apply in_elt|constructor].
  - intros k L i c k' L' j c' A B C D E.
    destruct (GEB k L i c A B) as (L0 & c0 & A0 & B0 & F0).
    destruct (GEB k' L' j c' C D) as (L1 & c1 & A1 & B1 & F1).
    destruct (OLD k L0 c0 A0 (nth_error_In _ _ B0)) as (X0 & _).
    destruct (OLD k' L1 c1 A1 (nth_error_In _ _ B1)) as (X1 & _).
    assert (E0 : fBase (tForest T') c = fBase (tForest T) c0).
    { destruct F0 as [(-> & _)|(-> & ->)]; [apply HB; exact X0|exact BX]. }
    assert (E1 : fBase (tForest T') c' = fBase (tForest T) c1).
    { destruct F1 as [(-> & _)|(-> & ->)]; [apply HB; exact X1|exact BX]. }
    eapply (iDistinct T I); eauto. congruence.
  - rewrite HC. unfold x. lia.
  - apply size_old.
  - intros y H. exists []. rewrite app_nil_r. auto.
  - intros k L A. destruct L as [|c0 L].
    + destruct TB as [(TB & _)|(k0 & l1 & l2 & A0 & TB)].
      * exists []. rewrite TB. split; [exact A|]. intros [|i] c; discriminate.
      * exists []. rewrite TB. unfold upd. destruct (Nat.eqb_spec k k0) as [->|].
        -- exfalso. rewrite A in A0. destruct l1; discriminate.
        -- split; [exact A|]. intros [|i] c; discriminate.
    + destruct (BEG k _ 0 c0 A eq_refl) as (L' & _ & A' & _). exists L'. split; [exact A'|].
      intros i c B. destruct (BEG k _ i c A B) as (L'' & c' & A'' & B' & D).
      assert (L'' = L') by congruence. subst L''. exists c'. split; [exact B'|].
      destruct (OLD k _ c A (nth_error_In _ _ B)) as (X & _).
      destruct D as [-> |(-> & ->)].
      * split; [now apply HB|auto].
      * split; [exact BX|]. intros z Z. apply reachNext with u; auto.
Qed.

(** a new chain *)
Lemma grow_new k l : fBase (tForest T') x = x ->
  (forall y, next T' y = next T y) ->
  (tBases T k = Some l \/ tBases T k = None /\ l = []) ->
  tBases T' = upd (tBases T) k (Some (l ++ [x])) -> Inv T' /\ Ext T T'.
Proof.
  intros BX N KL TB.
  assert (RR : forall y z, reach T y z -> reach T' y z).
  { induction 1; [constructor|]. econstructor; eauto. rewrite N. eassumption. }
  assert (GEB : forall k' L' i c', tBases T' k' = Some L' -> nth_error L' i = Some c' ->
    (exists L, tBases T k' = Some L /\ nth_error L i = Some c' /\ exists_in T c') \/
    (k' = k /\ i = length l /\ c' = x)).
  { intros k' L' i c'. rewrite TB. unfold upd. destruct (Nat.eqb_spec k' k) as [->|NK].
    - intros [= <-] B. destruct (Nat.lt_ge_cases i (length l)).
      + rewrite nth_error_app1 in B by assumption. destruct KL as [KL|(_ & ->)].
        * left. exists l. split; [exact KL|]. split; [exact B|].
          exact (proj1 (iBegin T I k l c' KL (nth_error_In _ _ B))).
        * destruct i; discriminate.
      + rewrite nth_error_app2 in B by assumption.
        destruct (i - length l) eqn:E; cbn in B; [|destruct n; discriminate].
        injection B as <-. right. split; [reflexivity|]. split; [lia|reflexivity].
    - intros A B. left. exists L'. split; [exact A|]. split; [exact B|].
      exact (proj1 (iBegin T I k' L' c' A (nth_error_In _ _ B))). }
  assert (BEG : forall k' L, tBases T k' = Some L -> exists L', tBases T' k' = Some L' /\
    forall i c, nth_error L i = Some c -> nth_error L' i = Some c).
  { intros k' L A. rewrite TB. unfold upd. destruct (Nat.eqb_spec k' k) as [->|].
    - destruct KL as [KL|(KL & _)]; [|congruence].
      assert (L = l) by congruence. subst L. exists (l ++ [x]). split; [reflexivity|].
      intros i c B. rewrite nth_error_app1; [exact B|]. apply nth_error_Some. congruence.
    - exists L. auto. }
  split; [split|split]; auto.
  - apply grow_ptrs.
  - intros y z. rewrite N. intro H. destruct (next_alloc _ _ _ I H).
    rewrite !size_old by assumption. now apply (iAsc T I).
  - intros y y' z. rewrite !N. apply (iUniq T I).
  - intros k' L' c' A B. apply In_nth_error in B. destruct B as (i & B).
    destruct (GEB k' L' i c' A B) as [(L & A0 & B0 & X)|(_ & _ & ->)].
    + split; [apply grow_exists; auto|]. intro y. rewrite N.
      exact (proj2 (iBegin T I k' L c' A0 (nth_error_In _ _ B0)) y).
    + split; [apply grow_exists; auto|]. intro y. rewrite N. apply new_not_next.
  - intros y. rewrite grow_exists. intros [Y| ->].
    + destruct (iReach T I y Y) as (k' & L & c & A & B & C).
      destruct (BEG k' L A) as (L' & A' & B'). apply In_nth_error in B. destruct B as (i & B).
      exists k', L', c. split; [exact A'|]. split; [|auto]. eapply nth_error_In. eauto.
    + exists k, (l ++ [x]), x. rewrite TB. unfold upd. rewrite Nat.eqb_refl.
      split; [reflexivity|]. split; [apply in_elt|constructor].
  - intros k1 L1 i c1 k2 L2 j c2 A B C D E.
    destruct (GEB k1 L1 i c1 A B) as [(L & A0 & B0 & X)|(-> & -> & ->)];
      destruct (GEB k2 L2 j c2 C D) as [(L' & A0' & B0' & X')|(-> & -> & ->)].
    + rewrite !HB in E by assumption. eapply (iDistinct T I); eauto.
    + rewrite BX, HB in E by assumption. pose proof (proj2 (iPtrs T I c1 X)). unfold x in *. lia.
    + rewrite BX, HB in E by assumption. pose proof (proj2 (iPtrs T I c2 X')). unfold x in *. lia.
    + auto.
  - rewrite HC. unfold x. lia.
  - apply size_old.
  - intros y H. exists []. rewrite app_nil_r. auto.
  - intros k' L A. destruct (BEG k' L A) as (L' & A' & B'). exists L'. split; [exact A'|].
    intros i c B. exists c. split; [auto|].
    destruct (iBegin T I k' L c A (nth_error_In _ _ B)) as (X & _). auto.
Qed.
End Grow.

(** ** Changes which keep chains *)
Lemma keep T T' : Inv T -> tCount T' = tCount T -> (forall y, tSize T' y = tSize T y) ->
  (forall y, fBase (tForest T') y = fBase (tForest T) y) ->
  (forall y, exists_in T y -> exists l, ptrs T' y = ptrs T y ++ l) ->
  linksOk (tForest T') ->
  (forall y p, fParent (tForest T') y = Some p -> exists_in T y /\ exists_in T p) ->
  (forall y, next T' y = next T y) -> tBases T' = tBases T ->
  (forall y, tExpl T y = true -> tExpl T' y = true) -> Inv T' /\ Ext T T'.
Proof.
  intros I HC HS HB HA HL HP N TB HE.
  assert (X : forall y, exists_in T' y <-> exists_in T y) by (unfold exists_in; intro; rewrite HC; tauto).
  assert (RR : forall y z, reach T y z -> reach T' y z).
  { induction 1; [constructor|]. econstructor; eauto. rewrite N. eassumption. }
  split; [split|split]; auto.
  - intros y p H. rewrite !X. eauto.
  - intros y. rewrite X, HB, HC. intro H. destruct (iPtrs T I y H) as (A & B). split; [|exact B].
    destruct (HA y H) as (l & ->). destruct (ptrs T y); [congruence|discriminate].
  - intros y z. rewrite N, !HS. apply (iAsc T I).
  - intros y y' z. rewrite !N. apply (iUniq T I).
  - intros k L c. rewrite TB, X. intros A B. destruct (iBegin T I k L c A B) as (C & D).
    split; [exact C|]. intro y. rewrite N. apply D.
  - intros y. rewrite X, TB. intro H. destruct (iReach T I y H) as (k & L & c & A & B & C). eauto 8.
  - intros k L i c k' L' j c'. rewrite TB, !HB. apply (iDistinct T I).
  - rewrite HC. lia.
  - intros k L H. exists L. split; [congruence|]. intros i c D. exists c. auto.
Qed.
Lemma ptrs_base T x y : fBase (tForest T) x = fBase (tForest T) y -> ptrs T x = ptrs T y.
Proof. unfold ptrs. now intros ->. Qed.
Lemma keep_addAmb T c p : Inv T -> Inv (addAmb T c p) /\ Ext T (addAmb T c p).
Proof.
  intro I. apply keep; auto.
  - intros y _. unfold ptrs. cbn. unfold upd. destruct (Nat.eqb_spec (fBase (tForest T) y) (fBase (tForest T) c)) as [E|E].
    + exists [p]. unfold ptrs. now rewrite E.
    + exists []. now rewrite app_nil_r.
  - apply (iLinks T I).
  - intros y q H. exact (iAlloc T I y q H).
Qed.
Lemma keep_explicit T e b : Inv T -> Inv (setExplicit T e (tExpl T e || b)) /\
  Ext T (setExplicit T e (tExpl T e || b)).
Proof.
  intro I. apply keep; auto.
  - intros y _. exists []. now rewrite app_nil_r.
  - apply (iLinks T I).
  - intros y q H. exact (iAlloc T I y q H).
  - intros y H. cbn. unfold upd. destruct (Nat.eqb_spec y e) as [->|]; [now rewrite H|exact H].
Qed.

(** ** Walks *)
Lemma walk_spec T : forall fuel x l, walk fuel (tForest T) x = Some l ->
  (exists t, l = x :: t) /\ (forall d, next T (List.last l d) = None /\ In (List.last l d) l) /\
  (forall y, In y l <-> reach T x y).
Proof.
  induction fuel as [|fuel IH]; cbn; [discriminate|]. intros x l.
  destruct (getNext (tForest T) x) as [y|] eqn:E.
  - destruct (walk fuel (tForest T) y) as [l'|] eqn:W; [|discriminate]. cbn. intros [= <-].
    destruct (IH y l' W) as ((t & ->) & A & B). split; [eauto|]. split.
    + intro d. destruct (A d) as (A1 & A2). cbn [List.last]. split; [exact A1|right; exact A2].
    + intro z. cbn [In]. rewrite <- (B z) || idtac. split.
      * intros [<-|H]; [constructor|]. apply reachNext with y; [exact E|]. now apply B.
      * intro H. inversion H as [|? w ? N R]; subst; [auto|]. right. apply B.
        unfold next in N. congruence.
  - intros [= <-]. split; [eauto|]. split.
    + intro d. cbn. auto.
    + intro z. cbn. split; [intros [<-|[]]; constructor|].
      intro H. inversion H as [|? w ? N R]; subst; [auto|]. unfold next in N. congruence.
Qed.
Lemma walk_total T : Inv T -> forall fuel x L, NoDup L ->
  (forall y, In y L -> exists_in T y /\ lessSize (tSize T y) (tSize T x)) ->
  exists_in T x -> tCount T < length L + fuel ->
  walk fuel (tForest T) x <> None.
Proof.
  intro I. induction fuel as [|fuel IH]; intros x L ND HL HX LT.
  - exfalso. assert (length L <= length (seq 0 (tCount T))).
    { apply NoDup_incl_length; [exact ND|]. intros y H. apply in_seq.
      destruct (HL y H) as (E & _). unfold exists_in in E. lia. }
    rewrite seq_length in *. lia.
  - cbn. destruct (getNext (tForest T) x) as [y|] eqn:E; [|discriminate].
    assert (W : walk fuel (tForest T) y <> None).
    { apply (IH y (x :: L)).
      - constructor; [|exact ND]. intro H. destruct (HL x H) as (_ & Z). now apply less_irrefl in Z.
      - pose proof (iAsc T I x y E) as A. intros z [<-|H]; [auto|].
        destruct (HL z H) as (Z & Z'). split; [exact Z|]. eapply less_trans; eauto.
      - exact (proj2 (next_alloc T x y I E)).
      - cbn. lia. }
    destruct (walk fuel (tForest T) y); [discriminate|congruence].
Qed.
Lemma chainOf_total T x : Inv T -> exists_in T x -> exists l, chainOf T x = Some l.
Proof.
  intros I X. unfold chainOf. destruct (walk (S (tCount T)) (tForest T) x) as [l|] eqn:E; [eauto|].
  exfalso. apply (walk_total T I (S (tCount T)) x []) in E; auto; [constructor|cbn; tauto].
Qed.
Lemma walk_first T P : forall fuel x l u, walk fuel (tForest T) x = Some l -> find P l = Some u ->
  u = x \/ exists w, next T w = Some u /\ P w = false /\ reach T x w.
Proof.
  induction fuel as [|fuel IH]; cbn; [discriminate|]. intros x l u.
  destruct (getNext (tForest T) x) as [y|] eqn:E.
  - destruct (walk fuel (tForest T) y) as [l'|] eqn:W; [|discriminate]. cbn. intros [= <-]. cbn.
    destruct (P x) eqn:Q; [intros [= ->]; auto|]. intro F.
    destruct (IH y l' u W F) as [-> |(w & H & PW & R)].
    + right. exists x. split; [exact E|]. split; [exact Q|constructor].
    + right. exists w. split; [exact H|]. split; [exact PW|]. econstructor; eauto.
  - intros [= <-]. cbn. destruct (P x); [intros [= ->]; auto|discriminate].
Qed.

(** ** Insertion *)
Lemma alloc_next T b s y : Inv T -> next (alloc T b s) y = next T y.
Proof.
  intro I. unfold next, getNext, isSameBase. cbn. destruct (fParent (tForest T) y) as [p|] eqn:E; [|reflexivity].
  destruct (iAlloc T I y p E) as (A & B). unfold exists_in in *. unfold upd.
  destruct (Nat.eqb_spec y (tCount T)); [lia|]. destruct (Nat.eqb_spec p (tCount T)); [lia|]. reflexivity.
Qed.
Lemma alloc_links T b s : Inv T -> linksOk (tForest (alloc T b s)) /\
  isFresh (tForest (alloc T b s)) (tCount T).
Proof.
  intro I. split.
  - exact (iLinks T I).
  - destruct (inv_fresh T I) as (A & B & C & D). repeat split; assumption.
Qed.


Lemma alloc_facts U bs s : Inv U -> let x := tCount U in
  (forall y, exists_in U y -> fBase (tForest (alloc U bs s)) y = fBase (tForest U) y) /\
  fBase (tForest (alloc U bs s)) x = bs.
Proof.
  intros IU x. split.
  - intros y Y. cbn. unfold upd. destruct (Nat.eqb_spec y (tCount U)); [unfold exists_in in Y; lia|reflexivity].
  - cbn. unfold upd, x. now rewrite Nat.eqb_refl.
Qed.
Lemma splice_before U u s : Inv U -> exists_in U u -> lessSize s (tSize U u) ->
  (forall w, next U w = Some u -> lessSize (tSize U w) s) ->
  let x := tCount U in
  exists f, splicePrev (tForest (alloc U (fBase (tForest U) u) s)) u (Some x) = Some f /\
  forall N, tForest N = f -> tSize N = upd (tSize U) x s -> tAmb N = tAmb U ->
    tCount N = S x -> tExpl N = upd (tExpl U) x false ->
    (tBases N = tBases U /\ (exists y, next U y = Some u)) \/
    (exists k l1 l2, tBases U k = Some (l1 ++ u :: l2) /\
       tBases N = upd (tBases U) k (Some (l1 ++ x :: l2))) ->
    Inv N /\ Ext U N /\ next N x = Some u /\ (forall y, next U y = Some u -> next N y = Some x).
Proof.
  intros IU XU LS LP x. destruct (alloc_links U (fBase (tForest U) u) s IU) as (AL & AF).
  destruct (alloc_facts U (fBase (tForest U) u) s IU) as (AB & AX).
  set (A := alloc U (fBase (tForest U) u) s) in *.
  assert (UX : u <> x) by (unfold exists_in, x in *; lia).
  assert (AN : forall y, getNext (tForest A) y = next U y) by (intro; apply alloc_next; exact IU).
  destruct (splicePrev_new (tForest A) u x AL AF UX) as (f & E & FL & FB & FP & FN).
  { fold x in AX. rewrite AX, AB by exact XU. reflexivity. }
  { intros y z. rewrite !AN. apply (iUniq U IU). }
  { rewrite AN. intro H. apply (iAsc U IU) in H. now apply less_irrefl in H. }
  exists f. split; [exact E|]. intros N NF NS NA NC NX NB.
  assert (NN : forall y, next N y = if Nat.eqb y x then Some u
     else if opt_eqb (next U y) (Some u) then Some x else next U y).
  { intro y. unfold next at 1. rewrite NF, FN, !AN. reflexivity. }
  assert (NBs : forall y, exists_in U y -> fBase (tForest N) y = fBase (tForest U) y).
  { intros y Y. rewrite NF, FB. auto. }
  assert (NBx : fBase (tForest N) x = fBase (tForest U) u) by (rewrite NF, FB; exact AX).
  assert (NSx : tSize N x = s) by (rewrite NS; apply upd_same).
  assert (G : Inv N /\ Ext U N).
  { apply grow_before with (u := u); auto; fold x.
    - intro y. rewrite NSx, NS. reflexivity.
    - intros y Y. unfold ptrs. rewrite NA, NBs by exact Y. reflexivity.
    - split.
      + unfold ptrs. rewrite NA, NBx. exact (proj1 (iPtrs U IU u XU)).
      + rewrite NBx. pose proof (proj2 (iPtrs U IU u XU)). fold x in H. lia.
    - rewrite NF. exact FL.
    - intros y p. rewrite NF. intro H. unfold exists_in. rewrite NC.
      assert (P : forall z q, fParent (tForest A) z = Some q -> z < x /\ q < x).
      { intros z q Q. exact (iAlloc U IU z q Q). }
      destruct (FP y p H) as [(-> & ->)|[(-> & Q)|Q]].
      + unfold exists_in in XU. fold x in XU. lia.
      + apply P in Q. lia.
      + apply P in Q. lia.
    - intros y Y Q. rewrite NX. unfold upd. destruct (Nat.eqb_spec y x); [|exact Q].
      unfold exists_in, x in *. lia.
    - rewrite NSx. exact LS.
    - intros y Y. rewrite NSx. auto. }
  destruct G as (G1 & G2). split; [exact G1|]. split; [exact G2|]. split.
  - rewrite NN, Nat.eqb_refl. reflexivity.
  - intros y Y. rewrite NN. destruct (Nat.eqb_spec y x) as [->|].
    + apply (next_alloc U _ _ IU) in Y. unfold exists_in, x in Y. lia.
    + rewrite Y. cbn. now rewrite Nat.eqb_refl.
Qed.
Lemma splice_end U last s : Inv U -> exists_in U last -> next U last = None ->
  lessSize (tSize U last) s ->
  let x := tCount U in
  exists f, spliceNext (tForest (alloc U (fBase (tForest U) last) s)) last (Some x) = Some f /\
  let N := setForest (alloc U (fBase (tForest U) last) s) f in
  Inv N /\ Ext U N /\ next N last = Some x.
Proof.
  intros IU XU EN LS x. destruct (alloc_links U (fBase (tForest U) last) s IU) as (AL & AF).
  destruct (alloc_facts U (fBase (tForest U) last) s IU) as (AB & AX).
  set (A := alloc U (fBase (tForest U) last) s) in *.
  assert (UX : last <> x) by (unfold exists_in, x in *; lia).
  assert (AN : forall y, getNext (tForest A) y = next U y) by (intro; apply alloc_next; exact IU).
  destruct (spliceNext_new (tForest A) last x AL AF UX) as (f & E & FL & FB & FP & FN).
  { fold x in AX. rewrite AX, AB by exact XU. reflexivity. }
  { rewrite AN. exact EN. }
  exists f. split; [exact E|]. intro N.
  assert (NN : forall y, next N y = if Nat.eqb y last then Some x else if Nat.eqb y x then None else next U y).
  { intro y. unfold next at 1. cbn. rewrite FN, !AN. reflexivity. }
  assert (NSx : tSize N x = s) by (cbn; apply upd_same).
  assert (NBs : forall y, exists_in U y -> fBase (tForest N) y = fBase (tForest U) y).
  { intros y Y. change (tForest N) with f. rewrite FB. auto. }
  assert (NBx : fBase (tForest N) x = fBase (tForest U) last) by (change (tForest N) with f; rewrite FB; exact AX).
  assert (G : Inv N /\ Ext U N).
  { apply grow_end with (last := last); auto; fold x.
    - intro y. rewrite NSx. reflexivity.
    - intros y Y. unfold ptrs. rewrite NBs by exact Y. reflexivity.
    - split.
      + unfold ptrs. rewrite NBx. exact (proj1 (iPtrs U IU last XU)).
      + rewrite NBx. pose proof (proj2 (iPtrs U IU last XU)). fold x in H. lia.
    - intros y p H. unfold exists_in. cbn. fold x.
      assert (P : forall z q, fParent (tForest A) z = Some q -> z < x /\ q < x).
      { intros z q Q. exact (iAlloc U IU z q Q). }
      destruct (FP y p H) as [(-> & Q)|[(-> & ->)|Q]].
      + apply P in Q. lia.
      + unfold exists_in in XU. fold x in XU. lia.
      + apply P in Q. lia.
    - intros y Y Q. cbn. unfold upd. fold x. destruct (Nat.eqb_spec y x); [|exact Q].
      unfold exists_in, x in *. lia.
    - rewrite NSx. exact LS. }
  destruct G as (G1 & G2). split; [exact G1|]. split; [exact G2|].
  rewrite NN, Nat.eqb_refl. reflexivity.
Qed.
Lemma new_chain U k p s l : Inv U -> (tBases U k = Some l \/ tBases U k = None /\ l = []) ->
  let x := tCount U in
  let A := alloc U x s in
  let N := setBases (Tree (tForest A) (tSize A) (tExpl A) (upd (tAmb A) x [p]) (tBases A) (tCount A))
             k (l ++ [x]) in
  Inv N /\ Ext U N /\ ptrs N x = [p].
Proof.
  intros IU KL x A N. destruct (alloc_links U x s IU) as (AL & AF).
  destruct (alloc_facts U x s IU) as (AB & AX). fold A in AL, AF, AB, AX. fold x in AX.
  assert (PX : ptrs N x = [p]).
  { unfold ptrs. change (fBase (tForest N) x) with (fBase (tForest A) x). rewrite AX. apply upd_same. }
  assert (NSx : tSize N x = s) by (cbn; apply upd_same).
  assert (G : Inv N /\ Ext U N).
  { apply grow_new with (k := k) (l := l); auto; fold x.
    - intro y. rewrite NSx. reflexivity.
    - intros y Y. unfold ptrs. change (fBase (tForest N) y) with (fBase (tForest A) y).
      rewrite (AB y Y). cbn. unfold upd.
      destruct (Nat.eqb_spec (fBase (tForest U) y) x) as [E|]; [|reflexivity].
      pose proof (proj2 (iPtrs U IU y Y)). unfold x in E. lia.
    - rewrite PX. split; [discriminate|]. change (fBase (tForest N) x) with (fBase (tForest A) x).
      rewrite AX. lia.
    - intros y q H. destruct (iAlloc U IU y q H). unfold exists_in in *. cbn. lia.
    - intros y Y Q. cbn. unfold upd. fold x. destruct (Nat.eqb_spec y x); [|exact Q].
      unfold exists_in, x in *. lia.
    - intro y. apply (alloc_next U x s y IU). }
  tauto.
Qed.

Section Insert.
Variable sameBase : ptr -> ptr -> bool.
Variable alias : ptr -> ptr -> aliasResult.
Variable stripPointer : ptr -> ptr.
Variable stripToBase : mloc -> mloc.
Variable stripMemoryLevel : mloc -> option mloc.
Variable clarify : mloc -> mloc.
Hypothesis aliasRefl : forall p, alias p p = ARMust.
Hypothesis baseRefl : forall p, sameBase p p = true.

Notation samePointer := (samePointer alias).
Notation insertLoop := (insertLoop sameBase alias stripMemoryLevel).
Notation insert := (insert sameBase alias stripPointer stripMemoryLevel).
Notation addLevels := (addLevels sameBase alias stripPointer stripToBase stripMemoryLevel).
Notation add := (add sameBase alias stripPointer stripToBase stripMemoryLevel clarify).

Lemma samePointer_must p : forall l b, samePointer b l p = ARMust <-> exists q, In q l /\ alias q p = ARMust.
Proof.
  induction l as [|q l IH]; intro b; cbn.
  - destruct b; split; try discriminate; intros (q & [] & _).
  - destruct (alias q p) eqn:E; rewrite ?IH.
    1-3: split; [intros (r & H & R); eauto|intros (r & [<-|H] & R); [congruence|eauto]].
    split; eauto.
Qed.
Lemma samePointer_no p : forall l b, (forall q, In q l -> alias q p <> ARMay) -> b = false ->
  samePointer b l p = ARNo \/ samePointer b l p = ARMust.
Proof.
  induction l as [|q l IH]; intros b H ->; cbn; [auto|].
  destruct (alias q p) eqn:E; auto.
  - apply IH; auto. intros r R. apply H. now right.
  - exfalso. exact (H q (or_introl eq_refl) E).
  - apply IH; auto. intros r R. apply H. now right.
Qed.

(** e is found in one of chains with the key k *)
Definition placed (T : tree) (k : ptr) (b : mloc) (e : em) : Prop :=
  exists L i c, tBases T k = Some L /\ nth_error L i = Some c /\
    sameBase (front T c) (mPtr b) = true /\ (exists q, In q (ptrs T c) /\ alias q (mPtr b) = ARMust) /\
    reach T c e /\ equalSize (mSize b) (tSize T e).
Lemma placed_ext T T' k b e : Inv T -> Ext T T' -> placed T k b e -> placed T' k b e.
Proof.
  intros I E (L & i & c & A & B & C & (q & Q & D) & R & S).
  destruct (eBegin T T' E k L A) as (L' & A' & F). destruct (F i c B) as (c' & B' & G & RR).
  destruct (iBegin T I k L c A (nth_error_In _ _ B)) as (X & _).
  assert (XE : exists_in T e) by (eapply reach_exists; eauto).
  assert (P : exists l, ptrs T' c' = ptrs T c ++ l).
  { destruct (ePtrs T T' E c X) as (l & PL). exists l. rewrite <- PL. apply ptrs_base.
    rewrite G. symmetry. apply (eBase T T' E c X). }
  destruct P as (l & P).
  exists L', i, c'. split; [exact A'|]. split; [exact B'|]. split; [|split; [|split; [auto|]]].
  - rewrite <- C. unfold front. rewrite P. pose proof (proj1 (iPtrs T I c X)).
    destruct (ptrs T c); [congruence|reflexivity].
  - exists q. rewrite P, in_app_iff. auto.
  - rewrite (eSize T T' E e XE). exact S.
Qed.
Lemma placed_represents T k b e : Inv T -> placed T k b e -> represents alias T b e.
Proof.
  intros I (L & i & c & A & B & C & (q & Q & D) & R & S).
  destruct (iBegin T I k L c A (nth_error_In _ _ B)) as (X & _).
  split; [eapply reach_exists; eauto|]. split; [exact S|]. exists q. split; [|exact D].
  rewrite <- (ptrs_base T c e); [exact Q|]. now apply reach_base.
Qed.

Lemma exists_alloc T b s y : exists_in T y -> exists_in (alloc T b s) y.
Proof. unfold exists_in. cbn. lia. Qed.

Definition onlyOld (T T' : tree) : Prop :=
  forall y, exists_in T' y -> tExpl T' y = true -> exists_in T y /\ tExpl T y = true.
Lemma onlyOld_upd U N : tCount N = S (tCount U) -> tExpl N = upd (tExpl U) (tCount U) false ->
  onlyOld U N.
Proof.
  intros C X y Y. rewrite X. unfold upd. destruct (Nat.eqb_spec y (tCount U)); [discriminate|].
  unfold exists_in in *. rewrite C in Y. intro. split; [lia|assumption].
Qed.
Lemma onlyOld_trans T U W : onlyOld T U -> onlyOld U W -> onlyOld T W.
Proof. intros A B y Y Q. destruct (B y Y Q). auto. Qed.

Lemma insertLoop_spec fuel k b : forall rest seen T T' r, Inv T ->
  tBases T k = Some (rev seen ++ rest) ->
  insertLoop fuel T k b seen rest = Some (T', r) ->
  Inv T' /\ Ext T T' /\ onlyOld T T' /\
  match r with
  | None => tBases T' k = tBases T k
  | Some (e, _, _) => placed T' k b e
  end.
Proof.
  induction rest as [|c rest IH]; intros seen T T' r I TB; cbn [EMChainModel.insertLoop].
  { intros [= <- <-]. split; [exact I|]. split; [apply ext_refl|]. split; [|reflexivity].
    intros y; auto. }
  assert (IC : In c (rev seen ++ c :: rest)) by apply in_elt.
  assert (NC : nth_error (rev seen ++ c :: rest) (length (rev seen)) = Some c).
  { rewrite nth_error_app2, Nat.sub_diag by lia. reflexivity. }
  assert (SKIP : forall U T' r, Inv U -> Ext T U -> tBases U = tBases T -> onlyOld T U ->
    insertLoop fuel U k b (c :: seen) rest = Some (T', r) ->
    Inv T' /\ Ext T T' /\ onlyOld T T' /\
    match r with None => tBases T' k = tBases T k | Some (e, _, _) => placed T' k b e end).
  { intros U T1 r1 IU EU TU XU H.
    destruct (IH (c :: seen) U T1 r1 IU) as (A & B & C & D); auto.
    { rewrite TU, TB. cbn. now rewrite <- app_assoc. }
    split; [exact A|]. split; [eapply ext_trans; eauto|]. split; [eapply onlyOld_trans; eauto|].
    destruct r1 as [[[e n] m]|]; [exact D|congruence]. }
  assert (OO : onlyOld T T) by (intros y; auto).
  destruct (sameBase (front T c) (mPtr b)) eqn:SB; [|apply SKIP; auto using ext_refl].
  destruct (iBegin T I k _ c TB IC) as (XC & NB).
  (* the tree after a possible addition of a pointer *)
  assert (STEP : forall U may, Inv U -> Ext T U -> tBases U = tBases T -> onlyOld T U ->
    tForest U = tForest T -> tCount U = tCount T ->
    (exists q, In q (ptrs U c) /\ alias q (mPtr b) = ARMust) ->
    match chainOf U c, strip sameBase stripMemoryLevel fuel b b with
    | Some l, Some s =>
      let last := List.last l c in
      let target := find (covers U b) l in
      if fits sameBase U last (match target with None => true | _ => false end) s then
        match target with
        | None =>
          let x := tCount U in
          let T := alloc U (fBase (tForest U) last) (mSize b) in
          match spliceNext (tForest T) last (Some x) with
          | None => None
          | Some f => Some (setForest T f, Some (x, true, may))
          end
        | Some u =>
          if (sizecmp (mSize b) (tSize U u) =? 0)%Z then Some (U, Some (u, false, may))
          else
            let x := tCount U in
            let T := alloc U (fBase (tForest U) u) (mSize b) in
            match splicePrev (tForest T) u (Some x) with
            | None => None
            | Some f =>
              let T := setForest T f in
              let T := if Nat.eqb c u then setBases T k (rev seen ++ x :: rest) else T in
              Some (T, Some (x, true, may))
            end
        end
      else insertLoop fuel U k b (c :: seen) rest
    | _, _ => None
    end = Some (T', r) ->
    Inv T' /\ Ext T T' /\ onlyOld T T' /\
    match r with None => tBases T' k = tBases T k | Some (e, _, _) => placed T' k b e end).
  { intros U may IU EU TU XU FU CU PU.
    assert (XCU : exists_in U c) by (unfold exists_in in *; lia).
    assert (NBU : forall y, next U y <> Some c) by (intro y; unfold next; rewrite FU; apply NB).
    assert (TBU : tBases U k = Some (rev seen ++ c :: rest)) by congruence.
    assert (SBU : sameBase (front U c) (mPtr b) = true).
    { destruct (ePtrs T U EU c XC) as (q & Q). unfold front in *. rewrite Q.
      pose proof (proj1 (iPtrs T I c XC)). destruct (ptrs T c); [congruence|exact SB]. }
    clear FU CU. destruct (chainOf U c) as [l|] eqn:W; [|discriminate].
    destruct (strip sameBase stripMemoryLevel fuel b b) as [s|]; [|discriminate].
    cbn zeta. destruct (walk_spec U _ _ _ W) as (_ & LAST & RE).
    destruct (fits _ _ _ _ _); [|apply SKIP; auto].
    (* a location of the chain has the wanted size *)
    assert (DONE : forall N e L c', Ext U N -> Inv N ->
      tBases N k = Some L -> nth_error L (length (rev seen)) = Some c' ->
      fBase (tForest N) c' = fBase (tForest U) c -> reach N c' e ->
      equalSize (mSize b) (tSize N e) -> placed N k b e).
    { intros N e L c' EN IN A B BB R S. exists L, (length (rev seen)), c'.
      assert (P : exists q, ptrs N c' = ptrs U c ++ q).
      { destruct (ePtrs U N EN c XCU) as (q & Q). exists q. rewrite <- Q. apply ptrs_base.
        rewrite BB. symmetry. apply (eBase U N EN c XCU). }
      destruct P as (q & P). split; [exact A|]. split; [exact B|]. split; [|split; [|auto]].
      - rewrite <- SBU. unfold front. rewrite P. pose proof (proj1 (iPtrs U IU c XCU)).
        destruct (ptrs U c); [congruence|reflexivity].
      - destruct PU as (p & Q & D). exists p. rewrite P, in_app_iff. auto. }
    assert (EQ : equalSize (mSize b) (mSize b)) by (split; apply less_irrefl).
    destruct (find (covers U b) l) as [u|] eqn:F.
    - pose proof (find_some _ _ F) as (UL & UC). apply covers_spec in UC.
      assert (RU : reach U c u) by (now apply RE).
      assert (XUu : exists_in U u) by (eapply reach_exists; eauto).
      destruct (Z.eqb_spec (sizecmp (mSize b) (tSize U u)) 0) as [Z|Z].
      + intros [= <- <-]. split; [exact IU|]. split; [exact EU|]. split; [exact XU|].
        apply sizecmp_equal in Z. eapply DONE; eauto using ext_refl.
      + assert (LS : lessSize (mSize b) (tSize U u)).
        { apply sizecmp_less. rewrite <- (sizecmp_greater (mSize b)) in UC. lia. }
        assert (FIRST : u = c \/ exists w, next U w = Some u /\ lessSize (tSize U w) (mSize b) /\ reach U c w).
        { destruct (walk_first U _ _ _ _ _ W F) as [H|(w & H & Q & R)]; [auto|].
          right. exists w. split; [exact H|]. split; [now apply covers_false|exact R]. }
        destruct (splice_before U u (mSize b) IU XUu LS) as (f & E & G).
        { intros w Q. destruct FIRST as [-> |(w' & Q' & H & _)]; [now apply NBU in Q|].
          now rewrite (iUniq U IU _ _ _ Q Q'). }
        rewrite E. intros [= <- <-].
        match goal with |- Inv ?g /\ _ => set (V := g) end.
        destruct (G V) as (G1 & G2 & G3 & G4).
        1-5: unfold V; destruct (Nat.eqb c u); reflexivity.
        { unfold V. destruct (Nat.eqb_spec c u) as [->|NE].
          - right. exists k, (rev seen), rest. split; [exact TBU|reflexivity].
          - left. split; [reflexivity|]. destruct FIRST as [Q|(w & Q & _)]; [congruence|eauto]. }
        split; [exact G1|]. split; [eapply ext_trans; eauto|]. split.
        { apply onlyOld_trans with U; [exact XU|]. apply onlyOld_upd; unfold V; destruct (Nat.eqb c u); reflexivity. }
        assert (SX : tSize V (tCount U) = mSize b).
        { unfold V; destruct (Nat.eqb c u); cbn; apply upd_same. }
        destruct (eBegin U V G2 k _ TBU) as (L' & A' & FF). destruct (FF _ _ NC) as (c' & B' & BB & RR).
        eapply DONE; [exact G2|exact G1|exact A'|exact B'|exact BB| |rewrite SX; exact EQ].
        destruct FIRST as [-> |(w & Q & _ & R)].
        * (* the new location is the beginning *)
          assert (TN : tBases V k = Some (rev seen ++ tCount U :: rest)).
          { unfold V. rewrite Nat.eqb_refl. cbn. apply upd_same. }
          rewrite TN in A'. injection A' as <-. rewrite nth_error_app2, Nat.sub_diag in B' by lia.
          cbn in B'. injection B' as <-. constructor.
        * apply reach_trans with w; [now apply RR|apply reach_one; auto].
    - destruct (LAST c) as (LN & LI). set (last := List.last l c) in *.
      assert (RL : reach U c last) by (now apply RE).
      assert (XL : exists_in U last) by (eapply reach_exists; eauto).
      destruct (splice_end U last (mSize b) IU XL LN) as (f & E & G1 & G2 & G3).
      { apply covers_false. apply (find_none _ _ F _ LI). }
      rewrite E. intros [= <- <-].
      split; [exact G1|]. split; [eapply ext_trans; eauto|]. split.
      { apply onlyOld_trans with U; [exact XU|]. apply onlyOld_upd; reflexivity. }
      destruct (eBegin _ _ G2 k _ TBU) as (L' & A' & FF). destruct (FF _ _ NC) as (c' & B' & BB & RR).
      eapply DONE; [exact G2|exact G1|exact A'|exact B'|exact BB| |cbn; rewrite upd_same; exact EQ].
      apply reach_trans with last; [now apply RR|now apply reach_one]. }
  destruct (samePointer false (ptrs T c) (mPtr b)) eqn:SP.
  1,3: apply SKIP; auto using ext_refl.
  - destruct (keep_addAmb T c (mPtr b) I) as (KI & KE). apply STEP; auto.
    exists (mPtr b). split; [|apply aliasRefl]. unfold ptrs. cbn. rewrite upd_same. apply in_or_app. cbn. auto.
  - apply STEP; auto using ext_refl. eapply samePointer_must. exact SP.
Qed.

Lemma insert_spec fuel T b T' e n m : Inv T -> insert fuel T b = Some (T', e, n, m) ->
  Inv T' /\ Ext T T' /\ onlyOld T T' /\ placed T' (stripPointer (mPtr b)) b e.
Proof.
  intros I. unfold EMChainModel.insert. set (k := stripPointer (mPtr b)).
  set (l := match tBases T k with Some l => l | None => [] end).
  destruct (insertLoop fuel T k b [] l) as [[U [[[e' n'] m']|]]|] eqn:E; [| |discriminate].
  - intros [= <- <- <- <-]. destruct (tBases T k) as [l'|] eqn:TB; subst l.
    + exact (insertLoop_spec fuel k b l' [] T U _ I TB E).
    + discriminate E.
  - assert (H : Inv U /\ Ext T U /\ onlyOld T U /\ (tBases U k = Some l \/ tBases U k = None /\ l = [])).
    { destruct (tBases T k) as [l'|] eqn:TB; subst l.
      - destruct (insertLoop_spec fuel k b l' [] T U _ I TB E) as (A & B & C & D).
        split; [exact A|]. split; [exact B|]. split; [exact C|]. left. congruence.
      - injection E as <-. split; [exact I|]. split; [apply ext_refl|]. split; [intros y; auto|auto]. }
    destruct H as (IU & EU & OU & TU).
    destruct (new_chain U k (mPtr b) (mSize b) l IU TU) as (A & B & C).
    match type of C with ptrs ?t _ = _ => set (V := t) in * end.
    intros [= <- <- <- <-]. change (Inv V /\ Ext T V /\ onlyOld T V /\ placed V k b (tCount U)).
    split; [exact A|]. split; [eapply ext_trans; eauto|]. split.
    { eapply onlyOld_trans; [exact OU|]. apply onlyOld_upd; reflexivity. }
    exists (l ++ [tCount U]), (length l), (tCount U). split; [cbn; apply upd_same|]. split.
    { rewrite nth_error_app2, Nat.sub_diag by lia. reflexivity. }
    split; [unfold front; rewrite C; cbn; apply baseRefl|]. split.
    { exists (mPtr b). rewrite C. split; [left; reflexivity|apply aliasRefl]. }
    split; [constructor|]. cbn. rewrite upd_same. split; apply less_irrefl.
Qed.
Lemma represents_ext T T' l e : Inv T -> Ext T T' -> represents alias T l e -> represents alias T' l e.
Proof.
  intros I E (X & S & q & Q & D). pose proof (eCount T T' E).
  split; [unfold exists_in in *; lia|]. split; [rewrite (eSize T T' E e X); exact S|].
  exists q. split; [|exact D]. destruct (ePtrs T T' E e X) as (l' & ->). apply in_or_app. auto.
Qed.
Lemma merge_keep U p e f : Inv U -> exists_in U p -> exists_in U e ->
  isSameBase (tForest U) p e = false -> fParent (tForest U) p = None ->
  mergeNext (tForest U) p (Some e) = Some f -> Inv (setForest U f) /\ Ext U (setForest U f).
Proof.
  intros I XP XE SB PN M. unfold isSameBase in SB. apply Nat.eqb_neq in SB.
  destruct (mergeNext_new (tForest U) p e (iLinks U I) PN SB) as (f' & E & L & B & P & N).
  rewrite E in M. injection M as <-. apply keep; auto.
  - intros y _. exists []. unfold ptrs. cbn. now rewrite B, app_nil_r.
  - intros y q H. destruct (P y q H) as [(-> & ->)|Q]; [auto|]. exact (iAlloc U I y q Q).
Qed.

Lemma addLevels_spec : forall fuel T b prevEnd T', Inv T ->
  (forall p, prevEnd = Some p -> exists_in T p) ->
  addLevels fuel T b prevEnd = Some T' ->
  Inv T' /\ Ext T T' /\
  match prevEnd with
  | Some _ => onlyOld T T'
  | None => exists e, placed T' (stripPointer (mPtr (stripToBase b))) (stripToBase b) e /\ tExpl T' e = true /\
      forall y, exists_in T' y -> tExpl T' y = true -> y = e \/ exists_in T y /\ tExpl T y = true
  end.
Proof.
  induction fuel as [|fuel IH]; intros T b prevEnd T' I HP; cbn [EMChainModel.addLevels]; [discriminate|].
  cbn zeta. set (b' := stripToBase b).
  destruct (insert (S fuel) T b') as [[[[U e] n] m]|] eqn:E; [|discriminate].
  destruct (insert_spec _ _ _ _ _ _ _ I E) as (IU & EU & OU & PU).
  set (fl := match prevEnd with None => true | _ => false end) in *.
  destruct (keep_explicit U e fl IU) as (IV & EV).
  set (V := setExplicit U e (tExpl U e || fl)) in *.
  assert (XU : exists_in U e) by (destruct (placed_represents U _ _ _ IU PU); auto).
  assert (XP : forall p, prevEnd = Some p -> exists_in V p).
  { intros p H. apply HP in H. pose proof (eCount T U EU). unfold exists_in in *. cbn. lia. }
  match goal with |- match ?g with Some _ => _ | None => _ end = _ -> _ => destruct g as [W|] eqn:M end;
    [|discriminate].
  assert (KW : Inv W /\ Ext V W /\ tExpl W = tExpl V /\ tCount W = tCount V).
  { destruct prevEnd as [p|]; [|injection M as <-; auto using ext_refl].
    destruct (isSameBase (tForest V) p e) eqn:SB; [injection M as <-; auto using ext_refl|].
    destruct (fParent (tForest V) p) as [q|] eqn:PP.
    { destruct (Nat.eqb q e); [|discriminate]. injection M as <-; auto using ext_refl. }
    destruct (mergeNext (tForest V) p (Some e)) as [f|] eqn:MN; [|discriminate].
    cbn in M. injection M as <-. destruct (merge_keep V p e f IV (XP p eq_refl) XU SB PP MN).
    split; [assumption|]. split; [assumption|]. split; reflexivity. }
  clear M. destruct KW as (IW & EW & XW & CW).
  assert (ETW : Ext T W) by (exact (ext_trans T U W I EU (ext_trans U V W IU EV EW))).
  assert (EUW : Ext U W) by exact (ext_trans U V W IU EV EW).
  assert (PW : placed W (stripPointer (mPtr b')) b' e) by exact (placed_ext U W _ _ _ IU EUW PU).
  assert (XE : exists_in W e) by (unfold exists_in in *; rewrite CW; exact XU).
  assert (OW : match prevEnd with
    | Some _ => onlyOld T W
    | None => tExpl W e = true /\ forall y, exists_in W y -> tExpl W y = true -> y = e \/ exists_in T y /\ tExpl T y = true
    end).
  { assert (Q : forall y, exists_in W y -> tExpl W y = true -> y = e /\ (tExpl U e || fl = true) \/ exists_in T y /\ tExpl T y = true).
    { intros y Y. rewrite XW. cbn. unfold upd. destruct (Nat.eqb_spec y e) as [->|NE]; [auto|].
      intro Q. right. apply OU; [|exact Q]. unfold exists_in in *. rewrite CW in Y. exact Y. }
    destruct prevEnd as [p|]; cbn in fl.
    - intros y Y Z. destruct (Q y Y Z) as [(-> & R)|R]; [|exact R]. unfold fl in R. rewrite orb_false_r in R.
      apply OU; [exact XU|exact R].
    - split; [|intros y Y Z; destruct (Q y Y Z) as [(-> & _)|R]; auto].
      rewrite XW. cbn. rewrite upd_same. unfold fl. apply orb_true_r. }
  assert (END : forall pe, (forall p, Some pe = Some p -> exists_in W p) ->
    match stripMemoryLevel b' with None => Some W | Some b => addLevels fuel W b (Some pe) end = Some T' ->
    Inv T' /\ Ext W T' /\ onlyOld W T').
  { intros pe Hpe. destruct (stripMemoryLevel b') as [b2|].
    - intro H. exact (IH W b2 (Some pe) T' IW Hpe H).
    - intros [= <-]. split; [exact IW|]. split; [apply ext_refl|intros y; auto]. }
  assert (FIN : Inv T' /\ Ext W T' /\ onlyOld W T' ->
    Inv T' /\ Ext T T' /\
    match prevEnd with
    | Some _ => onlyOld T T'
    | None => exists e, placed T' (stripPointer (mPtr b')) b' e /\ tExpl T' e = true /\
        forall y, exists_in T' y -> tExpl T' y = true -> y = e \/ exists_in T y /\ tExpl T y = true
    end).
  { intros (A & B & C). split; [exact A|]. split; [eapply ext_trans; [exact I|exact ETW|exact B]|].
    destruct prevEnd as [p|]; [eapply onlyOld_trans; eauto|]. destruct OW as (O1 & O2).
    exists e. split; [eapply placed_ext; [exact IW|exact B|exact PW]|]. split; [apply (eExpl W T' B); auto|].
    intros y Y Q. destruct (C y Y Q). auto. }
  destruct (negb n && negb m).
  - destruct (opt_eqb prevEnd (Some e)) eqn:OE.
    + destruct prevEnd as [p|]; [|discriminate]. cbn in OE. apply Nat.eqb_eq in OE. subst p.
      intro H. apply FIN. apply (END e); [|exact H]. intros p [= <-]. exact XE.
    + intros [= <-]. apply FIN. split; [exact IW|]. split; [apply ext_refl|intros y; auto].
  - destruct (chainOf W e) as [l|] eqn:CH; [|discriminate]. intro H. apply FIN.
    apply (END (List.last l e)); [|exact H]. intros p [= <-].
    destruct (walk_spec W _ _ _ CH) as (_ & LA & RE). destruct (LA e) as (_ & LI).
    eapply reach_exists; [exact IW|now apply RE|exact XE].
Qed.

Lemma built_spec h T : built sameBase alias stripPointer stripToBase stripMemoryLevel clarify h T ->
  Inv T /\
  (forall l, In l h -> let b := stripToBase (clarify (stripToBase l)) in
     exists e, placed T (stripPointer (mPtr b)) b e /\ tExpl T e = true) /\
  (forall e, exists_in T e -> tExpl T e = true ->
     exists l, In l h /\ represents alias T (stripToBase (clarify (stripToBase l))) e).
Proof.
  induction 1 as [|h T fuel l T' B (I & P & X) A].
  { split; [apply inv_empty|]. split; [intros l []|]. unfold exists_in. cbn. intros e LT. lia. }
  destruct (addLevels_spec fuel T _ None T' I ltac:(discriminate) A) as (I' & E & e & PE & XE & O).
  split; [exact I'|]. split.
  - intros l' [<-|H]; [exists e; auto|]. destruct (P l' H) as (e' & P' & X'). exists e'.
    assert (Y : exists_in T e') by (destruct (placed_represents T _ _ _ I P'); auto).
    split; [exact (placed_ext T T' _ _ _ I E P')|apply (eExpl T T' E); auto].
  - intros y Y Q. destruct (O y Y Q) as [-> |(Y' & Q')].
    + exists l. split; [left; reflexivity|]. exact (placed_represents T' _ _ _ I' PE).
    + destruct (X y Y' Q') as (l' & L & R). exists l'. split; [right; exact L|]. exact (represents_ext T T' _ _ I E R).
Qed.

(** ** Search *)
Notation findLoop := (findLoop sameBase alias stripMemoryLevel).
Notation lookUp := (lookUp sameBase alias stripPointer stripMemoryLevel).
Notation findMem := (findMem sameBase alias stripPointer stripToBase stripMemoryLevel clarify).

Lemma walk_smallest T P : forall fuel x l u, walk fuel (tForest T) x = Some l -> find P l = Some u ->
  forall y, reach T x y -> P y = true -> reach T u y.
Proof.
  induction fuel as [|fuel IH]; cbn; [discriminate|]. intros x l u.
  destruct (getNext (tForest T) x) as [y|] eqn:E.
  - destruct (walk fuel (tForest T) y) as [l'|] eqn:W; [|discriminate]. cbn. intros [= <-]. cbn.
    destruct (P x) eqn:Q; [intros [= <-]; auto|]. intros F z R PZ.
    inversion R; subst; [congruence|]. apply (IH y l' u W F z); [|exact PZ].
    unfold next in *. congruence.
  - intros [= <-]. cbn. destruct (P x) eqn:Q; [intros [= <-]; auto|discriminate].
Qed.
Lemma reach_less T x y : Inv T -> reach T x y -> ~ lessSize (tSize T y) (tSize T x).
Proof.
  intros I R. assert (H : x = y \/ lessSize (tSize T x) (tSize T y)).
  { induction R as [|x y z N R IH]; [auto|]. right. apply (iAsc T I) in N.
    destruct IH as [->|L]; [exact N|eapply less_trans; eauto]. }
  destruct H as [->|L]; [apply less_irrefl|]. intro L'. exact (less_irrefl _ (less_trans _ _ _ L L')).
Qed.

(** An answer for b in a chain of the list L *)
Definition answer (T : tree) (L : list em) (b : mloc) (r : em) : Prop :=
  exists c, In c L /\ sameBase (front T c) (mPtr b) = true /\
    (exists q, In q (ptrs T c) /\ alias q (mPtr b) = ARMust) /\
    reach T c r /\ ~ lessSize (tSize T r) (mSize b) /\
    forall y, reach T c y -> ~ lessSize (tSize T y) (mSize b) -> reach T r y.
Lemma findLoop_spec fuel T b L : Inv T ->
  strip sameBase stripMemoryLevel fuel b b <> None -> decided sameBase alias T (mPtr b) ->
  forall rest first,
  (forall c, In c rest -> In c L /\ exists_in T c) ->
  (forall r, first = Some r -> answer T L b r) ->
  first <> None \/ (exists c r, In c rest /\ sameBase (front T c) (mPtr b) = true /\
    (exists q, In q (ptrs T c) /\ alias q (mPtr b) = ARMust) /\
    reach T c r /\ ~ lessSize (tSize T r) (mSize b)) ->
  exists r, findLoop fuel T b first rest = Some (Some r) /\ answer T L b r.
Proof.
  intros I ST D. induction rest as [|c rest IH]; intros first HR HF OK; cbn [EMChainModel.findLoop].
  { destruct OK as [NF|(c & r & [] & _)]. destruct first as [r|]; [|congruence]. eauto. }
  assert (HR' : forall c, In c rest -> In c L /\ exists_in T c) by (intros; apply HR; right; assumption).
  destruct (HR c (or_introl eq_refl)) as (CL & XC).
  destruct (sameBase (front T c) (mPtr b)) eqn:SB.
  2:{ apply IH; auto. destruct OK as [?|(c' & r & [<-|H] & ? & K)]; [auto|congruence|]. right. exists c', r. auto. }
  destruct (samePointer false (ptrs T c) (mPtr b)) eqn:SP.
  - apply IH; auto. destruct OK as [?|(c' & r & [<-|H] & ? & M & K)]; [auto| |right; exists c', r; auto].
    apply samePointer_must with (b := false) in M. congruence.
  - exfalso. destruct (D c XC SB) as [M|N].
    + apply samePointer_must with (b := false) in M. congruence.
    + destruct (samePointer_no (mPtr b) (ptrs T c) false N eq_refl); congruence.
  - exfalso. destruct (D c XC SB) as [M|N].
    + apply samePointer_must with (b := false) in M. congruence.
    + destruct (samePointer_no (mPtr b) (ptrs T c) false N eq_refl); congruence.
  - destruct (chainOf_total T c I XC) as (l & W). rewrite W.
    destruct (walk_spec T _ _ _ W) as (_ & _ & RE).
    destruct (find (covers T b) l) as [r|] eqn:F.
    + assert (A : answer T L b r).
      { destruct (find_some _ _ F) as (IL & CV). exists c. split; [exact CL|]. split; [exact SB|].
        split; [now apply samePointer_must with (b := false)|]. split; [now apply RE|].
        apply covers_spec in CV. split; [exact CV|]. intros y R Y.
        apply (walk_smallest T _ _ _ _ _ W F y R). now apply covers_spec. }
      destruct (strip sameBase stripMemoryLevel fuel b b) as [s|]; [|congruence].
      destruct (fits _ _ _ _ _); [eauto|]. apply IH; auto.
      * intros r'. destruct first; [auto|]. now intros [= <-].
      * left. destruct first; discriminate.
    + apply IH; auto. destruct OK as [?|(c' & r & [<-|H] & ? & M & R & K)]; [auto| |right; exists c', r; auto].
      exfalso. apply RE in R. apply (find_none _ _ F) in R. apply covers_spec in K. congruence.
Qed.
Lemma answer_smallest T k L b r : Inv T -> tBases T k = Some L -> answer T L b r ->
  smallest alias T b r /\ sameBase (front T r) (mPtr b) = true.
Proof.
  intros I TB (c & IC & SB & (q & Q & M) & R & S & K).
  destruct (iBegin T I k L c TB IC) as (XC & _).
  assert (XR : exists_in T r) by (eapply reach_exists; eauto).
  assert (PP : ptrs T r = ptrs T c) by (symmetry; apply ptrs_base; now apply reach_base).
  split; [|unfold front in *; rewrite PP; exact SB].
  split; [exact XR|]. split; [exists q; rewrite PP; auto|]. split; [exact S|].
  intros x (XX & _ & BE) NL. apply (reach_less T r x I). apply K; [|exact NL].
  destruct (iReach T I x XX) as (k' & L' & c' & TB' & IC' & R').
  destruct (In_nth_error _ _ IC) as (i & N). destruct (In_nth_error _ _ IC') as (j & N').
  destruct (iDistinct T I k L i c k' L' j c' TB N TB' N') as (<- & <-).
  { apply reach_base in R, R'. congruence. }
  congruence.
Qed.
Lemma find_spec h T l fuel : built sameBase alias stripPointer stripToBase stripMemoryLevel clarify h T ->
  In l h -> let b := clarify (stripToBase l) in stripToBase b = b ->
  strip sameBase stripMemoryLevel fuel b b <> None -> decided sameBase alias T (mPtr b) ->
  exists r, lookUp fuel T b = Some (Some r) /\ smallest alias T b r /\ sameBase (front T r) (mPtr b) = true.
Proof.
  intros B IL b SB ST D. destruct (built_spec h T B) as (I & P & _).
  destruct (P l IL) as (e & (L & i & c & TB & N & S & M & R & EQ) & _). fold b in TB, S, M, EQ. rewrite SB in TB, S, M, EQ.
  destruct (findLoop_spec fuel T b L I ST D L None) as (r & E & A).
  - intros c' H. split; [exact H|]. exact (proj1 (iBegin T I _ L c' TB H)).
  - discriminate.
  - right. exists c, e. split; [exact (nth_error_In _ _ N)|]. split; [exact S|]. split; [exact M|].
    split; [exact R|]. exact (proj2 EQ).
  - exists r. split; [|exact (answer_smallest T _ L b r I TB A)].
    unfold EMChainModel.lookUp. rewrite TB. exact E.
Qed.

(** ** The cache *)
Lemma served_spec h T c : served sameBase alias stripPointer stripToBase stripMemoryLevel clarify h T c ->
  (exists ls, built sameBase alias stripPointer stripToBase stripMemoryLevel clarify ls T /\
     forall l, In l ls <-> In (RAdd l) h) /\
  forall b r, cached c b = Some r -> exists fuel, lookUp fuel T b = Some r.
Proof.
  assert (EQB : forall a b, mloc_eqb a b = true -> a = b).
  { intros [p s] [q t]. unfold mloc_eqb. cbn. rewrite andb_true_iff, Nat.eqb_eq. intros (-> & E).
    f_equal. destruct s, t; cbn in E; try discriminate; try apply Z.eqb_eq in E; congruence. }
  induction 1 as [|h T c fuel r T' c' a S ((ls & B & IN) & C) E].
  { split; [|discriminate]. exists []. split; [constructor|]. cbn. tauto. }
  destruct r as [l|l]; cbn in E.
  - unfold addMem in E. destruct (add fuel T l) as [U|] eqn:A; [|discriminate]. cbn in E.
    injection E as <- <- <-. split; [|discriminate]. exists (l :: ls). split; [econstructor; eauto|].
    intro l'. cbn. rewrite IN. split; intros [H|H]; auto; left; congruence.
  - destruct (findMem fuel T c l) as [[x d]|] eqn:F; [|discriminate]. cbn in E.
    injection E as <- <- <-. split.
    { exists ls. split; [exact B|]. intro l'. cbn. rewrite IN. split; [auto|]. intros [?|?]; [discriminate|auto]. }
    unfold EMChainModel.findMem in F. destruct (cached c (clarify (stripToBase l))) as [y|] eqn:Q.
    + injection F as <- <-. exact C.
    + destruct (lookUp fuel T (clarify (stripToBase l))) as [y|] eqn:Z; [|discriminate].
      injection F as <- <-. intros b r. unfold cached. cbn [find fst].
      destruct (mloc_eqb (clarify (stripToBase l)) b) eqn:M; [|exact (C b r)].
      apply EQB in M. subst b. cbn. intros [= <-]. eauto.
Qed.
Lemma strip_det b : forall f1 f2 s r1 r2, strip sameBase stripMemoryLevel f1 b s = Some r1 ->
  strip sameBase stripMemoryLevel f2 b s = Some r2 -> r1 = r2.
Proof.
  induction f1 as [|f1 IH]; cbn; [discriminate|]. intros [|f2] s r1 r2; cbn; [discriminate|].
  destruct (stripMemoryLevel s) as [s'|]; [|congruence].
  destruct (sameBase (mPtr s') (mPtr b)); [apply IH|congruence].
Qed.
Lemma findLoop_det T b f1 f2 : forall rest first r1 r2, findLoop f1 T b first rest = Some r1 ->
  findLoop f2 T b first rest = Some r2 -> r1 = r2.
Proof.
  induction rest as [|c rest IH]; intros first r1 r2; cbn [EMChainModel.findLoop]; [congruence|].
  destruct (sameBase _ _); [|apply IH]. destruct (samePointer _ _ _); try discriminate; [apply IH|].
  destruct (chainOf T c) as [l|]; [|discriminate]. destruct (find _ l) as [r|]; [|apply IH].
  destruct (strip _ _ f1 b b) as [s|] eqn:S1; [|discriminate].
  destruct (strip _ _ f2 b b) as [s'|] eqn:S2; [|discriminate].
  rewrite (strip_det b _ _ _ _ _ S1 S2). destruct (fits _ _ _ _ _); [congruence|apply IH].
Qed.
Lemma lookUp_det T b f1 f2 r1 r2 : lookUp f1 T b = Some r1 -> lookUp f2 T b = Some r2 -> r1 = r2.
Proof. unfold EMChainModel.lookUp. destruct (tBases T _); [apply findLoop_det|congruence]. Qed.
End Insert.

Lemma reach_linear T c : forall x y, reach T c x -> reach T c y -> reach T x y \/ reach T y x.
Proof.
  intros x y R. revert y. induction R as [|c d x N R IH]; intros y Q; [auto|].
  inversion Q; subst; [right; econstructor; eauto|]. apply IH. congruence.
Qed.
Lemma same_chain T x y : Inv T -> sameChain T x y -> reach T x y \/ reach T y x.
Proof.
  intros I (X & Y & B). destruct (iReach T I x X) as (k & L & c & TB & IC & R).
  destruct (iReach T I y Y) as (k' & L' & c' & TB' & IC' & R').
  destruct (In_nth_error _ _ IC) as (i & N). destruct (In_nth_error _ _ IC') as (j & N').
  destruct (iDistinct T I k L i c k' L' j c' TB N TB' N') as (<- & <-).
  { apply reach_base in R, R'. congruence. }
  assert (c' = c) as -> by congruence. exact (reach_linear T c x y R R').
Qed.
Lemma reach_strict T x y : Inv T -> reach T x y -> x = y \/ lessSize (tSize T x) (tSize T y).
Proof.
  intros I. induction 1 as [|x y z N R IH]; [auto|]. right. apply (iAsc T I) in N.
  destruct IH as [->|L]; [exact N|eapply less_trans; eauto].
Qed.
Lemma ext_reach T T' x y : Inv T -> Inv T' -> Ext T T' -> exists_in T x -> reach T x y -> reach T' x y.
Proof.
  intros I I' E X R. assert (Y : exists_in T y) by (eapply reach_exists; eauto).
  destruct (same_chain T' x y I') as [H|H]; [| exact H |].
  { pose proof (eCount T T' E). unfold sameChain, exists_in in *.
    split; [lia|]. split; [lia|]. rewrite !(eBase T T' E) by assumption. now apply reach_base. }
  destruct (reach_strict T x y I R) as [->|L]; [constructor|].
  destruct (reach_strict T' y x I' H) as [->|L']; [constructor|].
  rewrite !(eSize T T' E) in L' by assumption. exfalso. exact (less_irrefl _ (less_trans _ _ _ L L')).
Qed.
