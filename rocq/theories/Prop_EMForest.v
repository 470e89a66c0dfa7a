(** Properties C39 and C40 of trees of estimate memory locations. *)
From Coq Require Import Arith Bool List Lia.
From Verif Require Import EMForestModel EMForestSpec.
Import ListNotations.

(** ** Lists *)
Lemma in_without c l x : In x (without c l) <-> In x l /\ x <> c.
Proof. unfold without. rewrite filter_In, negb_true_iff, Nat.eqb_neq. tauto. Qed.
Lemma without_notin c l : ~ In c l -> without c l = l.
Proof.
  induction l as [|y l IH]; cbn; intro N; [reflexivity|].
  destruct (Nat.eqb_spec y c); cbn; [subst; tauto|]. f_equal. tauto.
Qed.
Lemma nodup_without c l : NoDup l -> NoDup (without c l).
Proof.
  induction 1; cbn; [constructor|]. destruct (_ =? _); cbn; [assumption|].
  constructor; [|assumption]. fold (without c l). rewrite in_without. tauto.
Qed.
Lemma nodup_app_one c (l : list em) : NoDup l -> ~ In c l -> NoDup (l ++ [c]).
Proof.
  induction 1; cbn; intro N; [repeat constructor; auto|].
  constructor; [rewrite in_app_iff; cbn; intuition|]. apply IHNoDup. tauto.
Qed.
Lemma opt_eqb_spec a b : opt_eqb a b = true <-> a = b.
Proof.
  destruct a, b; cbn; rewrite ?Nat.eqb_eq; split; congruence.
Qed.
Lemma opt_eqb_neq a b : a <> b -> opt_eqb a b = false.
Proof.
  intro N. destruct (opt_eqb a b) eqn:E; [|reflexivity]. apply opt_eqb_spec in E. tauto.
Qed.
Lemma without_split l1 k l2 c : NoDup (l1 ++ k :: l2) ->
  without k (l1 ++ c :: k :: l2) = if c =? k then l1 ++ l2 else l1 ++ c :: l2.
Proof.
  intro N. assert (A : ~ In k l1 /\ ~ In k l2).
  { apply NoDup_remove_2 in N. rewrite in_app_iff in N. tauto. }
  assert (W : forall a b, without k (a ++ b) = without k a ++ without k b)
    by (intros; apply filter_app).
  assert (WC : forall a b, without k (a :: b) = if a =? k then without k b else a :: without k b)
    by (intros a b; unfold without; cbn; destruct (a =? k); reflexivity).
  rewrite W, !WC, Nat.eqb_refl, (without_notin k l1), (without_notin k l2) by tauto.
  destruct (c =? k); reflexivity.
Qed.
Lemma insertBefore_split l1 k l2 c : ~ In k l1 ->
  insertBefore (l1 ++ k :: l2) k c = l1 ++ c :: k :: l2.
Proof.
  induction l1 as [|y l1 IH]; cbn; intro N; [now rewrite Nat.eqb_refl|].
  destruct (Nat.eqb_spec y k); [subst; tauto|]. f_equal. apply IH. tauto.
Qed.
Lemma find_split {A} (g : A -> bool) l k : find g l = Some k ->
  exists l1 l2, l = l1 ++ k :: l2 /\ g k = true /\ forall y, In y l1 -> g y = false.
Proof.
  induction l as [|y l IH]; cbn; [discriminate|]. destruct (g y) eqn:E; intro H.
  - injection H as <-. now exists [], l.
  - destruct (IH H) as (l1 & l2 & -> & K & F). exists (y :: l1), l2. cbn.
    split; [reflexivity|]. split; [exact K|]. intros z [<-|Z]; auto.
Qed.
Lemma existsb_in c l : existsb (Nat.eqb c) l = true <-> In c l.
Proof.
  rewrite existsb_exists. split.
  - intros (x & X & E). apply Nat.eqb_eq in E. now subst.
  - intro X. exists c. now rewrite Nat.eqb_refl.
Qed.

Lemma upd_same {A} (f : em -> A) x v : upd f x v x = v.
Proof. unfold upd. now rewrite Nat.eqb_refl. Qed.

Lemma leave_ok f x : linksOk f -> exists f1, leave f x = Some f1 /\
  fParent f1 = fParent f /\ fBase f1 = fBase f /\
  forall y, fKids f1 y = without x (fKids f y).
Proof.
  intros (L & _). unfold leave. destruct (fParent f x) as [p|] eqn:P.
  - unfold removeKid.
    destruct (existsb (Nat.eqb x) (fKids f p)) eqn:E.
    + eexists. split; [reflexivity|]. split; [reflexivity|]. split; [reflexivity|].
      intro y. cbn. unfold upd. destruct (Nat.eqb_spec y p); [now subst|].
      symmetry. apply without_notin. intro I. apply L in I. congruence.
    + apply L in P. apply existsb_in in P. congruence.
  - exists f. repeat split. intro y. symmetry. apply without_notin. intro I.
    apply L in I. congruence.
Qed.

Lemma rooted_acyclic f x : rooted f x -> forall p, fParent f x = Some p -> ~ above f p x.
Proof.
  induction 1 as [x N|x q Q R IH]; intros p P A; [congruence|].
  assert (p = q) by congruence. subst q.
  (* x is above p, so p has a parent which x reaches *)
  inversion A as [z HZ|z q y E A' HZ]; subst.
  - exact (IH _ P (aboveSelf f _)).
  - apply (IH q E). clear - A' P.
    induction A' as [y|y r z E A' IH]; [|econstructor; [exact E|now apply IH]].
    econstructor; [exact P|constructor].
Qed.
Lemma rooted_irrefl f x : rooted f x -> fParent f x <> Some x.
Proof. intros R P. apply (rooted_acyclic f x R x P). constructor. Qed.

(** ** Operations give their pictures *)
Section Ops.
Variable f : forest.
Hypothesis LK : linksOk f.

Lemma spliceNext_ok c n : c <> n -> fParent f c <> Some n ->
  exists f', spliceNext f c (Some n) = Some f' /\ nextSpliced f c n f'.
Proof.
  intros CN PN. unfold spliceNext. rewrite !opt_eqb_neq by congruence.
  destruct (leave_ok f c LK) as (f1 & E1 & P1 & B1 & K1). rewrite E1.
  (* n still is in the list of its parent *)
  assert (LV : exists f2, leave f1 n = Some f2 /\ fParent f2 = fParent f /\
    fBase f2 = fBase f /\ forall y, fKids f2 y = without n (without c (fKids f y))).
  { unfold leave. rewrite P1. destruct LK as (L & _).
    destruct (fParent f n) as [q|] eqn:Q.
    - unfold removeKid. rewrite K1.
      destruct (existsb (Nat.eqb n) (without c (fKids f q))) eqn:E.
      + eexists. split; [reflexivity|]. split; [exact P1|]. split; [exact B1|].
        intro y. cbn. unfold upd. rewrite K1. destruct (Nat.eqb_spec y q); [now subst|].
        symmetry. apply without_notin. rewrite in_without. intros (I & _). apply L in I. congruence.
      + exfalso. apply L in Q.
        assert (I : In n (without c (fKids f q))) by (apply in_without; split; [exact Q|congruence]).
        apply existsb_in in I. congruence.
    - exists f1. split; [reflexivity|]. split; [exact P1|]. split; [exact B1|].
      intro y. rewrite K1. symmetry. apply without_notin. rewrite in_without. intros (I & _).
      apply L in I. congruence. }
  destruct LV as (f2 & E2 & P2 & B2 & K2). rewrite E2.
  eexists. split; [reflexivity|].
  destruct (fParent f c) as [p|] eqn:PC.
  - assert (PNN : p <> n) by congruence.
    cbn. unfold upd. rewrite ?P2, ?PC.
    destruct (Nat.eqb_spec c n); [congruence|].
    split; [|split].
    + intro x. cbn. unfold upd. rewrite ?P2, ?PC. destruct (x =? c), (x =? n); reflexivity.
    + intro x. cbn. unfold upd. rewrite ?P2, ?PC, ?K2. cbn.
      destruct (Nat.eqb_spec n p); [congruence|].
      destruct (Nat.eqb_spec x n), (Nat.eqb_spec p x), (Nat.eqb_spec x p);
        subst; try congruence; cbn; rewrite ?app_nil_r, ?K2; reflexivity.
    + intro x. cbn. now rewrite ?P2, ?PC, ?B2.
  - cbn. unfold upd. rewrite ?P2, ?PC.
    destruct (Nat.eqb_spec c n); [congruence|].
    split; [|split].
    + intro x. cbn. unfold upd. rewrite ?P2, ?PC. destruct (x =? c), (x =? n); reflexivity.
    + intro x. cbn. unfold upd. rewrite ?P2, ?PC, ?K2. cbn.
      destruct (Nat.eqb_spec x n); subst; cbn; rewrite ?app_nil_r, ?K2; reflexivity.
    + intro x. cbn. now rewrite ?P2, ?PC, ?B2.
Qed.
Lemma mergeNext_ok c n : c <> n -> fParent f c <> Some n ->
  exists f', mergeNext f c (Some n) = Some f' /\ nextMerged f c n f'.
Proof.
  intros CN PN. unfold mergeNext. rewrite !opt_eqb_neq by congruence.
  destruct (leave_ok f c LK) as (f1 & E1 & P1 & B1 & K1). rewrite E1.
  eexists. split; [reflexivity|]. split; [|split]; intro x; cbn; unfold upd.
  - now rewrite P1.
  - rewrite !K1. destruct (Nat.eqb_spec x n); subst; cbn; rewrite ?app_nil_r; reflexivity.
  - now rewrite B1.
Qed.
Lemma mergePrev_ok c p : c <> p -> fParent f p <> Some c ->
  exists f', mergePrev f c (Some p) = Some f' /\ prevMerged f c p f'.
Proof.
  intros CN PN. unfold mergePrev. rewrite !opt_eqb_neq by congruence.
  destruct (leave_ok f p LK) as (f1 & E1 & P1 & B1 & K1). rewrite E1.
  eexists. split; [reflexivity|]. split; [|split]; intro x; cbn; unfold upd.
  - now rewrite P1.
  - rewrite !K1. destruct (Nat.eqb_spec x c); subst; cbn; rewrite ?app_nil_r; reflexivity.
  - now rewrite B1.
Qed.
Lemma orphan_parents l : forall g x,
  fParent (fold_left (fun f k => setParent f k None) l g) x =
  if existsb (Nat.eqb x) l then None else fParent g x.
Proof.
  induction l as [|k l IH]; intros g x; cbn; [reflexivity|].
  rewrite IH. cbn. unfold upd. destruct (x =? k); cbn; [|reflexivity].
  now destruct (existsb _ _).
Qed.
Lemma orphan_rest l : forall g,
  fKids (fold_left (fun f k => setParent f k None) l g) = fKids g /\
  fBase (fold_left (fun f k => setParent f k None) l g) = fBase g.
Proof. induction l as [|k l IH]; intro g; cbn; [auto|]. destruct (IH (setParent g k None)). auto. Qed.
Hypothesis RT : forall x, rooted f x.
Lemma splicePrev_ok c p : c <> p -> fParent f p <> Some c ->
  exists f', splicePrev f c (Some p) = Some f' /\ prevSpliced f c p f'.
Proof.
  intros CN PN. unfold splicePrev. rewrite !opt_eqb_neq by congruence.
  destruct (leave_ok f p LK) as (f1 & E1 & P1 & B1 & K1). rewrite E1. clear E1.
  destruct LK as (L & ND).
  assert (NK : ~ In p (fKids f p)).
  { intro I. apply L in I. exact (rooted_irrefl f p (RT p) I). }
  set (f2 := setParent f1 p (Some c)).
  set (f3 := fold_left (fun f k => setParent f k None) (fKids f2 p) f2).
  set (f4 := setKids f3 p []).
  assert (P4 : forall x, fParent f4 x = if x =? p then Some c
    else if opt_eqb (fParent f x) (Some p) then None else fParent f x).
  { intro x. unfold f4. cbn. unfold f3. rewrite orphan_parents. cbn. unfold upd.
    rewrite K1, P1, (without_notin p (fKids f p)) by exact NK.
    destruct (Nat.eqb_spec x p) as [->|N].
    - destruct (existsb _ _) eqn:E; [|reflexivity]. apply existsb_in in E. tauto.
    - destruct (existsb _ _) eqn:E.
      + apply existsb_in, L in E. rewrite E. cbn. now rewrite Nat.eqb_refl.
      + rewrite opt_eqb_neq; [reflexivity|]. intro Q. apply L, existsb_in in Q. congruence. }
  assert (K4 : forall x, fKids f4 x = if x =? p then [] else without p (fKids f x)).
  { intro x. unfold f4. cbn. unfold upd. destruct (x =? p); [reflexivity|].
    unfold f3. rewrite (proj1 (orphan_rest _ _)). cbn. apply K1. }
  assert (B4 : forall x, fBase f4 x = fBase f x).
  { intro x. unfold f4. cbn. unfold f3. rewrite (proj2 (orphan_rest _ _)). cbn. now rewrite B1. }
  assert (KC : fKids f4 c = fKids f c).
  { rewrite K4. destruct (Nat.eqb_spec c p); [congruence|]. apply without_notin.
    intro I. apply L in I. congruence. }
  rewrite KC. clearbody f4. clear f3 f2.
  destruct (find (fun i => isSameBase f4 i p) (fKids f c)) as [k|] eqn:F.
  - destruct (find_split _ _ _ F) as (l1 & l2 & SP & GK & GL).
    unfold isSameBase in GK, GL. rewrite !B4 in GK. apply Nat.eqb_eq in GK.
    assert (NDC : NoDup (l1 ++ k :: l2)) by (rewrite <- SP; apply ND).
    assert (NK1 : ~ In k l1) by (apply NoDup_remove_2 in NDC; rewrite in_app_iff in NDC; tauto).
    assert (KP : fParent f k = Some c) by (apply L; rewrite SP, in_app_iff; cbn; auto).
    assert (NKP : k <> p) by congruence.
    assert (NKC : k <> c) by (intro; subst k; exact (rooted_irrefl f c (RT c) KP)).
    unfold removeKid. cbn [fKids setKids setParent]. rewrite upd_same, KC, SP.
    rewrite insertBefore_split by exact NK1.
    destruct (existsb (Nat.eqb k) (l1 ++ p :: k :: l2)) eqn:E.
    2:{ exfalso. assert (I : In k (l1 ++ p :: k :: l2)) by (rewrite in_app_iff; cbn; auto).
        apply existsb_in in I. congruence. }
    eexists. split; [reflexivity|]. split.
    + intro x. cbn. apply B4.
    + left. exists l1, k, l2. split; [exact SP|]. split; [exact GK|]. split.
      { intros y Y. specialize (GL y Y). rewrite !B4 in GL. now apply Nat.eqb_neq in GL. }
      cbn. unfold upd. rewrite !Nat.eqb_refl.
      destruct (Nat.eqb_spec c p); [congruence|]. destruct (Nat.eqb_spec p c); [congruence|].
      split; [|split; [|split]].
      * rewrite without_split by exact NDC. destruct (Nat.eqb_spec p k); congruence.
      * rewrite K4, Nat.eqb_refl. reflexivity.
      * intros x N1 N2. destruct (Nat.eqb_spec x p); [congruence|].
        destruct (Nat.eqb_spec x c); [congruence|]. rewrite K4.
        destruct (Nat.eqb_spec x p); [congruence|]. reflexivity.
      * intro x. rewrite P4. destruct (Nat.eqb_spec x k), (Nat.eqb_spec x p); subst; congruence || reflexivity.
  - eexists. split; [reflexivity|]. split; [intro x; cbn; apply B4|].
    right. cbn. unfold upd. rewrite !Nat.eqb_refl. rewrite KC.
    destruct (Nat.eqb_spec p c); [congruence|].
    split; [|split; [|split; [|split]]].
    + intros y Y Q. pose proof (find_none _ _ F y Y) as G. cbn in G. unfold isSameBase in G.
      rewrite !B4, Nat.eqb_neq in G. congruence.
    + reflexivity.
    + rewrite K4, Nat.eqb_refl. reflexivity.
    + intros x N1 N2. destruct (Nat.eqb_spec x c); [congruence|]. rewrite K4.
      destruct (Nat.eqb_spec x p); [congruence|]. reflexivity.
    + exact P4.
Qed.
End Ops.

(** ** Operations keep trees *)
Lemma above_trans f x y z : above f x y -> above f y z -> above f x z.
Proof. induction 1; intro; [assumption|]. econstructor; eauto. Qed.
Lemma links_next_spliced f c n f' : trees f -> c <> n -> fParent f c <> Some n ->
  nextSpliced f c n f' -> linksOk f'.
Proof.
  intros ((L & ND) & _) CN PN (P & K & _). split.
  - intros x q. rewrite P, K. rewrite !in_app_iff, !in_without, <- L.
    unfold appendIf.
    destruct (Nat.eqb_spec x c), (Nat.eqb_spec x n), (Nat.eqb_spec q n),
      (opt_eqb (fParent f c) (Some q)) eqn:E; subst; cbn; try congruence;
      try apply opt_eqb_spec in E;
      intuition (try congruence); subst; try congruence;
      match goal with H : opt_eqb ?a ?b = false |- _ =>
        assert (a <> b) by (intro HH; apply opt_eqb_spec in HH; congruence) end;
      intuition congruence.
  - intro q. rewrite K. unfold appendIf.
    assert (A : NoDup (without n (without c (fKids f q)))) by (apply nodup_without, nodup_without, ND).
    destruct (Nat.eqb_spec q n), (opt_eqb (fParent f c) (Some q)) eqn:E; cbn;
      rewrite ?app_nil_r; try assumption.
    + apply opt_eqb_spec in E. congruence.
    + apply nodup_app_one; [assumption|]. rewrite !in_without. tauto.
    + apply nodup_app_one; [assumption|]. rewrite !in_without. tauto.
Qed.
Lemma links_merged f c n f' : trees f -> c <> n ->
  nextMerged f c n f' -> linksOk f'.
Proof.
  intros ((L & ND) & _) CN (P & K & _). split.
  - intros x q. rewrite P, K. rewrite !in_app_iff, !in_without, <- L. unfold appendIf.
    destruct (Nat.eqb_spec x c), (Nat.eqb_spec q n); subst; cbn; intuition congruence.
  - intro q. rewrite K. unfold appendIf.
    assert (A : NoDup (without c (fKids f q))) by apply nodup_without, ND.
    destruct (q =? n); rewrite ?app_nil_r; [|assumption].
    apply nodup_app_one; [assumption|]. rewrite in_without. tauto.
Qed.
(* a merge with the previous location is a merge of it with the next one *)
Lemma prev_is_next f c p f' : prevMerged f c p f' -> nextMerged f p c f'.
Proof. exact (fun H => H). Qed.
Lemma links_prev_spliced f c p f' : trees f -> c <> p -> fParent f p <> Some c ->
  prevSpliced f c p f' -> linksOk f'.
Proof.
  intros ((L & ND) & RT) CN PN (_ & [C|C]).
  - destruct C as (l1 & k & l2 & SP & BK & BL & KC & KP & KO & P).
    assert (NDC : NoDup (l1 ++ k :: l2)) by (rewrite <- SP; apply ND).
    assert (IN : forall x, In x (l1 ++ k :: l2) <-> fParent f x = Some c)
      by (intro x; rewrite <- SP; symmetry; apply L).
    assert (KPC : fParent f k = Some c) by (apply IN; rewrite in_app_iff; cbn; auto).
    assert (NKP : k <> p) by congruence.
    assert (NP : ~ In p (l1 ++ k :: l2)) by (rewrite IN; exact PN).
    pose proof (NoDup_remove_1 _ _ _ NDC) as ND1.
    pose proof (NoDup_remove_2 _ _ _ NDC) as ND2.
    rewrite in_app_iff in NP, ND2. cbn in NP.
    split.
    + intros x q. rewrite P.
      destruct (Nat.eq_dec q c) as [->|QC]; [|destruct (Nat.eq_dec q p) as [->|QP]].
      * rewrite KC. specialize (IN x). rewrite in_app_iff in IN |- *. cbn in IN |- *.
        destruct (Nat.eqb_spec x p); [subst; tauto|].
        destruct (Nat.eqb_spec x k); [subst; intuition congruence|].
        destruct (opt_eqb (fParent f x) (Some p)) eqn:E.
        -- apply opt_eqb_spec in E. rewrite E in IN. intuition congruence.
        -- intuition congruence.
      * rewrite KP. cbn. destruct (Nat.eqb_spec x p); [subst; intuition congruence|].
        destruct (Nat.eqb_spec x k); [subst; tauto|].
        destruct (opt_eqb (fParent f x) (Some p)) eqn:E.
        -- intuition congruence.
        -- assert (fParent f x <> Some p) by (intro Q; apply opt_eqb_spec in Q; congruence).
           intuition congruence.
      * rewrite KO by assumption. rewrite in_without, <- L.
        destruct (Nat.eqb_spec x p); [subst; intuition congruence|].
        destruct (Nat.eqb_spec x k); [subst; intuition congruence|].
        destruct (opt_eqb (fParent f x) (Some p)) eqn:E.
        -- apply opt_eqb_spec in E. intuition congruence.
        -- intuition congruence.
    + intro q. destruct (Nat.eq_dec q c) as [->|QC]; [|destruct (Nat.eq_dec q p) as [->|QP]].
      * rewrite KC. apply NoDup_Add with (a := p) (l := l1 ++ l2); [apply Add_app|].
        split; [exact ND1|]. rewrite in_app_iff. tauto.
      * rewrite KP. repeat constructor; auto.
      * rewrite KO by assumption. apply nodup_without, ND.
  - destruct C as (BL & KC & KP & KO & P).
    split.
    + intros x q. rewrite P.
      destruct (Nat.eq_dec q c) as [->|QC]; [|destruct (Nat.eq_dec q p) as [->|QP]].
      * rewrite KC, in_app_iff, <- L. cbn.
        destruct (Nat.eqb_spec x p); [subst; tauto|].
        destruct (opt_eqb (fParent f x) (Some p)) eqn:E.
        -- apply opt_eqb_spec in E. rewrite E. intuition congruence.
        -- intuition congruence.
      * rewrite KP. cbn. destruct (Nat.eqb_spec x p); [subst; intuition congruence|].
        destruct (opt_eqb (fParent f x) (Some p)) eqn:E; [intuition congruence|].
        assert (fParent f x <> Some p) by (intro Q; apply opt_eqb_spec in Q; congruence).
        intuition congruence.
      * rewrite KO by assumption. rewrite in_without, <- L.
        destruct (Nat.eqb_spec x p); [subst; intuition congruence|].
        destruct (opt_eqb (fParent f x) (Some p)) eqn:E.
        -- apply opt_eqb_spec in E. intuition congruence.
        -- intuition congruence.
    + intro q. destruct (Nat.eq_dec q c) as [->|QC]; [|destruct (Nat.eq_dec q p) as [->|QP]].
      * rewrite KC. apply nodup_app_one; [apply ND|]. rewrite <- L. exact PN.
      * rewrite KP. constructor.
      * rewrite KO by assumption. apply nodup_without, ND.
Qed.

(* a path which is the same in two heaps *)
Lemma rooted_same f f' x : rooted f x ->
  (forall y, above f x y -> fParent f' y = fParent f y) -> rooted f' x.
Proof.
  induction 1 as [x N|x p P R IH]; intro S.
  - apply rootedRoot. rewrite S; [exact N|constructor].
  - apply rootedStep with p; [rewrite S; [exact P|constructor]|].
    apply IH. intros y Y. apply S. econstructor; eauto.
Qed.
Lemma rooted_next_spliced f c n f' : trees f -> c <> n -> fParent f c <> Some n ->
  ~ above f c n -> nextSpliced f c n f' -> forall x, rooted f' x.
Proof.
  intros (_ & RT) CN PN AB (P & _).
  assert (N : rooted f' n).
  { destruct (fParent f c) as [q|] eqn:Q.
    - apply rootedStep with q.
      + rewrite P. destruct (Nat.eqb_spec n c); [congruence|]. now rewrite Nat.eqb_refl.
      + apply rooted_same with f; [apply RT|]. intros y Y. rewrite P.
        destruct (Nat.eqb_spec y c) as [->|].
        { exfalso. exact (rooted_acyclic f c (RT c) q Q Y). }
        destruct (Nat.eqb_spec y n) as [->|]; [|reflexivity].
        exfalso. apply AB. econstructor; eauto.
    - apply rootedRoot. rewrite P. destruct (Nat.eqb_spec n c); [congruence|].
      now rewrite Nat.eqb_refl. }
  assert (C : rooted f' c).
  { apply rootedStep with n; [|exact N]. now rewrite P, Nat.eqb_refl. }
  intro x. induction (RT x) as [x X|x q X _ IH].
  - destruct (Nat.eq_dec x c) as [->|]; [exact C|]. destruct (Nat.eq_dec x n) as [->|]; [exact N|].
    apply rootedRoot. rewrite P.
    destruct (Nat.eqb_spec x c); [congruence|]. destruct (Nat.eqb_spec x n); congruence.
  - destruct (Nat.eq_dec x c) as [->|]; [exact C|]. destruct (Nat.eq_dec x n) as [->|]; [exact N|].
    apply rootedStep with q; [|exact IH]. rewrite P.
    destruct (Nat.eqb_spec x c); [congruence|]. destruct (Nat.eqb_spec x n); congruence.
Qed.
Lemma rooted_merged f c n f' : trees f -> c <> n ->
  ~ above f n c -> nextMerged f c n f' -> forall x, rooted f' x.
Proof.
  intros (_ & RT) CN AB (P & _).
  assert (N : rooted f' n).
  { apply rooted_same with f; [apply RT|]. intros y Y. rewrite P.
    destruct (Nat.eqb_spec y c) as [->|]; [tauto|reflexivity]. }
  assert (C : rooted f' c).
  { apply rootedStep with n; [|exact N]. now rewrite P, Nat.eqb_refl. }
  intro x. induction (RT x) as [x X|x q X _ IH];
    (destruct (Nat.eq_dec x c) as [->|]; [exact C|]).
  - apply rootedRoot. rewrite P. destruct (Nat.eqb_spec x c); congruence.
  - apply rootedStep with q; [|exact IH]. rewrite P. destruct (Nat.eqb_spec x c); congruence.
Qed.
Lemma rooted_prev_spliced f c p f' : trees f -> c <> p -> fParent f p <> Some c ->
  prevSpliced f c p f' -> forall x, rooted f' x.
Proof.
  intros ((L & _) & RT) CN PN (_ & S).
  (* in both cases a new parent of each location but c, p and k is the old one or none *)
  assert (A : exists ok : em -> Prop,
    (forall x, ok x -> fParent f x = Some c /\ x <> p) /\
    (forall x, (ok x /\ x <> p /\ fParent f' x = Some p) \/
       (~ ok x /\ fParent f' x = if x =? p then Some c
         else if opt_eqb (fParent f x) (Some p) then None else fParent f x))).
  { destruct S as [(l1 & k & l2 & SP & _ & _ & _ & _ & _ & P)|(_ & _ & _ & _ & P)].
    - assert (KPC : fParent f k = Some c) by (apply L; rewrite SP, in_app_iff; cbn; auto).
      exists (fun x => x = k). split; [intros x ->; split; congruence|].
      intro x. destruct (Nat.eq_dec x k) as [->|N].
      + left. split; [reflexivity|]. split; [congruence|]. rewrite P.
        destruct (Nat.eqb_spec k p); [congruence|]. now rewrite Nat.eqb_refl.
      + right. split; [exact N|]. rewrite P.
        destruct (x =? p); [reflexivity|]. destruct (Nat.eqb_spec x k); [congruence|reflexivity].
    - exists (fun _ => False). split; [tauto|]. intro x. right. split; [tauto|apply P]. }
  clear S. destruct A as (ok & OK & P).
  assert (C : rooted f' c).
  { assert (G : forall x, rooted f x -> above f c x -> x <> p -> rooted f' x).
    { intros x R. induction R as [x X|x q X _ IH]; intros AB XP.
      - destruct (P x) as [(O & _ & _)|(_ & Q)]; [apply OK in O as (O & _); congruence|].
        apply rootedRoot. rewrite Q. destruct (Nat.eqb_spec x p); [congruence|].
        rewrite X. reflexivity.
      - destruct (P x) as [(O & _ & _)|(_ & Q)].
        + exfalso. apply OK in O as (O & _). destruct AB as [|a b y AB1 AB2].
          * exact (rooted_irrefl f _ (RT _) O).
          * apply (rooted_acyclic f a (RT a) b AB1).
            apply above_trans with y; [exact AB2|]. econstructor; [exact O|constructor].
        + destruct (Nat.eqb_spec x p); [congruence|].
          destruct (opt_eqb (fParent f x) (Some p)) eqn:E; [now apply rootedRoot|].
          apply rootedStep with q; [congruence|]. apply IH.
          * apply above_trans with x; [exact AB|]. econstructor; [exact X|constructor].
          * intro. subst q. apply opt_eqb_spec in X. congruence. }
    apply G; [apply RT|constructor|congruence]. }
  assert (PR : rooted f' p).
  { destruct (P p) as [(_ & O & _)|(_ & Q)]; [congruence|].
    rewrite Nat.eqb_refl in Q. now apply rootedStep with c. }
  intro x. induction (RT x) as [x X|x q X _ IH];
    (destruct (P x) as [(_ & _ & Q)|(_ & Q)]; [now apply rootedStep with p|]);
    (destruct (Nat.eqb_spec x p); [now subst|]).
  - apply rootedRoot. rewrite Q, X. reflexivity.
  - destruct (opt_eqb (fParent f x) (Some p)); [now apply rootedRoot|].
    apply rootedStep with q; [congruence|exact IH].
Qed.

(** ** C39 *)

(** Operations with locations which are not linked yet.  A location must not
    follow itself, so n must not be below c when c is moved alone, and must not
    be above c when n is moved. *)
Theorem C39_splice_next : forall f c n, trees f -> ~ above f c n ->
  exists f', spliceNext f c (Some n) = Some f' /\ nextSpliced f c n f' /\ trees f'.
Proof.
  intros f c n T A.
  assert (CN : c <> n) by (intro; subst; apply A; constructor).
  assert (PN : fParent f c <> Some n) by (intro; apply A; econstructor; [eassumption|constructor]).
  destruct (spliceNext_ok f (proj1 T) c n CN PN) as (f' & E & S).
  exists f'. split; [exact E|]. split; [exact S|]. split.
  - now apply links_next_spliced with f c n.
  - now apply rooted_next_spliced with f c n.
Qed.
Print Assumptions C39_splice_next.

Theorem C39_merge_next : forall f c n, trees f -> ~ above f n c -> fParent f c <> Some n ->
  exists f', mergeNext f c (Some n) = Some f' /\ nextMerged f c n f' /\ trees f'.
Proof.
  intros f c n T A PN.
  assert (CN : c <> n) by (intro; subst; apply A; constructor).
  destruct (mergeNext_ok f (proj1 T) c n CN PN) as (f' & E & S).
  exists f'. split; [exact E|]. split; [exact S|]. split.
  - now apply links_merged with f c n.
  - now apply rooted_merged with f c n.
Qed.
Print Assumptions C39_merge_next.

Theorem C39_merge_prev : forall f c p, trees f -> ~ above f c p -> fParent f p <> Some c ->
  exists f', mergePrev f c (Some p) = Some f' /\ prevMerged f c p f' /\ trees f'.
Proof.
  intros f c p T A PN.
  assert (CN : c <> p) by (intro; subst; apply A; constructor).
  destruct (mergePrev_ok f (proj1 T) c p CN PN) as (f' & E & S).
  exists f'. split; [exact E|]. split; [exact S|]. apply prev_is_next in S.
  assert (NC : p <> c) by congruence. split.
  - now apply links_merged with f p c.
  - now apply rooted_merged with f p c.
Qed.
Print Assumptions C39_merge_prev.

(* there is no condition on places of c and p *)
Theorem C39_splice_prev : forall f c p, trees f -> c <> p -> fParent f p <> Some c ->
  exists f', splicePrev f c (Some p) = Some f' /\ prevSpliced f c p f' /\ trees f'.
Proof.
  intros f c p T CN PN.
  destruct (splicePrev_ok f (proj1 T) (proj2 T) c p CN PN) as (f' & E & S).
  exists f'. split; [exact E|]. split; [exact S|]. split.
  - now apply links_prev_spliced with f c p.
  - now apply rooted_prev_spliced with f c p.
Qed.
Print Assumptions C39_splice_prev.

(** Operations which change nothing: locations are already linked, or there is
    no previous location. *)
Theorem C39_linked : forall f c n, c <> n ->
  (fParent f c = Some n -> spliceNext f c (Some n) = Some f /\ mergeNext f c (Some n) = Some f) /\
  (fParent f n = Some c -> splicePrev f c (Some n) = Some f /\ mergePrev f c (Some n) = Some f) /\
  splicePrev f c None = Some f /\ mergePrev f c None = Some f.
Proof.
  intros f c n CN. unfold spliceNext, mergeNext, splicePrev, mergePrev.
  rewrite !opt_eqb_neq by congruence. cbn [opt_eqb].
  assert (R : forall x, opt_eqb (Some x) (Some x) = true) by (intro; cbn; apply Nat.eqb_refl).
  split; [|split; [|split; reflexivity]]; intros ->; now rewrite R.
Qed.
Print Assumptions C39_linked.

(** A location without the next one leaves its tree with all locations below
    it. *)
Theorem C39_detach : forall f c, trees f ->
  exists f1 f2, spliceNext f c None = Some f1 /\ mergeNext f c None = Some f2 /\
    (forall f', f' = f1 \/ f' = f2 -> trees f' /\
      (forall x, fParent f' x = if x =? c then None else fParent f x) /\
      (forall x, fKids f' x = without c (fKids f x))).
Proof.
  intros f c ((L & ND) & RT).
  assert (G : forall f', (forall x, fParent f' x = if x =? c then None else fParent f x) ->
    (forall x, fKids f' x = without c (fKids f x)) -> trees f').
  { intros f' P K. split; [split|].
    - intros x q. rewrite P, K, in_without, <- L.
      destruct (Nat.eqb_spec x c); [subst|]; intuition congruence.
    - intro q. rewrite K. apply nodup_without, ND.
    - intro x. induction (RT x) as [x X|x q X _ IH].
      + apply rootedRoot. rewrite P, X. now destruct (x =? c).
      + destruct (Nat.eqb_spec x c) as [->|N].
        * apply rootedRoot. now rewrite P, Nat.eqb_refl.
        * apply rootedStep with q; [|exact IH]. rewrite P.
          destruct (Nat.eqb_spec x c); congruence. }
  assert (H : exists f', (forall x, fParent f' x = if x =? c then None else fParent f x) /\
     (forall x, fKids f' x = without c (fKids f x)) /\
     spliceNext f c None = Some f' /\ mergeNext f c None = Some f').
  { unfold spliceNext, mergeNext. cbn [opt_eqb].
    destruct (fParent f c) as [p|] eqn:P.
    - destruct (leave_ok f c (conj L ND)) as (g & E & P1 & _ & K1). cbn [opt_eqb].
      rewrite E. exists (setParent g c None).
      split; [intro x; cbn; unfold upd; now rewrite P1|]. split; [intro x; cbn; apply K1|].
      split; reflexivity.
    - exists f. split; [intro x; destruct (Nat.eqb_spec x c); congruence|].
      split; [|split; reflexivity]. intro x. symmetry. apply without_notin.
      intro I. apply L in I. congruence. }
  destruct H as (f' & P & K & E1 & E2). exists f', f'. split; [exact E1|]. split; [exact E2|].
  intros g [->| ->]; (split; [now apply G|]); split; assumption.
Qed.
Print Assumptions C39_detach.

(** Pictures of the documentation: trees 0(1 2(3 4)) and 5(6 7(8 9)); locations
    4 and 7 have the same base. *)
Definition exParent (x : em) : option em :=
  match x with
  | 1 | 2 => Some 0 | 3 | 4 => Some 2 | 6 | 7 => Some 5 | 8 | 9 => Some 7 | _ => None
  end.
Definition exKids (x : em) : list em :=
  match x with 0 => [1; 2] | 2 => [3; 4] | 5 => [6; 7] | 7 => [8; 9] | _ => [] end.
Definition exForest : forest :=
  Forest exParent exKids (fun x => match x with 4 => 7 | _ => x end).
Lemma ex_trees : trees exForest.
Proof.
  split; [split|].
  - intros x p. cbn. split.
    + intro H. do 10 (destruct x as [|x]; [cbn in H; try discriminate; injection H as <-; cbn; tauto|]).
      cbn in H. discriminate.
    + do 8 (destruct p as [|p]; [cbn; intro I; repeat destruct I as [<-|I]; try reflexivity; tauto|]).
      cbn. tauto.
  - intro p. do 8 (destruct p as [|p]; [cbn; repeat constructor; cbn; intuition discriminate|]).
    cbn. constructor.
  - assert (R : forall x, fParent exForest x = None -> rooted exForest x) by (intros; now apply rootedRoot).
    assert (Z0 : rooted exForest 0) by (apply R; reflexivity).
    assert (Z5 : rooted exForest 5) by (apply R; reflexivity).
    assert (Z2 : rooted exForest 2) by (apply rootedStep with 0; [reflexivity|assumption]).
    assert (Z7 : rooted exForest 7) by (apply rootedStep with 5; [reflexivity|assumption]).
    intro x.
    do 10 (destruct x as [|x]; [first [assumption | eapply rootedStep; [reflexivity|assumption]]|]).
    apply R. reflexivity.
Qed.
Lemma ex_not_above x y : (exists l, l = [0; 1; 2; 3; 4] /\ In x l /\ ~ In y l) \/
    (exists l, l = [5; 6; 7; 8; 9] /\ In x l /\ ~ In y l) -> ~ above exForest x y.
Proof.
  intros H A. destruct H as [(l & -> & X & Y)|(l & -> & X & Y)]; revert X Y;
    induction A as [x|x p y P A IH]; intros X Y; try tauto; apply IH; auto;
    cbn in X; repeat destruct X as [<-|X]; try tauto; cbn in P; try discriminate;
    injection P as <-; cbn; tauto.
Qed.
Definition kidsOf (f : option forest) (xs : list em) : list (list em) :=
  match f with Some f => map (fKids f) xs | None => [] end.
Example C39_splice_next_nonvacuous : trees exForest /\ ~ above exForest 2 7 /\
  kidsOf (spliceNext exForest 2 (Some 7)) [0; 5; 7; 2] = [[1; 7]; [6]; [8; 9; 2]; [3; 4]].
Proof.
  split; [exact ex_trees|]. split; [|reflexivity].
  apply ex_not_above. left. eexists. split; [reflexivity|]. cbn. intuition discriminate.
Qed.
Example C39_merge_next_nonvacuous : trees exForest /\ ~ above exForest 7 2 /\
  fParent exForest 2 <> Some 7 /\
  kidsOf (mergeNext exForest 2 (Some 7)) [0; 5; 7; 2] = [[1]; [6; 7]; [8; 9; 2]; [3; 4]].
Proof.
  split; [exact ex_trees|]. split; [|split; [discriminate|reflexivity]].
  apply ex_not_above. right. eexists. split; [reflexivity|]. cbn. intuition discriminate.
Qed.
Example C39_merge_prev_nonvacuous : trees exForest /\ ~ above exForest 2 7 /\
  fParent exForest 7 <> Some 2 /\
  kidsOf (mergePrev exForest 2 (Some 7)) [0; 5; 7; 2] = [[1; 2]; [6]; [8; 9]; [3; 4; 7]].
Proof.
  split; [exact ex_trees|]. split; [|split; [discriminate|reflexivity]].
  apply ex_not_above. left. eexists. split; [reflexivity|]. cbn. intuition discriminate.
Qed.
Example C39_splice_prev_nonvacuous : trees exForest /\ fParent exForest 7 <> Some 2 /\
  kidsOf (splicePrev exForest 2 (Some 7)) [0; 5; 7; 2] = [[1; 2]; [6]; [4]; [3; 7]] /\
  kidsOf (splicePrev exForest 0 (Some 7)) [0; 5; 7; 2] = [[1; 2; 7]; [6]; []; [3; 4]].
Proof. split; [exact ex_trees|]. split; [discriminate|]. split; reflexivity. Qed.
Example C39_detach_nonvacuous : trees exForest /\
  kidsOf (spliceNext exForest 2 None) [0; 2] = [[1]; [3; 4]].
Proof. split; [exact ex_trees|reflexivity]. Qed.
(* the condition is necessary: location 2 and the root of its tree, which is not
   its parent *)
Example C39_condition_needed : exists f' , spliceNext exForest 3 (Some 0) = Some f' /\
  fParent f' 0 = Some 2 /\ fParent f' 2 = Some 0.
Proof. eexists. split; [reflexivity|]. split; reflexivity. Qed.

(** ** C40 *)
Lemma meets_ok f x y : rooted f x -> exists n, forall fuel, n <= fuel ->
  exists b, meets fuel f x y = Some b /\ (b = true <-> above f x y).
Proof.
  induction 1 as [x N|x p P R IH].
  - exists 1. intros [|fuel] L; [lia|]. cbn. destruct (Nat.eqb_spec x y) as [->|NE].
    + exists true. split; [reflexivity|]. split; [constructor|reflexivity].
    + rewrite N. exists false. split; [reflexivity|]. split; [discriminate|].
      intro A. inversion A; subst; congruence.
  - destruct IH as (n & IH). exists (S n). intros [|fuel] L; [lia|]. cbn.
    destruct (Nat.eqb_spec x y) as [->|NE].
    + exists true. split; [reflexivity|]. split; [constructor|reflexivity].
    + rewrite P. destruct (IH fuel ltac:(lia)) as (b & E & B). exists b.
      split; [exact E|]. rewrite B. split; intro A; [econstructor; eauto|].
      inversion A; subst; [congruence|]. assert (p0 = p) by congruence. now subst.
Qed.

(** The higher of two locations of a chain, nothing for unconnected ones. *)
Theorem C40_ancestor : forall f l r, trees f -> exists n, forall fuel, n <= fuel ->
  exists a, ancestor fuel f l r = Some a /\
    (forall x, a = Some x <-> (x = r /\ above f l r) \/ (x = l /\ above f r l)) /\
    (a = None <-> ~ above f l r /\ ~ above f r l).
Proof.
  intros f l r (LK & RT).
  assert (AS : above f l r -> above f r l -> l = r).
  { intros A B. inversion A as [|? p ? P A']; subst; [reflexivity|].
    exfalso. apply (rooted_acyclic f l (RT l) p P). now apply above_trans with r. }
  destruct (meets_ok f l r (RT l)) as (n & N). destruct (meets_ok f r l (RT r)) as (m & M).
  exists (n + m). intros fuel F. unfold ancestor.
  destruct (N fuel ltac:(lia)) as (b & E & B). rewrite E.
  destruct b.
  - exists (Some r). split; [reflexivity|]. assert (A : above f l r) by tauto. split.
    + intro x. split; [intro X; left; split; congruence|].
      intros [(-> & _)|(-> & C)]; [reflexivity|]. now rewrite (AS A C).
    + split; [discriminate|tauto].
  - assert (A : ~ above f l r) by (intro A; apply B in A; discriminate).
    destruct (M fuel ltac:(lia)) as (b & E' & B'). rewrite E'. destruct b.
    + exists (Some l). split; [reflexivity|]. assert (A' : above f r l) by tauto. split.
      * intro x. split; [intro X; right; split; congruence|]. intros [(_ & C)|(-> & _)]; [tauto|reflexivity].
      * split; [discriminate|tauto].
    + assert (A' : ~ above f r l) by (intro A'; apply B' in A'; discriminate).
      exists None. split; [reflexivity|]. split.
      * intro x. split; [discriminate|tauto].
      * tauto.
Qed.
Print Assumptions C40_ancestor.

(** The deeper of two locations of a chain.  What is missing in comparison with
    the full property: unconnected locations (see [C40_descendant_refuted]). *)
Theorem C40_descendant_partial : forall f l r, trees f -> above f l r \/ above f r l ->
  exists n, forall fuel, n <= fuel ->
    exists x, descendant fuel f l r = Some x /\
      ((x = l /\ above f l r) \/ (x = r /\ above f r l)).
Proof.
  intros f l r T C. destruct (C40_ancestor f l r T) as (n & N). exists n. intros fuel F.
  destruct (N fuel F) as (a & E & S & Z). unfold descendant. rewrite E.
  destruct (opt_eqb (Some l) a) eqn:Q.
  - apply opt_eqb_spec in Q. exists r. split; [reflexivity|]. right. split; [reflexivity|].
    symmetry in Q. apply S in Q as [(-> & A)|(_ & A)]; [exact A|exact A].
  - exists l. split; [reflexivity|]. left. split; [reflexivity|].
    destruct C as [A|A]; [exact A|]. exfalso.
    assert (X : a = Some l) by (apply S; tauto). subst a. cbn in Q. now rewrite Nat.eqb_refl in Q.
Qed.
Print Assumptions C40_descendant_partial.

(** Checks of the relation and the top of a tree. *)
Theorem C40_queries : forall f x y, trees f -> exists n, forall fuel, n <= fuel ->
  (exists b, isAncestorOf fuel f x y = Some b /\ (b = true <-> above f y x)) /\
  (exists b, isDescendantOf fuel f x y = Some b /\ (b = true <-> above f x y)) /\
  (exists b, isUnreachable fuel f x y = Some b /\
     (b = true <-> ~ above f x y /\ ~ above f y x)) /\
  (exists t, getTopLevelParent fuel f x = Some t /\ above f x t /\ fParent f t = None).
Proof.
  intros f x y (_ & RT).
  assert (TP : exists k, forall fuel, k <= fuel ->
    exists t, getTopLevelParent fuel f x = Some t /\ above f x t /\ fParent f t = None).
  { induction (RT x) as [z Z|z p P R IH].
    - exists 1. intros [|fuel] L; [lia|]. cbn. rewrite Z. exists z. repeat split; [constructor|exact Z].
    - destruct IH as (k & IH).
      exists (S k). intros [|fuel] L; [lia|]. cbn. rewrite P.
      destruct (IH fuel ltac:(lia)) as (t & E & A & T). exists t. split; [exact E|].
      split; [econstructor; eauto|exact T]. }
  destruct TP as (k & TP).
  destruct (meets_ok f x y (RT x)) as (n & N). destruct (meets_ok f y x (RT y)) as (m & M). exists (n + m + k). intros fuel F.
  destruct (N fuel ltac:(lia)) as (b1 & E1 & B1). destruct (M fuel ltac:(lia)) as (b2 & E2 & B2).
  unfold isUnreachable, isAncestorOf, isDescendantOf. rewrite E1, E2.
  split; [eauto|]. split; [eauto|]. split; [|apply TP; lia].
  destruct b2.
  - exists false. split; [reflexivity|]. split; [discriminate|]. intros (_ & A). tauto.
  - exists (negb b1). split; [reflexivity|]. rewrite negb_true_iff.
    assert (~ above f y x) by (intro A; apply B2 in A; discriminate).
    destruct b1; split; try discriminate; try tauto.
Qed.
Print Assumptions C40_queries.

Example C40_nonvacuous : trees exForest /\
  ancestor 5 exForest 4 0 = Some (Some 0) /\ ancestor 5 exForest 0 4 = Some (Some 0) /\
  ancestor 5 exForest 4 3 = Some None /\ above exForest 4 0 /\
  descendant 5 exForest 4 0 = Some 4 /\ descendant 5 exForest 0 4 = Some 4 /\
  isUnreachable 5 exForest 4 8 = Some true /\ getTopLevelParent 5 exForest 9 = Some 5.
Proof.
  split; [exact ex_trees|]. repeat split.
  apply aboveStep with 2; [reflexivity|]. apply aboveStep with 0; [reflexivity|constructor].
Qed.

(** The full statement says that nothing is returned for unconnected
    locations, but the first location is returned. *)
Theorem C40_descendant_refuted :
  ~ (forall f l r, trees f -> ~ above f l r -> ~ above f r l ->
       forall fuel x, descendant fuel f l r <> Some x).
Proof.
  intro H. apply (H exForest 3 8 ex_trees) with (fuel := 5) (x := 3); [| |reflexivity];
    apply ex_not_above.
  - left. eexists. split; [reflexivity|]. cbn. intuition discriminate.
  - right. eexists. split; [reflexivity|]. cbn. intuition discriminate.
Qed.
Print Assumptions C40_descendant_refuted.
