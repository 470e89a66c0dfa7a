(** Properties C23 and C24 of bidirectional maps. *)
From Coq Require Import Bool List Arith Lia Permutation.
From Verif Require Import BimapModel.
Import ListNotations.

(** ** Facts on the heap *)
Lemma deref_in {V} (h : list (addr * V)) a v : deref h a = Some v -> In (a, v) h.
Proof.
  induction h as [|[b w] h IH]; cbn; [discriminate|].
  destruct (Nat.eqb_spec a b); intro E; [inversion E; subst; auto|auto].
Qed.
Lemma deref_release {V} (h : list (addr * V)) a b :
  deref (release h a) b = if b =? a then None else deref h b.
Proof.
  unfold release. induction h as [|[c w] h IH]; cbn.
  - now destruct (b =? a).
  - destruct (Nat.eqb_spec c a); cbn.
    + subst. rewrite IH. destruct (b =? a); reflexivity.
    + rewrite IH. destruct (Nat.eqb_spec b a), (Nat.eqb_spec b c); subst; congruence.
Qed.
Lemma in_drop l a b : In b (drop l a) <-> In b l /\ b <> a.
Proof.
  unfold drop. rewrite filter_In, negb_true_iff, Nat.eqb_neq. tauto.
Qed.
Lemma NoDup_filter_aux {A} (f : A -> bool) l : NoDup l -> NoDup (filter f l).
Proof.
  induction 1; cbn; [constructor|]. destruct (f x); [|assumption]. constructor; auto.
  rewrite filter_In. tauto.
Qed.
Lemma NoDup_snoc {A} (l : list A) x : NoDup l -> ~ In x l -> NoDup (l ++ [x]).
Proof.
  intros N I. apply (Permutation_NoDup (l := x :: l)); [|now constructor].
  apply Permutation_cons_append.
Qed.

(** ** C23 *)

(** Specification: a sequence of pairs. *)
Definition pairs := list (nat * nat).
Definition clash (p q : nat * nat) : bool := (fst p =? fst q) || (snd p =? snd q).
Inductive bmOp := BInsert (x y : nat) | BErase (position : nat) | BClear.
Definition specStep (l : pairs) (o : bmOp) : pairs :=
  match o with
  | BInsert x y => if existsb (clash (x, y)) l then l else l ++ [(x, y)]
  | BErase n => firstn n l ++ skipn (S n) l
  | BClear => []
  end.
(** Elements of the container in order; erased elements are given by a valid
    iterator, that is by a position of the list. *)
Definition contents (b : bimap) : option pairs :=
  fold_right (fun a r => match deref (bHeap b) a, r with
                         | Some v, Some l => Some (v :: l) | _, _ => None end)
             (Some []) (bColl b).
Definition bmStep (probe : nat -> list addr -> list addr) (b : option bimap) (o : bmOp)
    : option bimap :=
  match b with
  | None => None
  | Some b =>
    match o with
    | BInsert x y => option_map fst (insert probe b (x, y))
    | BErase n => match nth_error (bColl b) n with Some a => erase b a | None => Some b end
    | BClear => Some (clear b)
    end
  end.
Definition bmRun probe (h : list bmOp) : option bimap := fold_left (bmStep probe) h (Some emptyBimap).
Definition specRun (h : list bmOp) : pairs := fold_left specStep h [].
(* the pair an iterator refers to; [Some None] for end() *)
Definition found (b : bimap) (r : option (option addr)) : option (option (nat * nat)) :=
  match r with
  | None => None
  | Some None => Some None
  | Some (Some a) => match deref (bHeap b) a with Some v => Some (Some v) | None => None end
  end.
Definition anyOrder (probe : nat -> list addr -> list addr) : Prop :=
  forall k l, Permutation (probe k l) l.

Record bmInv (b : bimap) (l : pairs) : Prop := {
  biLen : length (bColl b) = length l;
  biAt : forall n a, nth_error (bColl b) n = Some a -> deref (bHeap b) a = nth_error l n;
  biNew : forall a, In a (bColl b) -> a < bNext b;
  biND : NoDup (bColl b);
  biF : bFirst b = bColl b;
  biS : bSecond b = bColl b;
  biU1 : NoDup (map fst l);
  biU2 : NoDup (map snd l) }.

Lemma nth_some {A} (l : list A) n : n < length l -> exists x, nth_error l n = Some x.
Proof.
  intro L. destruct (nth_error l n) eqn:E; [eauto|]. apply nth_error_None in E. lia.
Qed.
Lemma contents_inv b l : bmInv b l -> contents b = Some l.
Proof.
  intros [L A _ _ _ _ _ _]. unfold contents. revert l L A.
  induction (bColl b) as [|a c IH]; intros l L A; destruct l as [|v l]; cbn in *; try lia; auto.
  rewrite (A 0 a eq_refl). cbn. rewrite (IH l); auto.
  intros n x E. exact (A (S n) x E).
Qed.
Lemma findAs_spec h key k s (l : pairs) :
  (forall a, In a s -> exists v, deref h a = Some v) ->
  exists r, findAs h key k s = Some r /\
    match r with
    | Some a => In a s /\ exists v, deref h a = Some v /\ key v = k
    | None => forall a v, In a s -> deref h a = Some v -> key v <> k
    end.
Proof.
  induction s as [|a s IH]; intro D; cbn.
  - exists None. split; [reflexivity|]. intros ? ? [].
  - destruct (D a) as [v E]; [now left|]. rewrite E. destruct (Nat.eqb_spec (key v) k) as [K|K].
    + exists (Some a). split; [reflexivity|]. split; [now left|]. eauto.
    + destruct IH as (r & R & P); [intros; apply D; now right|]. exists r. split; [exact R|].
      destruct r as [b|].
      * destruct P as [I P]. split; [now right|exact P].
      * intros b w [->|I] W; [congruence|eauto].
Qed.
Lemma inv_live b l a : bmInv b l -> In a (bColl b) ->
  exists n v, nth_error (bColl b) n = Some a /\ nth_error l n = Some v /\ deref (bHeap b) a = Some v.
Proof.
  intros V I. apply In_nth_error in I. destruct I as [n E].
  assert (N : n < length l).
  { rewrite <- (biLen _ _ V). apply nth_error_Some. congruence. }
  destruct (nth_some l n N) as [v W]. exists n, v. split; [exact E|]. split; [exact W|].
  rewrite (biAt _ _ V _ _ E). exact W.
Qed.
Lemma inv_addr b l v : bmInv b l -> In v l -> exists a, In a (bColl b) /\ deref (bHeap b) a = Some v.
Proof.
  intros V I. apply In_nth_error in I. destruct I as [n E].
  assert (N : n < length (bColl b)).
  { rewrite (biLen _ _ V). apply nth_error_Some. congruence. }
  destruct (nth_some (bColl b) n N) as [a W]. exists a. split; [eapply nth_error_In; eauto|].
  rewrite (biAt _ _ V _ _ W). exact E.
Qed.
Lemma find_inv key sel b l k s : bmInv b l -> Permutation s (bColl b) ->
  sel = findAs (bHeap b) key k s ->
  exists r, sel = Some r /\
    match r with
    | Some a => In a (bColl b) /\ exists v, deref (bHeap b) a = Some v /\ In v l /\ key v = k
    | None => forall v, In v l -> key v <> k
    end.
Proof.
  intros V P ->.
  destruct (findAs_spec (bHeap b) key k s l) as (r & R & Q).
  { intros a I. apply (Permutation_in a P) in I. destruct (inv_live b l a V I) as (n & v & _ & _ & E). eauto. }
  exists r. split; [exact R|]. destruct r as [a|].
  - destruct Q as [I (v & E & K)]. apply (Permutation_in a P) in I. split; [exact I|].
    exists v. split; [exact E|]. split; [|exact K].
    destruct (inv_live b l a V I) as (n & w & _ & N & E'). rewrite E in E'. inversion E'; subst.
    eapply nth_error_In; eauto.
  - intros v I K. destruct (inv_addr b l v V I) as (a & Ia & E).
    eapply Q; eauto. now apply (Permutation_in a (Permutation_sym P)).
Qed.
Lemma NoDup_map_inj {A} (f : A -> nat) l x y : NoDup (map f l) -> In x l -> In y l -> f x = f y -> x = y.
Proof.
  induction l as [|z l IH]; cbn; intros N; [tauto|].
  inversion N; subst. intros [->|I] [->|J] E; auto.
  - exfalso. apply H1. rewrite E. now apply in_map.
  - exfalso. apply H1. rewrite <- E. now apply in_map.
Qed.
Lemma existsb_clash x y l : existsb (clash (x, y)) l = false <->
  (forall v, In v l -> fst v <> x) /\ (forall v, In v l -> snd v <> y).
Proof.
  split.
  - intro E. assert (A : forall v, In v l -> clash (x, y) v = false).
    { intros v I. destruct (clash (x, y) v) eqn:C; [|reflexivity].
      assert (existsb (clash (x, y)) l = true) by (apply existsb_exists; eauto). congruence. }
    split; intros v I Q; specialize (A v I); unfold clash in A; cbn in A;
      apply orb_false_iff in A; rewrite !Nat.eqb_neq in A; destruct A; congruence.
  - intros [A B]. destruct (existsb (clash (x, y)) l) eqn:E; [|reflexivity].
    apply existsb_exists in E. destruct E as (v & I & C). unfold clash in C. cbn in C.
    apply orb_true_iff in C. rewrite !Nat.eqb_eq in C. destruct C as [C|C].
    + exfalso. apply (A v I). congruence.
    + exfalso. apply (B v I). congruence.
Qed.
Lemma insertNode_inv b l x y : bmInv b l -> existsb (clash (x, y)) l = false ->
  bmInv (fst (insertNode b (x, y))) (l ++ [(x, y)]).
Proof.
  intros V E. apply existsb_clash in E. destruct E as [E1 E2]. destruct V as [L A N ND F S U1 U2].
  cbn. constructor; cbn.
  - rewrite !app_length. cbn. lia.
  - intros n a E. destruct (Nat.lt_ge_cases n (length (bColl b))) as [Q|Q].
    + rewrite nth_error_app1 in E by exact Q. rewrite nth_error_app1 by lia.
      assert (a < bNext b) by (apply N; eapply nth_error_In; eauto).
      destruct (Nat.eqb_spec a (bNext b)); [lia|]. eauto.
    + rewrite nth_error_app2 in E by exact Q. rewrite nth_error_app2 by lia. rewrite <- L.
      destruct (n - length (bColl b)) as [|j]; cbn in *; [|now destruct j].
      inversion E; subst. rewrite Nat.eqb_refl. reflexivity.
  - intros a I. apply in_app_iff in I. cbn in I. destruct I as [I|[<-|[]]]; [|lia].
    specialize (N a I). lia.
  - apply NoDup_snoc; [exact ND|]. intro I. specialize (N _ I). lia.
  - now rewrite F.
  - now rewrite S.
  - rewrite map_app. apply NoDup_snoc; [exact U1|]. intro I. apply in_map_iff in I.
    destruct I as (v & Q & I). cbn in Q. exact (E1 v I Q).
  - rewrite map_app. apply NoDup_snoc; [exact U2|]. intro I. apply in_map_iff in I.
    destruct I as (v & Q & I). cbn in Q. exact (E2 v I Q).
Qed.
Lemma lookup_inv probe b l x y : anyOrder probe -> bmInv b l ->
  exists p absent, lookup probe b (x, y) = Some (p, absent) /\
    (absent = true <-> existsb (clash (x, y)) l = false) /\
    (absent = false -> exists a v, p = Some a /\ deref (bHeap b) a = Some v /\ In v l /\
                       clash (x, y) v = true).
Proof.
  intros PO V. unfold lookup. cbn [fst snd].
  destruct (find_inv fst (find_first probe b x) b l x (probe x (bFirst b)) V) as (r1 & R1 & P1).
  { rewrite (biF _ _ V). apply PO. }
  { reflexivity. }
  rewrite R1. destruct r1 as [a|].
  - destruct P1 as [I (v & E & Iv & K)]. exists (Some a), false. split; [reflexivity|]. split.
    + split; [discriminate|]. rewrite existsb_clash. intros [N _]. exfalso. eapply N; eauto.
    + intros _. exists a, v. split; [reflexivity|]. split; [exact E|]. split; [exact Iv|].
      unfold clash. cbn. rewrite K, Nat.eqb_refl. reflexivity.
  - destruct (find_inv snd (find_second probe b y) b l y (probe y (bSecond b)) V) as (r2 & R2 & P2).
    { rewrite (biS _ _ V). apply PO. }
    { reflexivity. }
    rewrite R2. destruct r2 as [a|].
    + destruct P2 as [I (v & E & Iv & K)]. exists (Some a), false. split; [reflexivity|]. split.
      * split; [discriminate|]. rewrite existsb_clash. intros [_ N]. exfalso. eapply N; eauto.
      * intros _. exists a, v. split; [reflexivity|]. split; [exact E|]. split; [exact Iv|].
        unfold clash. cbn. rewrite K, Nat.eqb_refl. apply orb_true_r.
    + exists None, true. split; [reflexivity|]. split; [|discriminate].
      split; [|reflexivity]. intros _. apply existsb_clash. auto.
Qed.
Lemma nth_remove {A} (l : list A) n k :
  nth_error (firstn n l ++ skipn (S n) l) k = nth_error l (if k <? n then k else S k).
Proof.
  revert n k. induction l as [|x l IH]; intros n k.
  - rewrite firstn_nil, skipn_nil. assert (Z : forall j, nth_error (@nil A) j = None) by (now destruct j). now rewrite !Z.
  - destruct n as [|n]; [destruct k; reflexivity|]. destruct k as [|k]; [reflexivity|].
    cbn [firstn skipn app nth_error]. rewrite IH.
    replace (S k <? S n) with (k <? n) by reflexivity. now destruct (k <? n).
Qed.
Lemma drop_notin l a : ~ In a l -> drop l a = l.
Proof.
  intro I. unfold drop. induction l as [|b l IH]; [reflexivity|]. cbn.
  destruct (Nat.eqb_spec b a); [exfalso; apply I; now left|]. cbn. f_equal. apply IH.
  intro; apply I; now right.
Qed.
Lemma drop_nth l n a : NoDup l -> nth_error l n = Some a -> drop l a = firstn n l ++ skipn (S n) l.
Proof.
  revert n. induction l as [|b l IH]; intros n N E; [now destruct n|].
  inversion N; subst. destruct n as [|n]; cbn in E.
  - inversion E; subst. cbn. rewrite Nat.eqb_refl. cbn. now apply drop_notin.
  - cbn. destruct (Nat.eqb_spec b a).
    + subst. exfalso. apply H1. eapply nth_error_In; eauto.
    + cbn. f_equal. now apply IH.
Qed.
Lemma NoDup_remove_nth {A} (f : A -> nat) l n : NoDup (map f l) ->
  NoDup (map f (firstn n l ++ skipn (S n) l)).
Proof.
  revert n. induction l as [|x l IH]; intros n N; [now rewrite firstn_nil, skipn_nil|].
  inversion N; subst. destruct n as [|n]; [exact H2|]. cbn. constructor; [|now apply IH].
  intro I. apply H1. apply in_map_iff in I. destruct I as (y & E & I). rewrite <- E. apply in_map.
  apply in_app_iff in I. destruct I as [I|I].
  - rewrite <- (firstn_skipn n l). apply in_app_iff. auto.
  - rewrite <- (firstn_skipn (S n) l). apply in_app_iff. auto.
Qed.
Lemma erase_inv b l n a : bmInv b l -> nth_error (bColl b) n = Some a ->
  exists b', erase b a = Some b' /\ bmInv b' (firstn n l ++ skipn (S n) l).
Proof.
  intros V E. unfold erase. pose proof (biAt _ _ V _ _ E) as D.
  assert (N : n < length (bColl b)) by (apply nth_error_Some; congruence).
  destruct (nth_some l n) as [v W]; [rewrite <- (biLen _ _ V); exact N|].
  rewrite D, W. eexists. split; [reflexivity|]. destruct V as [L A NW ND F S0 U1 U2].
  constructor; cbn [bHeap bNext bColl bFirst bSecond].
  - rewrite (drop_nth _ _ _ ND E). rewrite !app_length, !firstn_length, !skipn_length. lia.
  - intros k c. rewrite (drop_nth _ _ _ ND E). rewrite !nth_remove. intro Q.
    rewrite deref_release. destruct (Nat.eqb_spec c a) as [->|NE]; [|now apply A].
    exfalso. assert (X : (if k <? n then k else S k) = n).
    { apply (NoDup_nth_error (bColl b)); [exact ND| |congruence].
      apply nth_error_Some. congruence. }
    destruct (Nat.ltb_spec k n); lia.
  - intros c I. apply in_drop in I. now apply NW.
  - now apply NoDup_filter_aux.
  - now rewrite F.
  - now rewrite S0.
  - now apply NoDup_remove_nth.
  - now apply NoDup_remove_nth.
Qed.
Lemma remove_beyond {A} (l : list A) n : nth_error l n = None -> firstn n l ++ skipn (S n) l = l.
Proof.
  intro E. apply nth_error_None in E. rewrite firstn_all2 by lia. rewrite skipn_all2 by lia.
  apply app_nil_r.
Qed.
Lemma bmStep_inv probe b l o : anyOrder probe -> bmInv b l ->
  exists b', bmStep probe (Some b) o = Some b' /\ bmInv b' (specStep l o).
Proof.
  intros PO V. destruct o as [x y|n|]; cbn [bmStep specStep].
  - destruct (lookup_inv probe b l x y PO V) as (p & absent & E & A & _). unfold insert. rewrite E.
    destruct absent.
    + rewrite (proj1 A eq_refl). eexists. split; [reflexivity|].
      apply insertNode_inv; [exact V|]. now apply A.
    + destruct (existsb (clash (x, y)) l) eqn:C.
      * eexists. split; [reflexivity|exact V].
      * destruct A as [_ A]. specialize (A eq_refl). discriminate.
  - destruct (nth_error (bColl b) n) as [a|] eqn:E.
    + now apply erase_inv.
    + eexists. split; [reflexivity|]. rewrite remove_beyond; [exact V|].
      apply nth_error_None. apply nth_error_None in E. rewrite <- (biLen _ _ V). exact E.
  - eexists. split; [reflexivity|]. constructor; cbn; try constructor; auto.
    + intros n a E. now destruct n.
    + intros a [].
Qed.
Lemma bmRun_inv probe h : anyOrder probe -> exists b, bmRun probe h = Some b /\ bmInv b (specRun h).
Proof.
  intro PO. unfold bmRun, specRun.
  assert (B : bmInv emptyBimap []).
  { constructor; cbn; try constructor; auto; [intros n a E; now destruct n|intros a []]. }
  revert B. generalize emptyBimap, (@nil (nat * nat)).
  induction h as [|o h IH]; intros b l V.
  - exists b. split; [reflexivity|exact V].
  - cbn [fold_left]. destruct (bmStep_inv probe b l o PO V) as (b' & E & V'). rewrite E. now apply IH.
Qed.

(** Histories without erasing by a key: no freed element is accessed, the
    container holds what the specification says, both lookups answer according
    to it, and the insertion of an equivalent key gives the element which
    prevented it.  Missing for the full claim: erasing by a key and erasing a
    range. *)
Theorem C23_bimap_partial : forall probe h, anyOrder probe ->
  exists b, bmRun probe h = Some b /\ contents b = Some (specRun h) /\
    (forall k, exists r, found b (find_first probe b k) = Some r /\
       forall v, r = Some v <-> (In v (specRun h) /\ fst v = k)) /\
    (forall k, exists r, found b (find_second probe b k) = Some r /\
       forall v, r = Some v <-> (In v (specRun h) /\ snd v = k)) /\
    (forall x y, exists b' p isNew, insert probe b (x, y) = Some (b', (p, isNew)) /\
       (isNew = true <-> forall v, In v (specRun h) -> fst v <> x /\ snd v <> y) /\
       exists v, found b' (Some p) = Some (Some v) /\ (if isNew then v = (x, y)
         else In v (specRun h) /\ (fst v = x \/ snd v = y))).
Proof.
  intros probe h PO. destruct (bmRun_inv probe h PO) as (b & E & V). exists b.
  set (l := specRun h) in *.
  split; [exact E|]. split; [now apply contents_inv|]. split; [|split].
  - intro k. destruct (find_inv fst (find_first probe b k) b l k (probe k (bFirst b)) V) as (r & R & P).
    { rewrite (biF _ _ V). apply PO. }
    { reflexivity. }
    rewrite R. destruct r as [a|]; cbn.
    + destruct P as [I (v & D & Iv & K)]. rewrite D. exists (Some v). split; [reflexivity|].
      intro w. split.
      * intro Q. inversion Q; subst. auto.
      * intros [Iw Kw]. f_equal. apply (NoDup_map_inj fst l); auto; [apply (biU1 _ _ V)|congruence].
    + exists None. split; [reflexivity|]. intro w. split; [discriminate|]. intros [Iw Kw]. exfalso. eapply P; eauto.
  - intro k. destruct (find_inv snd (find_second probe b k) b l k (probe k (bSecond b)) V) as (r & R & P).
    { rewrite (biS _ _ V). apply PO. }
    { reflexivity. }
    rewrite R. destruct r as [a|]; cbn.
    + destruct P as [I (v & D & Iv & K)]. rewrite D. exists (Some v). split; [reflexivity|].
      intro w. split.
      * intro Q. inversion Q; subst. auto.
      * intros [Iw Kw]. f_equal. apply (NoDup_map_inj snd l); auto; [apply (biU2 _ _ V)|congruence].
    + exists None. split; [reflexivity|]. intro w. split; [discriminate|]. intros [Iw Kw]. exfalso. eapply P; eauto.
  - intros x y. destruct (lookup_inv probe b l x y PO V) as (p & absent & Q & A & P). unfold insert. rewrite Q.
    destruct absent.
    + exists (fst (insertNode b (x, y))), (Some (bNext b)), true. split; [reflexivity|]. split.
      * split; [|reflexivity]. intros _ v I. assert (C := proj1 A eq_refl).
        apply existsb_clash in C. destruct C. auto.
      * exists (x, y). split; [|reflexivity]. cbn. now rewrite Nat.eqb_refl.
    + destruct (P eq_refl) as (a & v & -> & D & I & C).
      exists b, (Some a), false. split; [reflexivity|].
      assert (CV : fst v = x \/ snd v = y).
      { unfold clash in C. cbn in C. apply orb_true_iff in C. rewrite !Nat.eqb_eq in C.
        destruct C; auto. }
      split.
      * split; [discriminate|]. intro N. destruct (N v I). tauto.
      * exists v. split; [|auto]. cbn. now rewrite D.
Qed.
(** Lookups by the two keys are inverse. *)
Theorem C23_inverse_partial : forall probe h b, anyOrder probe -> bmRun probe h = Some b ->
  forall x y, found b (find_first probe b x) = Some (Some (x, y)) <->
              found b (find_second probe b y) = Some (Some (x, y)).
Proof.
  intros probe h b PO E x y. destruct (C23_bimap_partial probe h PO) as (b' & E' & _ & F & S & _).
  rewrite E in E'. inversion E'; subst b'. destruct (F x) as (r1 & R1 & P1), (S y) as (r2 & R2 & P2).
  rewrite R1, R2. split; intro Q; inversion Q; subst.
  - f_equal. apply P2. split; [|reflexivity]. now apply (proj1 (P1 (x, y))).
  - f_equal. apply P1. split; [|reflexivity]. now apply (proj1 (P2 (x, y))).
Qed.

(** Erasing by a key leaves the freed element in the other index: the lookup by
    the other key accesses it. *)
Lemma probe_one probe k a : anyOrder probe -> probe k [a] = [a].
Proof.
  intro PO. specialize (PO k [a]). apply Permutation_sym in PO.
  now apply Permutation_length_1_inv in PO.
Qed.
Lemma probe_nil probe k : anyOrder probe -> probe k [] = [].
Proof. intro PO. specialize (PO k []). apply Permutation_sym in PO. now apply Permutation_nil in PO. Qed.
Theorem C23_erase_by_key_refuted : forall probe, anyOrder probe ->
  exists b b1 b2, bmRun probe [BInsert 1 2] = Some b /\
    erase_first probe b 1 = Some (b1, true) /\ find_second probe b1 2 = None /\
    erase_second probe b 2 = Some (b2, true) /\ find_first probe b2 1 = None.
Proof.
  intros probe PO. unfold bmRun. cbn [fold_left bmStep]. unfold insert, lookup, find_first, find_second.
  cbn [emptyBimap bFirst bSecond bHeap fst snd]. rewrite !probe_nil by exact PO. cbn [findAs].
  cbn [option_map fst insertNode bHeap bNext bColl bFirst bSecond emptyBimap app].
  do 3 eexists. split; [reflexivity|]. unfold erase_first, erase_second, find_first, find_second.
  cbn [bHeap bFirst bSecond bNext bColl]. rewrite !probe_one by exact PO. cbn.
  split; [reflexivity|]. cbn. rewrite !probe_one by exact PO. cbn. auto.
  split; [reflexivity|]. split; [reflexivity|]. cbn. rewrite !probe_one by exact PO. reflexivity.
Qed.
(** Erasing a non-empty range always increments an iterator to a freed element. *)
Theorem C23_erase_range_refuted : forall fuel b i e, i <> e -> eraseRange fuel b i e = None.
Proof.
  intros fuel b i e N. destruct fuel as [|f]; [reflexivity|]. cbn.
  assert (Q : match i, e with None, None => true | Some x, Some y => x =? y | _, _ => false end = false).
  { destruct i as [x|], e as [y|]; auto; [|congruence]. apply Nat.eqb_neq. congruence. }
  rewrite Q. destruct i as [a|]; [|reflexivity]. unfold erase.
  destruct (deref (bHeap b) a) eqn:D; [|reflexivity]. cbn. rewrite deref_release, Nat.eqb_refl. reflexivity.
Qed.
Print Assumptions C23_bimap_partial.
Print Assumptions C23_inverse_partial.
Print Assumptions C23_erase_by_key_refuted.
Print Assumptions C23_erase_range_refuted.

Example anyOrder_sample : anyOrder (fun k l => if Nat.even k then rev l else l).
Proof. intros k l. destruct (Nat.even k); [symmetry; apply Permutation_rev|reflexivity]. Qed.
Example bimap_sample :
  let h := [BInsert 1 2; BInsert 3 4; BInsert 1 5; BInsert 6 4; BInsert 5 5; BErase 1] in
  specRun h = [(1, 2); (5, 5)] /\
  exists b, bmRun (fun _ l => l) h = Some b /\ find_second (fun _ l => l) b 4 = Some None /\
            found b (find_second (fun _ l => l) b 5) = Some (Some (5, 5)).
Proof. cbn. split; [reflexivity|]. eexists. split; [reflexivity|]. split; reflexivity. Qed.
Example bimap_insert_clash :
  exists b b' p, bmRun (fun _ l => l) [BInsert 1 2] = Some b /\
    insert (fun _ l => l) b (7, 2) = Some (b', (Some p, false)) /\ deref (bHeap b') p = Some (1, 2).
Proof. do 3 eexists. split; [reflexivity|]. split; reflexivity. Qed.

(** ** C24 *)

(** Specification: a sequence of pairs of lists; an element is inserted if none
    of its keys is used by an element of the sequence. *)
Definition elements := list lnode.
Definition shares (p q : list nat) : bool := existsb (fun k => existsb (Nat.eqb k) q) p.
Definition lclash (p q : lnode) : bool := shares (fst p) (fst q) || shares (snd p) (snd q).
Inductive lbOp := LInsert (v : lnode) | LErase (position : nat) | LClear.
Definition lspecStep (l : elements) (o : lbOp) : elements :=
  match o with
  | LInsert v => if existsb (lclash v) l then l else l ++ [v]
  | LErase n => firstn n l ++ skipn (S n) l
  | LClear => []
  end.
Definition lcontents (b : lbimap) : option elements :=
  fold_right (fun a r => match deref (lHeap b) a, r with
                         | Some v, Some l => Some (v :: l) | _, _ => None end)
             (Some []) (lColl b).
Definition lbStep (b : option lbimap) (o : lbOp) : option lbimap :=
  match b with
  | None => None
  | Some b =>
    match o with
    | LInsert v => Some (fst (linsert b v))
    | LErase n => match nth_error (lColl b) n with Some a => lerase b a | None => Some b end
    | LClear => Some (lclear b)
    end
  end.
Definition lbRun (h : list lbOp) : option lbimap := fold_left lbStep h (Some emptyLBimap).
Definition lspecRun (h : list lbOp) : elements := fold_left lspecStep h [].
Definition lfound (b : lbimap) (r : option addr) : option (option lnode) :=
  match r with
  | None => Some None
  | Some a => match deref (lHeap b) a with Some v => Some (Some v) | None => None end
  end.

Lemma shares_spec p q : shares p q = true <-> exists k, In k p /\ In k q.
Proof.
  unfold shares. rewrite existsb_exists. split.
  - intros (k & I & E). apply existsb_exists in E. destruct E as (j & J & E). apply Nat.eqb_eq in E.
    subst. eauto.
  - intros (k & I & J). exists k. split; [exact I|]. apply existsb_exists. exists k.
    split; [exact J|apply Nat.eqb_refl].
Qed.
Definition live (b : lbimap) (a : addr) (v : lnode) : Prop :=
  In a (lColl b) /\ deref (lHeap b) a = Some v.
Record lbInv (b : lbimap) (l : elements) : Prop := {
  liLen : length (lColl b) = length l;
  liAt : forall n a, nth_error (lColl b) n = Some a -> deref (lHeap b) a = nth_error l n;
  liNew : forall a, In a (lColl b) -> a < lNext b;
  liND : NoDup (lColl b);
  liF : forall k a, mfind (lFirst b) k = Some a <-> exists v, live b a v /\ In k (fst v);
  liS : forall k a, mfind (lSecond b) k = Some a <-> exists v, live b a v /\ In k (snd v) }.
Lemma live_in b l v : lbInv b l -> (In v l <-> exists a, live b a v).
Proof.
  intros [L A _ _ _ _]. split.
  - intro I. apply In_nth_error in I. destruct I as [n E].
    assert (N : n < length (lColl b)) by (rewrite L; apply nth_error_Some; congruence).
    destruct (nth_some (lColl b) n N) as [a W]. exists a. split; [eapply nth_error_In; eauto|].
    rewrite (A _ _ W). exact E.
  - intros (a & I & D). apply In_nth_error in I. destruct I as [n E]. rewrite (A _ _ E) in D.
    eapply nth_error_In; eauto.
Qed.
Lemma lcontents_inv b l : lbInv b l -> lcontents b = Some l.
Proof.
  intros [L A _ _ _ _]. unfold lcontents. revert l L A.
  induction (lColl b) as [|a c IH]; intros l L A; destruct l as [|v l]; cbn in *; try lia; auto.
  rewrite (A 0 a eq_refl). cbn. rewrite (IH l); auto.
  intros n x E. exact (A (S n) x E).
Qed.
Lemma firstFound_none find ks : firstFound find ks = None <-> forall k, In k ks -> find k = None.
Proof.
  induction ks as [|k ks IH]; cbn; [split; [intros _ ? []|reflexivity]|].
  destruct (find k) eqn:E.
  - split; [discriminate|]. intro H. rewrite (H k) in E by auto. discriminate.
  - rewrite IH. split; intros H; [intros j [->|J]; auto|auto].
Qed.
Lemma firstFound_some find ks a : firstFound find ks = Some a -> exists k, In k ks /\ find k = Some a.
Proof.
  induction ks as [|k ks IH]; cbn; [discriminate|]. destruct (find k) eqn:E.
  - intro Q. inversion Q; subst. eauto.
  - intro Q. destruct (IH Q) as (j & J & F). eauto.
Qed.
Lemma mfind_emplace ks a m k :
  mfind (fold_left (fun m k => try_emplace m k a) ks m) k =
  match mfind m k with Some c => Some c | None => if in_dec Nat.eq_dec k ks then Some a else None end.
Proof.
  revert m. induction ks as [|j ks IH]; intro m; cbn [fold_left].
  - destruct (mfind m k); [reflexivity|]. reflexivity.
  - rewrite IH. unfold try_emplace. destruct (mfind m j) as [c|] eqn:J.
    + destruct (mfind m k) eqn:K; [reflexivity|].
      destruct (in_dec Nat.eq_dec k ks) as [I1|I1], (in_dec Nat.eq_dec k (j :: ks)) as [I2|I2]; auto.
      * exfalso. apply I2. now right.
      * destruct I2 as [->|I2]; [congruence|contradiction].
    + unfold mfind at 1. cbn [deref]. destruct (Nat.eqb_spec k j) as [->|NE].
      * rewrite J. destruct (in_dec Nat.eq_dec j (j :: ks)) as [I2|I2]; [reflexivity|].
        exfalso. apply I2. now left.
      * fold (mfind m k). destruct (mfind m k); [reflexivity|].
        destruct (in_dec Nat.eq_dec k ks) as [I1|I1], (in_dec Nat.eq_dec k (j :: ks)) as [I2|I2]; auto.
        -- exfalso. apply I2. now right.
        -- destruct I2 as [->|I2]; [congruence|contradiction].
Qed.
Lemma mfind_erase ks m k :
  mfind (fold_left merase ks m) k = if in_dec Nat.eq_dec k ks then None else mfind m k.
Proof.
  revert m. induction ks as [|j ks IH]; intro m; cbn [fold_left]; [reflexivity|].
  rewrite IH. unfold merase, mfind. rewrite deref_release.
  destruct (in_dec Nat.eq_dec k ks) as [I1|I1], (in_dec Nat.eq_dec k (j :: ks)) as [I2|I2],
    (Nat.eqb_spec k j) as [Q|Q]; auto; exfalso; cbn in I2; intuition congruence.
Qed.
Lemma lclash_none b l v : lbInv b l ->
  existsb (lclash v) l = false <->
  (forall k, In k (fst v) -> mfind (lFirst b) k = None) /\
  (forall k, In k (snd v) -> mfind (lSecond b) k = None).
Proof.
  intro V. split.
  - intro E. assert (A : forall w, In w l -> lclash v w = false).
    { intros w I. destruct (lclash v w) eqn:C; [|reflexivity].
      assert (existsb (lclash v) l = true) by (apply existsb_exists; eauto). congruence. }
    split; intros k K.
    + destruct (mfind (lFirst b) k) as [a|] eqn:F; [|reflexivity]. exfalso.
      apply (liF _ _ V) in F. destruct F as (w & L & J).
      assert (I : In w l) by (apply (live_in b l w V); eauto).
      specialize (A w I). unfold lclash in A. apply orb_false_iff in A. destruct A as [A _].
      assert (shares (fst v) (fst w) = true) by (apply shares_spec; eauto). congruence.
    + destruct (mfind (lSecond b) k) as [a|] eqn:F; [|reflexivity]. exfalso.
      apply (liS _ _ V) in F. destruct F as (w & L & J).
      assert (I : In w l) by (apply (live_in b l w V); eauto).
      specialize (A w I). unfold lclash in A. apply orb_false_iff in A. destruct A as [_ A].
      assert (shares (snd v) (snd w) = true) by (apply shares_spec; eauto). congruence.
  - intros [A B]. destruct (existsb (lclash v) l) eqn:E; [|reflexivity]. exfalso.
    apply existsb_exists in E. destruct E as (w & I & C).
    apply (live_in b l w V) in I. destruct I as (a & L). unfold lclash in C. apply orb_true_iff in C.
    rewrite !shares_spec in C. destruct C as [(k & K & J)|(k & K & J)].
    + specialize (A k K). assert (F : mfind (lFirst b) k = Some a) by (apply (liF _ _ V); eauto). congruence.
    + specialize (B k K). assert (F : mfind (lSecond b) k = Some a) by (apply (liS _ _ V); eauto). congruence.
Qed.
Lemma llookup_inv b l v : lbInv b l ->
  (snd (llookup b v) = true <-> existsb (lclash v) l = false) /\
  (snd (llookup b v) = false ->
   exists a w, fst (llookup b v) = Some a /\ live b a w /\ lclash v w = true).
Proof.
  intro V. rewrite (lclash_none b l v V). unfold llookup.
  destruct (firstFound (lfind_first b) (fst v)) as [a|] eqn:F.
  - apply firstFound_some in F. destruct F as (k & K & F). cbn [fst snd]. split.
    + split; [discriminate|]. intros [A _]. specialize (A k K). unfold lfind_first in F. congruence.
    + intros _. apply (liF _ _ V) in F. destruct F as (w & L & J). exists a, w. split; [reflexivity|].
      split; [exact L|]. unfold lclash. apply orb_true_iff. left. apply shares_spec. eauto.
  - pose proof (proj1 (firstFound_none _ _) F) as F1.
    destruct (firstFound (lfind_second b) (snd v)) as [a|] eqn:S.
    + apply firstFound_some in S. destruct S as (k & K & S). cbn [fst snd]. split.
      * split; [discriminate|]. intros [_ A]. specialize (A k K). unfold lfind_second in S. congruence.
      * intros _. apply (liS _ _ V) in S. destruct S as (w & L & J). exists a, w. split; [reflexivity|].
        split; [exact L|]. unfold lclash. apply orb_true_iff. right. apply shares_spec. eauto.
    + pose proof (proj1 (firstFound_none _ _) S) as S1. cbn [fst snd].
      split; [|discriminate]. split; [|reflexivity]. intros _. split; [exact F1|exact S1].
Qed.
Lemma linsertNode_inv b l v : lbInv b l -> existsb (lclash v) l = false ->
  lbInv (fst (linsertNode b v)) (l ++ [v]).
Proof.
  intros V E. apply (lclash_none b l v V) in E. destruct E as [E1 E2]. destruct V as [L A N ND F S0].
  assert (LV : forall a w, live (fst (linsertNode b v)) a w <-> (live b a w \/ (a = lNext b /\ w = v))).
  { intros a w. unfold live. cbn. rewrite in_app_iff. cbn. destruct (Nat.eqb_spec a (lNext b)) as [->|NE].
    - split.
      + intros [_ Q]. inversion Q. auto.
      + intros [[I _]|[_ ->]]; [|auto]. specialize (N _ I). lia.
    - split; [intros [[I|[I|[]]] D]; auto; congruence|]. intros [[I D]|[? _]]; [auto|contradiction]. }
  constructor.
  - cbn. rewrite !app_length. cbn. lia.
  - intros n a E. cbn in *. destruct (Nat.lt_ge_cases n (length (lColl b))) as [Q|Q].
    + rewrite nth_error_app1 in E by exact Q. rewrite nth_error_app1 by lia.
      assert (a < lNext b) by (apply N; eapply nth_error_In; eauto).
      destruct (Nat.eqb_spec a (lNext b)); [lia|]. eauto.
    + rewrite nth_error_app2 in E by exact Q. rewrite nth_error_app2 by lia. rewrite <- L.
      destruct (n - length (lColl b)) as [|j]; cbn in *; [|now destruct j].
      inversion E; subst. rewrite Nat.eqb_refl. reflexivity.
  - intros a I. cbn in *. apply in_app_iff in I. cbn in I. destruct I as [I|[<-|[]]]; [|lia].
    specialize (N a I). lia.
  - cbn. apply NoDup_snoc; [exact ND|]. intro I. specialize (N _ I). lia.
  - intros k a. cbn [linsertNode fst lFirst]. rewrite mfind_emplace.
    split.
    + destruct (mfind (lFirst b) k) as [c|] eqn:M.
      * intro Q. inversion Q; subst. apply F in M. destruct M as (w & W & K). exists w.
        split; [apply LV; auto|exact K].
      * destruct (in_dec Nat.eq_dec k (fst v)) as [I1|I1]; [|discriminate]. intro Q. inversion Q; subst.
        exists v. split; [apply LV; auto|exact I1].
    + intros (w & W & K). apply LV in W. destruct W as [W|[-> ->]].
      * assert (M : mfind (lFirst b) k = Some a) by (apply F; eauto). now rewrite M.
      * rewrite (E1 k K). destruct (in_dec Nat.eq_dec k (fst v)) as [I1|I1]; [reflexivity|contradiction].
  - intros k a. cbn [linsertNode fst lSecond]. rewrite mfind_emplace.
    split.
    + destruct (mfind (lSecond b) k) as [c|] eqn:M.
      * intro Q. inversion Q; subst. apply S0 in M. destruct M as (w & W & K). exists w.
        split; [apply LV; auto|exact K].
      * destruct (in_dec Nat.eq_dec k (snd v)) as [I1|I1]; [|discriminate]. intro Q. inversion Q; subst.
        exists v. split; [apply LV; auto|exact I1].
    + intros (w & W & K). apply LV in W. destruct W as [W|[-> ->]].
      * assert (M : mfind (lSecond b) k = Some a) by (apply S0; eauto). now rewrite M.
      * rewrite (E2 k K). destruct (in_dec Nat.eq_dec k (snd v)) as [I1|I1]; [reflexivity|contradiction].
Qed.
Lemma lerase_inv b l n a : lbInv b l -> nth_error (lColl b) n = Some a ->
  exists b', lerase b a = Some b' /\ lbInv b' (firstn n l ++ skipn (S n) l).
Proof.
  intros V E. unfold lerase. pose proof (liAt _ _ V _ _ E) as D.
  assert (N : n < length (lColl b)) by (apply nth_error_Some; congruence).
  destruct (nth_some l n) as [v W]; [rewrite <- (liLen _ _ V); exact N|].
  rewrite W in D. rewrite D. eexists. split; [reflexivity|]. destruct V as [L A NW ND F S0].
  set (b' := mkLB _ _ _ _ _).
  assert (LV : forall c w, live b' c w <-> (live b c w /\ c <> a)).
  { intros c w. unfold live, b'. cbn. rewrite in_drop, deref_release.
    destruct (Nat.eqb_spec c a); split; intros H; intuition congruence. }
  assert (LA : forall w, live b a w -> w = v).
  { intros w [_ Q]. congruence. }
  assert (La : live b a v) by (split; [eapply nth_error_In; eauto|exact D]).
  constructor; unfold b'; cbn [lHeap lNext lColl lFirst lSecond].
  - rewrite (drop_nth _ _ _ ND E). rewrite !app_length, !firstn_length, !skipn_length. lia.
  - intros k c. rewrite (drop_nth _ _ _ ND E). rewrite !nth_remove. intro Q.
    rewrite deref_release. destruct (Nat.eqb_spec c a) as [->|NE]; [|now apply A].
    exfalso. assert (X : (if k <? n then k else S k) = n).
    { apply (NoDup_nth_error (lColl b)); [exact ND| |congruence].
      apply nth_error_Some. congruence. }
    destruct (Nat.ltb_spec k n); lia.
  - intros c I. apply in_drop in I. now apply NW.
  - now apply NoDup_filter_aux.
  - intros k c. fold b'. rewrite mfind_erase. destruct (in_dec Nat.eq_dec k (fst v)) as [I1|I1].
    + split; [discriminate|]. intros (w & Wl & K). apply LV in Wl. destruct Wl as [Wl NE]. exfalso. apply NE.
      assert (M1 : mfind (lFirst b) k = Some c) by (apply F; eauto).
      assert (M2 : mfind (lFirst b) k = Some a) by (apply F; eauto). congruence.
    + rewrite F. split; intros (w & Wl & K).
      * exists w. split; [|exact K]. apply LV. split; [exact Wl|]. intros ->. apply LA in Wl. subst. contradiction.
      * exists w. split; [|exact K]. now apply LV in Wl.
  - intros k c. fold b'. rewrite mfind_erase. destruct (in_dec Nat.eq_dec k (snd v)) as [I1|I1].
    + split; [discriminate|]. intros (w & Wl & K). apply LV in Wl. destruct Wl as [Wl NE]. exfalso. apply NE.
      assert (M1 : mfind (lSecond b) k = Some c) by (apply S0; eauto).
      assert (M2 : mfind (lSecond b) k = Some a) by (apply S0; eauto). congruence.
    + rewrite S0. split; intros (w & Wl & K).
      * exists w. split; [|exact K]. apply LV. split; [exact Wl|]. intros ->. apply LA in Wl. subst. contradiction.
      * exists w. split; [|exact K]. now apply LV in Wl.
Qed.
Lemma lempty_inv n : lbInv (mkLB [] n [] [] []) [].
Proof.
  constructor; cbn.
  - reflexivity.
  - intros k a E. now destruct k.
  - intros a [].
  - constructor.
  - intros k a. split; [discriminate|]. intros (v & [[] _] & _).
  - intros k a. split; [discriminate|]. intros (v & [[] _] & _).
Qed.
Lemma lbStep_inv b l o : lbInv b l ->
  exists b', lbStep (Some b) o = Some b' /\ lbInv b' (lspecStep l o).
Proof.
  intro V. destruct o as [v|n|]; cbn [lbStep lspecStep].
  - eexists. split; [reflexivity|]. unfold linsert.
    destruct (llookup_inv b l v V) as [A _]. destruct (llookup b v) as [p absent]. cbn [snd] in A.
    destruct absent.
    + assert (C := proj1 A eq_refl). rewrite C. now apply linsertNode_inv.
    + destruct (existsb (lclash v) l) eqn:C; [exact V|]. destruct A as [_ A].
      specialize (A eq_refl). discriminate.
  - destruct (nth_error (lColl b) n) as [a|] eqn:E.
    + now apply lerase_inv.
    + eexists. split; [reflexivity|]. rewrite remove_beyond; [exact V|].
      apply nth_error_None. apply nth_error_None in E. rewrite <- (liLen _ _ V). exact E.
  - eexists. split; [reflexivity|]. apply lempty_inv.
Qed.
Lemma lbRun_inv h : exists b, lbRun h = Some b /\ lbInv b (lspecRun h).
Proof.
  unfold lbRun, lspecRun. pose proof (lempty_inv 0) as B. fold emptyLBimap in B.
  revert B. generalize emptyLBimap, (@nil lnode).
  induction h as [|o h IH]; intros b l V.
  - exists b. split; [reflexivity|exact V].
  - cbn [fold_left]. destruct (lbStep_inv b l o V) as (b' & E & V'). rewrite E. now apply IH.
Qed.

(** Histories without erasing by a key.  Missing for the full claim: erasing by
    a key. *)
Theorem C24_list_bimap_partial : forall h,
  exists b, lbRun h = Some b /\ lcontents b = Some (lspecRun h) /\
    (forall k, exists r, lfound b (lfind_first b k) = Some r /\
       forall v, r = Some v <-> (In v (lspecRun h) /\ In k (fst v))) /\
    (forall k, exists r, lfound b (lfind_second b k) = Some r /\
       forall v, r = Some v <-> (In v (lspecRun h) /\ In k (snd v))) /\
    (forall v, let '(b', (p, isNew)) := linsert b v in
       (isNew = true <-> forall w, In w (lspecRun h) -> lclash v w = false) /\
       exists w, lfound b' p = Some (Some w) /\
         (if isNew then w = v else In w (lspecRun h) /\ lclash v w = true)).
Proof.
  intro h. destruct (lbRun_inv h) as (b & E & V). exists b. set (l := lspecRun h) in *.
  split; [exact E|]. split; [now apply lcontents_inv|]. split; [|split].
  - intro k. unfold lfind_first. destruct (mfind (lFirst b) k) as [a|] eqn:M; cbn.
    + pose proof (proj1 (liF _ _ V _ _) M) as (v & [I D] & K). rewrite D. exists (Some v).
      split; [reflexivity|]. intro w. split.
      * intro Q. inversion Q; subst. split; [|exact K]. apply (live_in b l w V). exists a. split; auto.
      * intros [Iw Kw]. apply (live_in b l w V) in Iw. destruct Iw as (c & Lc).
        assert (Mc : mfind (lFirst b) k = Some c) by (apply (liF _ _ V); eauto).
        destruct Lc as [_ Dc]. congruence.
    + exists None. split; [reflexivity|]. intro w. split; [discriminate|]. intros [Iw Kw]. exfalso.
      apply (live_in b l w V) in Iw. destruct Iw as (c & Lc).
      assert (Mc : mfind (lFirst b) k = Some c) by (apply (liF _ _ V); eauto). congruence.
  - intro k. unfold lfind_second. destruct (mfind (lSecond b) k) as [a|] eqn:M; cbn.
    + pose proof (proj1 (liS _ _ V _ _) M) as (v & [I D] & K). rewrite D. exists (Some v).
      split; [reflexivity|]. intro w. split.
      * intro Q. inversion Q; subst. split; [|exact K]. apply (live_in b l w V). exists a. split; auto.
      * intros [Iw Kw]. apply (live_in b l w V) in Iw. destruct Iw as (c & Lc).
        assert (Mc : mfind (lSecond b) k = Some c) by (apply (liS _ _ V); eauto).
        destruct Lc as [_ Dc]. congruence.
    + exists None. split; [reflexivity|]. intro w. split; [discriminate|]. intros [Iw Kw]. exfalso.
      apply (live_in b l w V) in Iw. destruct Iw as (c & Lc).
      assert (Mc : mfind (lSecond b) k = Some c) by (apply (liS _ _ V); eauto). congruence.
  - intro v. unfold linsert. destruct (llookup_inv b l v V) as [A P].
    destruct (llookup b v) as [p absent]. cbn [fst snd] in A, P. destruct absent.
    + cbn. split.
      * split; [|reflexivity]. intros _ w I. assert (C := proj1 A eq_refl).
        destruct (lclash v w) eqn:Q; [|reflexivity].
        assert (existsb (lclash v) l = true) by (apply existsb_exists; eauto). congruence.
      * exists v. rewrite Nat.eqb_refl. auto.
    + destruct (P eq_refl) as (a & w & -> & Lw & C). split.
      * split; [discriminate|]. intro N. rewrite (N w) in C; [discriminate|].
        apply (live_in b l w V). eauto.
      * exists w. cbn. destruct Lw as [I D]. rewrite D. split; [reflexivity|]. split; [|exact C].
        apply (live_in b l w V). exists a. split; auto.
Qed.
(** Every key of a node answers with the same node in both directions. *)
Theorem C24_one_node_partial : forall h b v, lbRun h = Some b -> In v (lspecRun h) ->
  exists a, (forall k, In k (fst v) -> lfind_first b k = Some a) /\
            (forall k, In k (snd v) -> lfind_second b k = Some a) /\
            deref (lHeap b) a = Some v.
Proof.
  intros h b v E I. destruct (lbRun_inv h) as (b' & E' & V). rewrite E in E'. inversion E'; subst b'.
  apply (live_in b _ v V) in I. destruct I as (a & L). exists a. split; [|split].
  - intros k K. apply (liF _ _ V). eauto.
  - intros k K. apply (liS _ _ V). eauto.
  - apply L.
Qed.
(** Erasing the element a key is attached to removes all its keys. *)
Theorem C24_erase_partial : forall h b v k a, lbRun h = Some b -> In v (lspecRun h) ->
  In k (fst v) -> lfind_first b k = Some a ->
  exists b', lerase b a = Some b' /\
    (forall j, lfind_first b' j = if in_dec Nat.eq_dec j (fst v) then None else lfind_first b j) /\
    (forall j, lfind_second b' j = if in_dec Nat.eq_dec j (snd v) then None else lfind_second b j).
Proof.
  intros h b v k a E I K F. destruct (C24_one_node_partial h b v E I) as (c & A & _ & D).
  rewrite (A k K) in F. inversion F; subst c. unfold lerase. rewrite D. eexists. split; [reflexivity|].
  split; intro j; unfold lfind_first, lfind_second; cbn; apply mfind_erase.
Qed.
Theorem C24_erase_by_key_refuted : exists b, lbRun [LInsert ([1; 2], [3])] = Some b /\
  let b' := fst (lerase_first b 1) in
  exists a, lfind_first b' 2 = Some a /\ lfind_second b' 3 = Some a /\ deref (lHeap b') a = None.
Proof. eexists. split; [reflexivity|]. cbn. exists 0. auto. Qed.
Print Assumptions C24_list_bimap_partial.
Print Assumptions C24_one_node_partial.
Print Assumptions C24_erase_partial.
Print Assumptions C24_erase_by_key_refuted.

Example lbimap_sample :
  lspecRun [LInsert ([1; 2], [3]); LInsert ([4], [5; 6]); LInsert ([7; 2], [9]); LErase 0;
            LInsert ([7; 2], [9])] = [([4], [5; 6]); ([7; 2], [9])].
Proof. reflexivity. Qed.
