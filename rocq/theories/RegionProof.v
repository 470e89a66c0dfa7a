(* Proofs about the construction of regions. *)
From Coq Require Import List Arith Bool Lia ZArith Permutation.
Import ListNotations.
From Verif Require Import RegionModel RegionSpec.

Lemma rnode_eqb_eq : forall a b, rnode_eqb a b = true <-> a = b.
Proof.
  intros a b. destruct a, b; simpl; split; intro H; try discriminate; auto;
    try (apply Nat.eqb_eq in H; now subst);
    try (inversion H; subst; apply Nat.eqb_refl).
Qed.

Lemma rnode_eqb_neq : forall a b, rnode_eqb a b = false <-> a <> b.
Proof.
  intros a b. split; intro H.
  - intro E. apply rnode_eqb_eq in E. congruence.
  - destruct (rnode_eqb a b) eqn:E; auto. apply rnode_eqb_eq in E. tauto.
Qed.

Lemma rnode_eqb_refl : forall a, rnode_eqb a a = true.
Proof. intros. now apply rnode_eqb_eq. Qed.

Lemma push_in : forall adj n m x y,
  In y (push adj n m x) <-> In y (adj x) \/ (x = n /\ y = m).
Proof.
  intros. unfold push. destruct (rnode_eqb x n) eqn:E.
  - apply rnode_eqb_eq in E. rewrite in_app_iff. simpl. intuition.
  - apply rnode_eqb_neq in E. intuition.
Qed.

Open Scope Z_scope.

(* ---- finite sums ---- *)
Fixpoint zsum {A} (f : A -> Z) (l : list A) : Z :=
  match l with [] => 0 | a :: l' => f a + zsum f l' end.

Lemma zsum_perm : forall A (f : A -> Z) l l',
  Permutation l l' -> zsum f l = zsum f l'.
Proof. intros A f l l' H. induction H; simpl; lia. Qed.

Lemma zsum_ext : forall A (f g : A -> Z) l,
  (forall a, In a l -> f a = g a) -> zsum f l = zsum g l.
Proof.
  induction l as [|a l IH]; simpl; intros H; auto.
  rewrite (H a) by auto. rewrite IH; auto.
Qed.

Lemma zsum_add : forall A (f g : A -> Z) l,
  zsum (fun a => f a + g a) l = zsum f l + zsum g l.
Proof. induction l; simpl; lia. Qed.

Lemma zsum_sub : forall A (f g : A -> Z) l,
  zsum (fun a => f a - g a) l = zsum f l - zsum g l.
Proof. induction l; simpl; lia. Qed.

Lemma zsum_scale : forall A (f : A -> Z) c l,
  zsum (fun a => c * f a) l = c * zsum f l.
Proof. induction l; simpl; lia. Qed.

Lemma zsum_zero : forall A (f : A -> Z) l,
  (forall a, In a l -> f a = 0) -> zsum f l = 0.
Proof.
  induction l as [|a l IH]; simpl; intros H; auto. rewrite (H a), IH; auto.
Qed.

Lemma zsum_swap : forall A B (f : A -> B -> Z) (l : list A) (k : list B),
  zsum (fun a => zsum (fun b => f a b) k) l =
  zsum (fun b => zsum (fun a => f a b) l) k.
Proof.
  induction l as [|a l IH]; simpl; intros k.
  - symmetry. apply zsum_zero. auto.
  - rewrite IH. now rewrite <- zsum_add.
Qed.

Definition ind (P : bool) : Z := if P then 1 else 0.
Definition cnt (l : list block) (b : block) : Z := Z.of_nat (times l b).
Definition cntN (l : list rnode) (n : rnode) : Z := Z.of_nat (timesN l n).

Lemma cnt_cons : forall a l b,
  cnt (a :: l) b = ind (Nat.eqb a b) + cnt l b.
Proof.
  intros. unfold cnt, times. simpl. destruct (Nat.eq_dec a b) as [->|N].
  - rewrite Nat.eqb_refl. unfold ind. lia.
  - apply Nat.eqb_neq in N. rewrite N. unfold ind. lia.
Qed.

Lemma cntN_app1 : forall l n m,
  cntN (l ++ [n]) m = cntN l m + ind (rnode_eqb n m).
Proof.
  intros. unfold cntN, timesN. rewrite count_occ_app. simpl.
  destruct (rnode_dec n m) as [->|N].
  - rewrite rnode_eqb_refl. unfold ind. lia.
  - apply rnode_eqb_neq in N. rewrite N. unfold ind. lia.
Qed.

Lemma cntN_in : forall l n, 0 < cntN l n <-> In n l.
Proof.
  intros. unfold cntN, timesN. rewrite (count_occ_In rnode_dec). lia.
Qed.

(* ---- the map of blocks ---- *)
Lemma findBlock_in : forall m b n, findBlock m b = Some n -> In (b, n) m.
Proof.
  induction m as [|[k v] m IH]; simpl; intros b n H; [discriminate|].
  destruct (Nat.eqb k b) eqn:E; auto.
  apply Nat.eqb_eq in E. inversion H; subst; auto.
Qed.

Lemma findBlock_nodup : forall m b n,
  NoDup (map fst m) -> In (b, n) m -> findBlock m b = Some n.
Proof.
  induction m as [|[k v] m IH]; simpl; intros b n D I; [tauto|].
  apply NoDup_cons_iff in D as [D1 D2].
  destruct (Nat.eqb k b) eqn:E.
  - apply Nat.eqb_eq in E. subst. destruct I as [I|I].
    + now inversion I.
    + exfalso. apply D1. apply (in_map fst) in I. exact I.
  - apply Nat.eqb_neq in E. destruct I as [I|I]; [|auto].
    inversion I; subst; tauto.
Qed.

Lemma findBlock_none : forall m b,
  findBlock m b = None <-> ~ In b (map fst m).
Proof.
  induction m as [|[k v] m IH]; simpl; intros b.
  - tauto.
  - destruct (Nat.eqb k b) eqn:E.
    + apply Nat.eqb_eq in E. split; [discriminate|tauto].
    + apply Nat.eqb_neq in E. rewrite IH. tauto.
Qed.

Lemma findBlock_app : forall m k b,
  findBlock (m ++ k) b =
  match findBlock m b with Some n => Some n | None => findBlock k b end.
Proof.
  induction m as [|[x v] m IH]; simpl; intros k b; auto.
  destruct (Nat.eqb x b); auto.
Qed.

Lemma nodup_snoc : forall A (l : list A) a,
  NoDup l -> ~ In a l -> NoDup (l ++ [a]).
Proof.
  induction l as [|x l IH]; simpl; intros a D N.
  - constructor; auto; constructor.
  - apply NoDup_cons_iff in D as [D1 D2]. constructor.
    + rewrite in_app_iff. simpl. intuition.
    + apply IH; auto.
Qed.

Lemma insertBlock_nodup : forall m b n,
  NoDup (map fst m) -> NoDup (map fst (insertBlock m b n)).
Proof.
  intros m b n D. unfold insertBlock. destruct (findBlock m b) eqn:E; auto.
  rewrite map_app. simpl. apply nodup_snoc; auto. now apply findBlock_none.
Qed.

Lemma insertBlock_find : forall m b n c,
  findBlock (insertBlock m b n) c =
  match findBlock m c with
  | Some x => Some x
  | None => if Nat.eqb b c then Some n else None
  end.
Proof.
  intros. unfold insertBlock. destruct (findBlock m b) eqn:E.
  - destruct (findBlock m c) eqn:Ec; auto.
    destruct (Nat.eqb b c) eqn:Q; auto. apply Nat.eqb_eq in Q. congruence.
  - rewrite findBlock_app. simpl. reflexivity.
Qed.

Lemma insertAll_nodup : forall bs n m,
  NoDup (map fst m) ->
  NoDup (map fst (fold_left (fun m b => insertBlock m b n) bs m)).
Proof.
  induction bs as [|b bs IH]; simpl; intros; auto.
  apply IH. now apply insertBlock_nodup.
Qed.

Lemma insertAll_find : forall bs n m c,
  findBlock (fold_left (fun m b => insertBlock m b n) bs m) c =
  match findBlock m c with
  | Some x => Some x
  | None => if in_dec Nat.eq_dec c bs then Some n else None
  end.
Proof.
  induction bs as [|b bs IH]; intros n m c.
  - simpl. destruct (findBlock m c); auto.
  - cbn [fold_left]. rewrite IH, insertBlock_find.
    destruct (findBlock m c) eqn:E; auto.
    destruct (Nat.eqb b c) eqn:Q.
    + apply Nat.eqb_eq in Q. subst.
      destruct (in_dec Nat.eq_dec c (c :: bs)) as [|N]; auto.
      exfalso. apply N. now left.
    + apply Nat.eqb_neq in Q.
      destruct (in_dec Nat.eq_dec c bs) as [I1|I1],
        (in_dec Nat.eq_dec c (b :: bs)) as [I2|I2]; auto.
      * exfalso. apply I2. now right.
      * exfalso. destruct I2; tauto.
Qed.

Lemma mapInner_gen : forall inner m,
  NoDup (map fst m) ->
  NoDup (map fst (fold_left (fun m l =>
    fold_left (fun m b => insertBlock m b (NLoop (lpHeader l)))
              (lpBlocks l) m) inner m)) /\
  (forall b n, findBlock (fold_left (fun m l =>
    fold_left (fun m b => insertBlock m b (NLoop (lpHeader l)))
              (lpBlocks l) m) inner m) b = Some n ->
    findBlock m b = Some n \/
    exists i, In i inner /\ In b (lpBlocks i) /\ n = NLoop (lpHeader i)) /\
  (forall b, findBlock (fold_left (fun m l =>
    fold_left (fun m b => insertBlock m b (NLoop (lpHeader l)))
              (lpBlocks l) m) inner m) b = None ->
    findBlock m b = None /\ forall i, In i inner -> ~ In b (lpBlocks i)).
Proof.
  induction inner as [|l inner IH]; simpl; intros m D.
  - split; [exact D|]. split; auto.
  - destruct (IH (fold_left (fun m b => insertBlock m b (NLoop (lpHeader l)))
              (lpBlocks l) m)) as [A [B C]].
    { now apply insertAll_nodup. }
    split; auto. split.
    + intros b n H. apply B in H as [H|[i [Ii H]]].
      * rewrite insertAll_find in H. destruct (findBlock m b); auto.
        destruct (in_dec Nat.eq_dec b (lpBlocks l)); [|discriminate].
        inversion H; subst. right. exists l. auto.
      * right. exists i. tauto.
    + intros b H. apply C in H as [H1 H2]. rewrite insertAll_find in H1.
      destruct (findBlock m b); [discriminate|].
      destruct (in_dec Nat.eq_dec b (lpBlocks l)); [discriminate|].
      split; auto. intros i [<-|Hi]; auto.
Qed.

Lemma mapInner_nodup : forall inner, NoDup (map fst (mapInner inner)).
Proof. intros. apply mapInner_gen. constructor. Qed.

Lemma mapInner_some : forall inner b n,
  findBlock (mapInner inner) b = Some n ->
  exists i, In i inner /\ In b (lpBlocks i) /\ n = NLoop (lpHeader i).
Proof.
  intros inner b n H.
  destruct (mapInner_gen inner [] (NoDup_nil _)) as [_ [B _]].
  apply B in H as [H|H]; auto. discriminate.
Qed.

Lemma mapInner_none : forall inner b,
  findBlock (mapInner inner) b = None <->
  forall i, In i inner -> ~ In b (lpBlocks i).
Proof.
  intros inner b. split; intros H.
  - destruct (mapInner_gen inner [] (NoDup_nil _)) as [_ [_ C]].
    now apply C in H.
  - destruct (findBlock (mapInner inner) b) eqn:E; auto.
    apply mapInner_some in E as [i [I1 [I2 _]]]. exfalso. eapply H; eauto.
Qed.

(* ---- node lists ---- *)
Lemma addBlockNodes_ok : forall bs m0 g0 g m,
  addBlockNodes bs m0 g0 = (g, m) ->
  NoDup (map fst m0) ->
  (forall x, In x (gNodes g0) -> x <> NExit) ->
  gSucc g = gSucc g0 /\ gPred g = gPred g0 /\ NoDup (map fst m) /\
  (forall b, findBlock m b = match findBlock m0 b with
     | Some n => Some n
     | None => if in_dec Nat.eq_dec b bs then Some (NBlock b) else None end) /\
  exists new, gNodes g = gNodes g0 ++ map NBlock new /\ NoDup new /\
    forall b, In b new <-> In b bs /\ findBlock m0 b = None.
Proof.
  unfold addBlockNodes.
  induction bs as [|b bs IH]; intros m0 g0 g m H D X.
  - simpl in H. inversion H; subst. do 3 (split; auto). split.
    + intros b. destruct (findBlock m b); auto.
    + exists []. rewrite app_nil_r. split; auto. split; [constructor|].
      simpl; tauto.
  - cbn [fold_left] in H. destruct (findBlock m0 b) eqn:E.
    + apply IH in H as [A [B [C [F [new [N1 [N2 N3]]]]]]]; auto.
      do 3 (split; auto). split.
      * intros c. rewrite F. destruct (findBlock m0 c) eqn:Ec; auto.
        destruct (in_dec Nat.eq_dec c bs) as [I1|I1],
          (in_dec Nat.eq_dec c (b :: bs)) as [I2|I2]; auto.
        -- exfalso. apply I2. now right.
        -- exfalso. destruct I2 as [->|]; [congruence|tauto].
      * exists new. split; auto. split; auto. intros c. rewrite N3. simpl.
        intuition congruence.
    + assert (LN : gNodes (addNode g0 (NBlock b)) = gNodes g0 ++ [NBlock b]).
      { unfold addNode, insertNode. simpl.
        destruct (rev (gNodes g0)) as [|x r] eqn:R; auto.
        assert (x <> NExit).
        { apply X. apply in_rev. rewrite R. now left. }
        destruct x; simpl; auto; congruence. }
      apply IH in H as [A [B [C [F [new [N1 [N2 N3]]]]]]].
      * split; auto. split; auto. split; auto. split.
        -- intros c. rewrite F, findBlock_app. cbn [findBlock].
           destruct (findBlock m0 c) eqn:Ec; auto.
           destruct (Nat.eqb b c) eqn:Q.
           ++ apply Nat.eqb_eq in Q. subst.
              destruct (in_dec Nat.eq_dec c (c :: bs)) as [|N]; auto.
              exfalso. apply N. now left.
           ++ apply Nat.eqb_neq in Q.
              destruct (in_dec Nat.eq_dec c bs) as [I1|I1],
                (in_dec Nat.eq_dec c (b :: bs)) as [I2|I2]; auto.
              ** exfalso. apply I2. now right.
              ** exfalso. destruct I2; tauto.
        -- exists (b :: new). rewrite N1, LN, <- app_assoc. split; auto.
           assert (Nb : ~ In b new).
           { intro Q. apply N3 in Q as [_ Q]. rewrite findBlock_app, E in Q.
             simpl in Q. rewrite Nat.eqb_refl in Q. discriminate. }
           split; [now constructor|].
           intros c. simpl. rewrite N3, findBlock_app. simpl.
           split.
           ++ intros [<-|[Q1 Q2]]; [auto|]. split; auto.
              destruct (findBlock m0 c); auto; discriminate.
           ++ intros [[->|Q1] Q2]; [auto|].
              destruct (Nat.eq_dec b c); [auto|]. right. split; auto.
              rewrite Q2. apply Nat.eqb_neq in n. now rewrite n.
      * rewrite map_app. simpl. apply nodup_snoc; auto.
        now apply findBlock_none.
      * rewrite LN. intros x Hx. apply in_app_iff in Hx as [Hx|[<-|[]]]; auto.
        discriminate.
Qed.

Lemma addLoops_ok : forall inner g,
  (forall x, In x (gNodes g) -> x <> NExit) ->
  let g' := fold_left (fun g i => addNode g (NLoop (lpHeader i))) inner g in
  gNodes g' = gNodes g ++ map (fun i => NLoop (lpHeader i)) inner /\
  gSucc g' = gSucc g /\ gPred g' = gPred g.
Proof.
  induction inner as [|i inner IH]; simpl; intros g X.
  - now rewrite app_nil_r.
  - assert (LN : gNodes (addNode g (NLoop (lpHeader i))) =
                 gNodes g ++ [NLoop (lpHeader i)]).
    { unfold addNode, insertNode. simpl.
      destruct (rev (gNodes g)) as [|x r] eqn:R; auto.
      assert (x <> NExit).
      { apply X. apply in_rev. rewrite R. now left. }
      destruct x; simpl; auto; congruence. }
    destruct (IH (addNode g (NLoop (lpHeader i)))) as [A [B C]].
    + rewrite LN. intros x Hx. apply in_app_iff in Hx as [Hx|[<-|[]]]; auto.
      discriminate.
    + rewrite A, LN, <- app_assoc. auto.
Qed.

(* The node list keeps its shape: entry, inner nodes, exit. *)
Definition shaped (base : list rnode) (g : graph) : Prop :=
  gNodes g = NEntry :: base ++ [NExit] \/
  gNodes g = NEntry :: base ++ [NLatch; NExit].

Definition innerNode (n : rnode) : Prop :=
  (exists b, n = NBlock b) \/ (exists h, n = NLoop h).

Lemma hasLatch_spec : forall g, hasLatch g = true <-> In NLatch (gNodes g).
Proof.
  intros. unfold hasLatch. rewrite existsb_exists. split.
  - intros [x [H E]]. apply rnode_eqb_eq in E. now subst.
  - intros H. exists NLatch. split; auto.
Qed.

Lemma insertLatch : forall base,
  insertNode (NEntry :: base ++ [NExit]) NLatch
  = NEntry :: base ++ [NLatch; NExit].
Proof.
  intros base. unfold insertNode. simpl isEntry. simpl isExit. cbv iota.
  assert (R : rev (NEntry :: base ++ [NExit]) = NExit :: rev base ++ [NEntry]).
  { simpl. rewrite rev_app_distr. reflexivity. }
  rewrite R. simpl isExit. cbv iota.
  change (NEntry :: base ++ [NExit]) with ((NEntry :: base) ++ [NExit]).
  rewrite removelast_last. reflexivity.
Qed.

Section Links.
  Variable bsucc bpred : block -> list block.
  Variable header : block.
  Variable m : list (block * rnode).
  Variable base : list rnode.
  Hypothesis BASE : forall n, In n base -> innerNode n.

  Lemma base_noLatch : ~ In NLatch base.
  Proof. intro H. apply BASE in H as [[b H]|[h H]]; discriminate. Qed.

  Lemma shaped_latch : forall g, shaped base g -> hasLatch g = false ->
    gNodes g = NEntry :: base ++ [NExit].
  Proof.
    intros g [H|H] L; auto. exfalso.
    assert (hasLatch g = true).
    { apply hasLatch_spec. rewrite H. right. apply in_app_iff. simpl. auto. }
    congruence.
  Qed.

  (* Effect of one successor on the difference between the number of
     successor and predecessor records. *)
  Definition diff (g : graph) (x y : rnode) : Z :=
    cntN (gSucc g x) y - cntN (gPred g y) x.

  Lemma cntN_push : forall adj n k x y,
    cntN (push adj n k x) y =
    cntN (adj x) y + ind (rnode_eqb x n) * ind (rnode_eqb k y).
  Proof.
    intros. unfold push. destruct (rnode_eqb x n); unfold ind at 1.
    - rewrite cntN_app1. lia.
    - lia.
  Qed.

  Lemma rnode_eqb_sym : forall a b, rnode_eqb a b = rnode_eqb b a.
  Proof.
    intros a b. destruct (rnode_eqb b a) eqn:E.
    - apply rnode_eqb_eq in E. subst. apply rnode_eqb_refl.
    - apply rnode_eqb_neq in E. apply rnode_eqb_neq. congruence.
  Qed.

  Lemma diff_edge : forall g n k x y,
    diff (addEdge g n k) x y = diff g x y.
  Proof.
    intros. unfold diff, addEdge, addPredecessor, addSuccessor.
    cbn [gSucc gPred]. rewrite !cntN_push.
    rewrite (rnode_eqb_sym y k), (rnode_eqb_sym n x). lia.
  Qed.

  Lemma diff_succ : forall g n k x y,
    diff (addSuccessor g n k) x y =
    diff g x y + ind (rnode_eqb x n) * ind (rnode_eqb k y).
  Proof.
    intros. unfold diff, addSuccessor. cbn [gSucc gPred].
    rewrite cntN_push. lia.
  Qed.

  Lemma diff_pred : forall g n k x y,
    diff (addPredecessor g n k) x y =
    diff g x y - ind (rnode_eqb y n) * ind (rnode_eqb k x).
  Proof.
    intros. unfold diff, addPredecessor. cbn [gSucc gPred].
    rewrite cntN_push. lia.
  Qed.

  Lemma diff_addNode : forall g n x y, diff (addNode g n) x y = diff g x y.
  Proof. reflexivity. Qed.

  (* The contribution of successor s to the records of node n towards y. *)
  Definition sContrib (n y : rnode) (s : block) : Z :=
    match findBlock m s with
    | Some sn => if Nat.eqb s header then 0
                 else if rnode_eqb sn n then 0 else ind (rnode_eqb sn y)
    | None => 0
    end.

  Lemma linkSucc_ok : forall g n s x y,
    shaped base g -> shaped base (linkSucc header m n g s) /\
    diff (linkSucc header m n g s) x y =
    diff g x y + ind (rnode_eqb x n) * sContrib n y s.
  Proof.
    intros g n s x y SH. unfold linkSucc, sContrib.
    destruct (findBlock m s) as [sn|].
    - destruct (Nat.eqb s header).
      + destruct (hasLatch g) eqn:L; split.
        * destruct SH as [H|H]; [left|right]; auto.
        * rewrite diff_edge. lia.
        * right. simpl. rewrite (shaped_latch g SH L). apply insertLatch.
        * rewrite diff_edge, diff_addNode. lia.
      + destruct (rnode_eqb sn n).
        * split; auto. lia.
        * split.
          { destruct SH as [H|H]; [left|right]; auto. }
          rewrite diff_succ. lia.
    - split.
      { destruct SH as [H|H]; [left|right]; auto. }
      rewrite diff_edge. lia.
  Qed.

  Lemma linkSuccs_ok : forall ss g n x y,
    shaped base g -> shaped base (fold_left (linkSucc header m n) ss g) /\
    diff (fold_left (linkSucc header m n) ss g) x y =
    diff g x y + ind (rnode_eqb x n) * zsum (sContrib n y) ss.
  Proof.
    induction ss as [|s ss IH]; simpl; intros g n x y SH.
    - split; auto. lia.
    - destruct (linkSucc_ok g n s x y SH) as [A B].
      destruct (IH (linkSucc header m n g s) n x y A) as [C D].
      split; auto. rewrite D, B. lia.
  Qed.

  Definition pContrib (n x : rnode) (p : block) : Z :=
    match findBlock m p with
    | Some pn => if rnode_eqb pn n then 0 else ind (rnode_eqb pn x)
    | None => 0
    end.

  Lemma linkPreds_ok : forall ps g n x y,
    (forall p, In p ps -> findBlock m p <> None) ->
    exists g', fold_left (linkPred m n) ps (Some g) = Some g' /\
      gNodes g' = gNodes g /\ gSucc g' = gSucc g /\
      diff g' x y = diff g x y - ind (rnode_eqb y n) * zsum (pContrib n x) ps.
  Proof.
    induction ps as [|p ps IH]; simpl; intros g n x y H.
    - exists g. repeat split; auto. lia.
    - destruct (findBlock m p) as [pn|] eqn:E.
      2:{ exfalso. now apply (H p (or_introl eq_refl)). }
      unfold pContrib at 1. rewrite E.
      destruct (rnode_eqb pn n) eqn:Q.
      + destruct (IH g n x y) as [g' [A [B [C D]]]]; auto.
        exists g'. split; [exact A|]. split; [exact B|]. split; [exact C|].
        rewrite D. lia.
      + destruct (IH (addPredecessor g n pn) n x y) as [g' [A [B [C D]]]]; auto.
        exists g'. split; [exact A|]. split; [exact B|]. split; [exact C|].
        rewrite D, diff_pred. lia.
  Qed.

  Definition bContrib (x y : rnode) (bn : block * rnode) : Z :=
    ind (rnode_eqb x (snd bn)) * zsum (sContrib (snd bn) y) (bsucc (fst bn)) -
    (if Nat.eqb (fst bn) header then 0
     else ind (rnode_eqb y (snd bn)) *
          zsum (pContrib (snd bn) x) (bpred (fst bn))).

  Lemma linkBlocks_ok : forall ps g x y,
    (forall b n p, In (b, n) ps -> b <> header -> In p (bpred b) ->
       findBlock m p <> None) ->
    shaped base g ->
    exists g', fold_left (linkBlock bsucc bpred header m) ps (Some g) = Some g'
      /\ shaped base g' /\
      diff g' x y = diff g x y + zsum (bContrib x y) ps.
  Proof.
    induction ps as [|[b n] ps IH]; cbn [fold_left]; intros g x y H SH.
    - exists g. split; auto. split; auto. simpl. lia.
    - cbn [linkBlock].
      set (g1 := match bsucc b with
                 | [] => addEdge g n NExit
                 | s :: ss => fold_left (linkSucc header m n) (s :: ss) g
                 end).
      assert (G1 : shaped base g1 /\
        diff g1 x y = diff g x y +
          ind (rnode_eqb x n) * zsum (sContrib n y) (bsucc b)).
      { unfold g1. destruct (bsucc b) as [|s ss] eqn:E.
        - split.
          + destruct SH as [Q|Q]; [left|right]; auto.
          + rewrite diff_edge. simpl. lia.
        - now apply linkSuccs_ok. }
      destruct G1 as [SH1 D1].
      assert (G2 : exists g2,
        (if Nat.eqb b header then Some g1
         else fold_left (linkPred m n) (bpred b) (Some g1)) = Some g2 /\
        shaped base g2 /\
        diff g2 x y = diff g1 x y -
          (if Nat.eqb b header then 0
           else ind (rnode_eqb y n) * zsum (pContrib n x) (bpred b))).
      { destruct (Nat.eqb b header) eqn:E.
        - exists g1. split; auto. split; auto. lia.
        - apply Nat.eqb_neq in E.
          destruct (linkPreds_ok (bpred b) g1 n x y) as [g2 [A [B [C D]]]].
          + intros p Hp. eapply H; eauto. now left.
          + exists g2. split; auto. split; auto.
            unfold shaped in *. now rewrite B. }
      destruct G2 as [g2 [E2 [SH2 D2]]].
      destruct (IH g2 x y) as [g' [A [B C]]]; auto.
      { intros b' n' p I1 I2 I3. apply (H b' n' p); auto. now right. }
      exists g'. split; [|split; auto].
      + rewrite <- A. f_equal. exact E2.
      + rewrite C, D2, D1. unfold bContrib. cbn [zsum fst snd]. lia.
  Qed.

  (* ---- double counting ---- *)
  Hypothesis NDM : NoDup (map fst m).

  Lemma sum_by_find : forall (q : block -> rnode -> Z) (l : list block)
      (k : list (block * rnode)), NoDup (map fst k) ->
    zsum (fun s => match findBlock k s with
                   | Some sn => q s sn | None => 0 end) l =
    zsum (fun cv => q (fst cv) (snd cv) * cnt l (fst cv)) k.
  Proof.
    intros q l. induction k as [|[c v] k IH]; simpl; intros D.
    - apply zsum_zero. auto.
    - apply NoDup_cons_iff in D as [D1 D2]. rewrite <- IH by auto.
      clear IH. induction l as [|s l IHl].
      + simpl. change (cnt [] c) with 0. lia.
      + cbn [zsum]. rewrite IHl, cnt_cons.
        destruct (Nat.eqb c s) eqn:E.
        * apply Nat.eqb_eq in E. subst s. rewrite Nat.eqb_refl. unfold ind.
          destruct (findBlock k c) eqn:F.
          { apply findBlock_in in F. apply (in_map fst) in F.
            simpl in F. tauto. }
          lia.
        * rewrite Nat.eqb_sym in E. rewrite E. unfold ind. lia.
  Qed.

  Lemma balance : forall ps x y, Permutation ps m ->
    (forall a b, times (bsucc a) b = times (bpred b) a) ->
    zsum (bContrib x y) ps = 0.
  Proof.
    intros ps x y P T. rewrite (zsum_perm _ _ _ _ P).
    destruct (rnode_eqb x y) eqn:E.
    - apply rnode_eqb_eq in E. subst y. apply zsum_zero.
      intros [b n] _. unfold bContrib. cbn [fst snd].
      destruct (rnode_eqb x n) eqn:Q; unfold ind at 1 2; cbv iota.
      2:{ destruct (Nat.eqb b header); lia. }
      apply rnode_eqb_eq in Q. subst n.
      rewrite (zsum_zero _ (sContrib x x)).
      + rewrite (zsum_zero _ (pContrib x x)).
        * destruct (Nat.eqb b header); lia.
        * intros p _. unfold pContrib. destruct (findBlock m p); auto.
          destruct (rnode_eqb r x); auto.
      + intros s _. unfold sContrib. destruct (findBlock m s); auto.
        destruct (Nat.eqb s header); auto. destruct (rnode_eqb r x); auto.
    - unfold bContrib. rewrite zsum_sub.
      set (w := fun (b : block) (n : rnode) (c : block) (v : rnode) =>
        ind (rnode_eqb x n) * ind (rnode_eqb v y) *
        (if Nat.eqb c header then 0 else 1) * cnt (bsucc b) c).
      assert (S1 : zsum (fun a : block * rnode => ind (rnode_eqb x (snd a)) *
          zsum (sContrib (snd a) y) (bsucc (fst a))) m =
        zsum (fun a => zsum (fun c => w (fst a) (snd a) (fst c) (snd c)) m) m).
      { apply zsum_ext. intros [b n] _. cbn [fst snd].
        rewrite (zsum_ext _ (sContrib n y) (fun s => match findBlock m s with
          | Some sn => (if Nat.eqb s header then 0
              else if rnode_eqb sn n then 0 else ind (rnode_eqb sn y))
          | None => 0 end)) by (intros; reflexivity).
        rewrite (sum_by_find (fun s sn => if Nat.eqb s header then 0
              else if rnode_eqb sn n then 0 else ind (rnode_eqb sn y))) by auto.
        rewrite <- zsum_scale. apply zsum_ext. intros [c v] _.
        unfold w. cbn [fst snd].
        destruct (rnode_eqb x n) eqn:Q; unfold ind; cbv iota; [|lia].
        apply rnode_eqb_eq in Q. subst n.
        destruct (Nat.eqb c header); [lia|].
        destruct (rnode_eqb v x) eqn:Q; [|lia].
        apply rnode_eqb_eq in Q. subst v. rewrite E. lia. }
      assert (S2 : zsum (fun a : block * rnode =>
          if Nat.eqb (fst a) header then 0
          else ind (rnode_eqb y (snd a)) *
               zsum (pContrib (snd a) x) (bpred (fst a))) m =
        zsum (fun c => zsum (fun a => w (fst a) (snd a) (fst c) (snd c)) m) m).
      { apply zsum_ext. intros [c v] _. cbn [fst snd].
        rewrite (zsum_ext _ (pContrib v x) (fun p => match findBlock m p with
          | Some pn => (if rnode_eqb pn v then 0 else ind (rnode_eqb pn x))
          | None => 0 end)) by (intros; reflexivity).
        rewrite (sum_by_find (fun p pn =>
          if rnode_eqb pn v then 0 else ind (rnode_eqb pn x))) by auto.
        destruct (Nat.eqb c header) eqn:HC.
        - symmetry. apply zsum_zero. intros [b n] _. unfold w. cbn [fst snd].
          rewrite HC. lia.
        - rewrite <- zsum_scale. apply zsum_ext. intros [b n] _.
          unfold w. cbn [fst snd]. rewrite HC.
          replace (cnt (bpred c) b) with (cnt (bsucc b) c)
            by (unfold cnt; now rewrite T).
          rewrite (rnode_eqb_sym y v), (rnode_eqb_sym n x).
          destruct (rnode_eqb v y) eqn:Q; unfold ind; cbv iota; [|lia].
          apply rnode_eqb_eq in Q. subst v.
          destruct (rnode_eqb n y) eqn:Q; [|destruct (rnode_eqb x n); lia].
          apply rnode_eqb_eq in Q. subst n. rewrite E. lia. }
      rewrite S1, S2. rewrite zsum_swap. lia.
  Qed.
End Links.
Close Scope Z_scope.

Section Edges.
  Variable bsucc bpred : block -> list block.
  Variable header : block.
  Variable m : list (block * rnode).

  Definition oneSucc (n : rnode) (s : block) (y : rnode) : Prop :=
    match findBlock m s with
    | None => y = NExit
    | Some sn => if Nat.eqb s header then y = NLatch else sn <> n /\ y = sn
    end.

  Definition succOf (b : block) (n : rnode) (y : rnode) : Prop :=
    (bsucc b = [] /\ y = NExit) \/ exists s, In s (bsucc b) /\ oneSucc n s y.

  Lemma addEdge_succ : forall g a b x y,
    In y (gSucc (addEdge g a b) x) <-> In y (gSucc g x) \/ (x = a /\ y = b).
  Proof. intros. apply push_in. Qed.

  Lemma linkSucc_in : forall n g s x y,
    In y (gSucc (linkSucc header m n g s) x) <->
    In y (gSucc g x) \/ (x = n /\ oneSucc n s y).
  Proof.
    intros. unfold linkSucc, oneSucc. destruct (findBlock m s) as [sn|].
    - destruct (Nat.eqb s header).
      + rewrite addEdge_succ. destruct (hasLatch g); reflexivity.
      + destruct (rnode_eqb sn n) eqn:E.
        * apply rnode_eqb_eq in E. intuition.
        * apply rnode_eqb_neq in E. simpl. rewrite push_in. intuition.
    - apply addEdge_succ.
  Qed.

  Lemma linkSuccs_in : forall ss n g x y,
    In y (gSucc (fold_left (linkSucc header m n) ss g) x) <->
    In y (gSucc g x) \/ (x = n /\ exists s, In s ss /\ oneSucc n s y).
  Proof.
    induction ss as [|s ss IH]; simpl; intros n g x y.
    - split; auto. intros [H|[_ [s [[] _]]]]; auto.
    - rewrite IH, linkSucc_in. split.
      + intros [[H|[H1 H2]]|[H [t [H1 H2]]]]; auto.
        * right. split; auto. exists s. auto.
        * right. split; auto. exists t. auto.
      + intros [H|[H [t [[<-|H1] H2]]]]; auto. right. split; eauto.
  Qed.

  Lemma linkPreds_succ : forall ps g n g',
    fold_left (linkPred m n) ps (Some g) = Some g' ->
    gSucc g' = gSucc g /\ gNodes g' = gNodes g.
  Proof.
    induction ps as [|p ps IH]; simpl; intros g n g' H.
    - inversion H; auto.
    - destruct (findBlock m p) as [pn|].
      + destruct (rnode_eqb pn n); apply IH in H as [A B]; auto.
      + exfalso. clear -H. induction ps; simpl in H; auto; discriminate.
  Qed.

  Lemma linkBlocks_none : forall ps,
    fold_left (linkBlock bsucc bpred header m) ps None = None.
  Proof. induction ps; simpl; auto. Qed.

  Lemma linkBlocks_in : forall ps g g' x y,
    fold_left (linkBlock bsucc bpred header m) ps (Some g) = Some g' ->
    (In y (gSucc g' x) <->
     In y (gSucc g x) \/ exists b, In (b, x) ps /\ succOf b x y).
  Proof.
    induction ps as [|[b n] ps IH]; cbn [fold_left]; intros g g' x y H.
    - inversion H; subst. split; auto. intros [Q|[b [[] _]]]; auto.
    - cbn [linkBlock] in H.
      match type of H with context [Some ?G] => set (g1 := G) in H end.
      assert (G1 : In y (gSucc g1 x) <->
                   In y (gSucc g x) \/ (x = n /\ succOf b n y)).
      { unfold g1, succOf. destruct (bsucc b) as [|s ss].
        - rewrite addEdge_succ. simpl. split.
          { intuition. }
          intros [Q|[-> [[_ ->]|[s [[] _]]]]]; auto.
        - rewrite linkSuccs_in. split.
          { intuition. }
          intros [Q|[-> [[Q _]|Q]]]; auto. discriminate. }
      destruct (if Nat.eqb b header then Some g1
                else fold_left (linkPred m n) (bpred b) (Some g1))
        as [g2|] eqn:E2.
      2:{ rewrite linkBlocks_none in H. discriminate. }
      assert (S2 : gSucc g2 = gSucc g1).
      { destruct (Nat.eqb b header).
        - inversion E2; auto.
        - now apply linkPreds_succ in E2. }
      rewrite (IH g2 g' x y H), S2, G1. split.
      + intros [[Q|[-> Q]]|[c [Q1 Q2]]]; auto.
        * right. exists b. split; auto. now left.
        * right. exists c. split; auto. now right.
      + intros [Q|[c [[Q1|Q1] Q2]]]; auto.
        * inversion Q1; subst. auto.
        * right. eauto.
  Qed.

  (* The latch node exists exactly if some block jumps to the header. *)
  Lemma linkSuccs_latch : forall ss n g,
    In NLatch (gNodes (fold_left (linkSucc header m n) ss g)) <->
    In NLatch (gNodes g) \/ (In header ss /\ findBlock m header <> None).
  Proof.
    induction ss as [|s ss IH]; simpl; intros n g; [tauto|].
    rewrite IH.
    assert (G : In NLatch (gNodes (linkSucc header m n g s)) <->
      In NLatch (gNodes g) \/ (s = header /\ findBlock m header <> None)).
    { unfold linkSucc. destruct (findBlock m s) as [sn|] eqn:E.
      - destruct (Nat.eqb s header) eqn:Q.
        + apply Nat.eqb_eq in Q. subst. simpl.
          destruct (hasLatch g) eqn:L.
          * apply hasLatch_spec in L. tauto.
          * split.
            { intros _. right. split; auto. congruence. }
            intros _. simpl. unfold insertNode. simpl.
            destruct (rev (gNodes g)) as [|z r].
            { apply in_app_iff. simpl; auto. }
            destruct (isExit z); apply in_app_iff; simpl; auto.
        + apply Nat.eqb_neq in Q. destruct (rnode_eqb sn n); simpl; tauto.
      - simpl. split; auto. intros [H|[-> H]]; auto. congruence. }
    rewrite G. intuition.
  Qed.

  Lemma linkBlocks_latch : forall ps g g',
    findBlock m header <> None ->
    fold_left (linkBlock bsucc bpred header m) ps (Some g) = Some g' ->
    (In NLatch (gNodes g') <->
     In NLatch (gNodes g) \/
     exists b n, In (b, n) ps /\ In header (bsucc b)).
  Proof.
    intros ps g g' HM. revert g g'.
    induction ps as [|[b n] ps IH]; cbn [fold_left]; intros g g' H.
    - inversion H; subst. split; auto. intros [Q|[b [n [[] _]]]]; auto.
    - cbn [linkBlock] in H.
      match type of H with context [Some ?G] => set (g1 := G) in H end.
      assert (G1 : In NLatch (gNodes g1) <->
                   In NLatch (gNodes g) \/ In header (bsucc b)).
      { unfold g1. destruct (bsucc b) as [|s ss].
        - simpl. tauto.
        - rewrite linkSuccs_latch. tauto. }
      destruct (if Nat.eqb b header then Some g1
                else fold_left (linkPred m n) (bpred b) (Some g1))
        as [g2|] eqn:E2.
      2:{ rewrite linkBlocks_none in H. discriminate. }
      assert (S2 : gNodes g2 = gNodes g1).
      { destruct (Nat.eqb b header).
        - inversion E2; auto.
        - now apply linkPreds_succ in E2. }
      rewrite (IH g2 g' H), S2, G1. split.
      + intros [[Q|Q]|[c [k [Q1 Q2]]]]; auto.
        * right. exists b, n. split; auto. now left.
        * right. exists c, k. split; auto. now right.
      + intros [Q|[c [k [[Q1|Q1] Q2]]]]; auto.
        * inversion Q1; subst. auto.
        * right. eauto.
  Qed.
End Edges.

(* ---- the whole level ---- *)
Lemma in_times : forall l b, In b l <-> times l b > 0.
Proof. intros. apply count_occ_In. Qed.

Lemma diff_succ_pred : forall g x y,
  diff g x y = 0%Z -> (In y (gSucc g x) <-> In x (gPred g y)).
Proof.
  intros g x y D. unfold diff in D. rewrite <- !cntN_in. lia.
Qed.

Lemma trap_fold : forall inner g,
  NoDup (map lpHeader inner) ->
  let g' := fold_left linkDeadLoop inner g in
  (forall x y, diff g' x y = diff g x y) /\ gNodes g' = gNodes g /\
  (forall x y, In y (gSucc g' x) <-> In y (gSucc g x) \/
     (y = NExit /\ exists i, In i inner /\ x = NLoop (lpHeader i) /\
                            gSucc g x = [])).
Proof.
  induction inner as [|i inner IH]; intros g D; cbn [fold_left].
  - split; auto. split; auto. intros. split; auto.
    intros [H|[_ [i [[] _]]]]; auto.
  - cbn [map] in D. apply NoDup_cons_iff in D as [D1 D2].
    destruct (IH (linkDeadLoop g i) D2) as [A [B C]].
    unfold linkDeadLoop in *.
    destruct (gSucc g (NLoop (lpHeader i))) as [|z r] eqn:E.
    + split.
      { intros. rewrite A. apply diff_edge. }
      split; [rewrite B; reflexivity|].
      intros x y. rewrite C, addEdge_succ. split.
      * intros [[H|[-> ->]]|[-> [j [J1 [-> J3]]]]]; auto.
        -- right. split; auto. exists i. split; [now left|]. auto.
        -- right. split; auto. exists j. split; [now right|]. split; auto.
           simpl in J3. unfold push in J3.
           destruct (rnode_eqb (NLoop (lpHeader j)) (NLoop (lpHeader i)))
             eqn:Q; auto.
           apply app_eq_nil in J3. destruct J3; discriminate.
      * intros [H|[-> [j [[<-|J1] [-> J3]]]]]; auto.
        right. split; auto. exists j. split; auto. split; auto.
        simpl. unfold push.
        destruct (rnode_eqb (NLoop (lpHeader j)) (NLoop (lpHeader i))) eqn:Q;
          auto.
        apply rnode_eqb_eq in Q. inversion Q. exfalso. apply D1.
        rewrite <- H0. now apply in_map.
    + split; [apply A|]. split; [apply B|]. intros x y. rewrite C. split.
      * intros [H|[-> [j [J1 J2]]]]; auto.
        right. split; auto. exists j. split; auto. now right.
      * intros [H|[-> [j [[<-|J1] [-> J3]]]]]; auto.
        -- congruence.
        -- right. split; auto. exists j. auto.
Qed.

Section Level.
  Variable bsucc bpred : block -> list block.
  Variable shuffle : list (block * rnode) -> list (block * rnode).
  Hypothesis SHF : forall m, Permutation (shuffle m) m.

  Lemma standsFor_fun : forall l b x y,
    loopOk bsucc bpred l -> standsFor l b x -> standsFor l b y -> x = y.
  Proof.
    intros l b x y OK [[i [I1 [I2 ->]]]|[A1 [A2 ->]]]
                      [[j [J1 [J2 ->]]]|[B1 [B2 ->]]]; auto.
    - now rewrite (loApart _ _ _ OK i j b I1 J1 I2 J2).
    - exfalso. eapply B2; eauto.
    - exfalso. eapply A2; eauto.
  Qed.

  Lemma standsFor_in : forall l b x,
    loopOk bsucc bpred l -> standsFor l b x -> In b (lpBlocks l).
  Proof.
    intros l b x OK [[i [I1 [I2 _]]]|[A _]]; auto.
    now apply (loInside _ _ _ OK i I1).
  Qed.

  Lemma standsFor_inner : forall l b x, standsFor l b x -> innerNode x.
  Proof.
    intros l b x [[i [_ [_ ->]]]|[_ [_ ->]]]; [right|left]; eauto.
  Qed.

  Lemma build_ok : forall l, loopOk bsucc bpred l ->
    exists g, buildLevel bsucc bpred shuffle l = Some g /\
      (forall x y, diff g x y = 0%Z) /\
      (forall x y, In y (gSucc g x) <-> regionEdge bsucc l x y) /\
      exists mid latch, gNodes g = NEntry :: mid ++ latch ++ [NExit] /\
        NoDup mid /\
        (forall n, In n mid <->
           (exists i, In i (lpInner l) /\ n = NLoop (lpHeader i)) \/
           (exists b, In b (lpBlocks l) /\ n = NBlock b /\
              forall i, In i (lpInner l) -> ~ In b (lpBlocks i))) /\
        (latch = [] \/ latch = [NLatch]) /\
        (latch = [NLatch] <->
           exists b, In b (lpBlocks l) /\ jumpsBack bsucc l b).
  Proof.
    intros l OK. unfold buildLevel.
    set (g0 := addNode (mkGraph [] (fun _ => []) (fun _ => [])) NEntry).
    assert (X0 : forall x, In x (gNodes g0) -> x <> NExit).
    { simpl. intros x [<-|[]]. discriminate. }
    destruct (addLoops_ok (lpInner l) g0 X0) as [N1 [S1 P1]].
    set (g1 := fold_left (fun g i => addNode g (NLoop (lpHeader i)))
                         (lpInner l) g0) in *.
    destruct (addBlockNodes (lpBlocks l) (mapInner (lpInner l)) g1)
      as [g2 m] eqn:E2.
    apply addBlockNodes_ok in E2 as [S2 [P2 [NDM [FM [new [N2 [ND2 M2]]]]]]].
    2:{ apply mapInner_nodup. }
    2:{ intros x Hx. rewrite N1 in Hx. apply in_app_iff in Hx as [Hx|Hx].
        - now apply X0.
        - apply in_map_iff in Hx as [i [<- _]]. discriminate. }
    (* meaning of the map *)
    assert (MS : forall b n, findBlock m b = Some n <-> standsFor l b n).
    { intros b n. rewrite FM. split.
      - destruct (findBlock (mapInner (lpInner l)) b) eqn:E.
        + intros Q. inversion Q; subst. left.
          now apply mapInner_some in E.
        + destruct (in_dec Nat.eq_dec b (lpBlocks l)); [|discriminate].
          intros Q. inversion Q; subst. right. split; auto. split; auto.
          now apply mapInner_none.
      - intros ST. destruct (findBlock (mapInner (lpInner l)) b) eqn:E.
        + f_equal. eapply standsFor_fun; eauto. left.
          now apply mapInner_some in E.
        + destruct ST as [[i [I1 [I2 _]]]|[A1 [A2 ->]]].
          * exfalso. apply (proj1 (mapInner_none _ _) E i I1 I2).
          * destruct (in_dec Nat.eq_dec b (lpBlocks l)); tauto. }
    assert (MI : forall b n, In (b, n) m <-> standsFor l b n).
    { intros b n. rewrite <- MS. split.
      - now apply findBlock_nodup.
      - apply findBlock_in. }
    assert (MN : forall b, findBlock m b = None <-> ~ In b (lpBlocks l)).
    { intros b. rewrite FM. split.
      - intros Q.
        destruct (findBlock (mapInner (lpInner l)) b) eqn:E; [discriminate|].
        destruct (in_dec Nat.eq_dec b (lpBlocks l)); auto. discriminate.
      - intros Q. destruct (findBlock (mapInner (lpInner l)) b) eqn:E.
        + exfalso. apply mapInner_some in E as [i [I1 [I2 _]]].
          apply Q. now apply (loInside _ _ _ OK i I1).
        + destruct (in_dec Nat.eq_dec b (lpBlocks l)); tauto. }
    assert (TOT : forall b, In b (lpBlocks l) -> exists n, standsFor l b n).
    { intros b Hb. destruct (findBlock m b) eqn:E.
      - exists r. now apply MS.
      - apply MN in E. tauto. }
    set (mid := map (fun i => NLoop (lpHeader i)) (lpInner l) ++
                map NBlock new).
    assert (N2' : gNodes g2 = NEntry :: mid).
    { rewrite N2, N1. unfold mid. reflexivity. }
    assert (MIDI : forall n, In n mid <->
           (exists i, In i (lpInner l) /\ n = NLoop (lpHeader i)) \/
           (exists b, In b (lpBlocks l) /\ n = NBlock b /\
              forall i, In i (lpInner l) -> ~ In b (lpBlocks i))).
    { intros n. unfold mid. rewrite in_app_iff, !in_map_iff. split.
      - intros [[i [<- Hi]]|[b [<- Hb]]].
        + left. eauto.
        + right. exists b. apply M2 in Hb as [H1 H2].
          split; auto. split; auto. now apply mapInner_none.
      - intros [[i [Hi ->]]|[b [H1 [-> H2]]]].
        + left. eauto.
        + right. exists b. split; auto. apply M2. split; auto.
          now apply mapInner_none. }
    assert (MIDN : NoDup mid).
    { unfold mid. clear - ND2 OK.
      assert (NL : NoDup (map (fun i => NLoop (lpHeader i)) (lpInner l))).
      { rewrite <- (map_map lpHeader NLoop). apply FinFun.Injective_map_NoDup.
        - intros a b Q. now inversion Q.
        - apply (loHeads _ _ _ OK). }
      assert (NB : NoDup (map NBlock new)).
      { apply FinFun.Injective_map_NoDup; auto.
        intros a b Q. now inversion Q. }
      revert NL. generalize (lpInner l) as is.
      induction is as [|i is IH]; simpl; intros NL; auto.
      apply NoDup_cons_iff in NL as [Q1 Q2]. constructor; auto.
      rewrite in_app_iff. intros [Q|Q]; auto.
      apply in_map_iff in Q as [b [Q _]]. discriminate. }
    assert (BASE : forall n, In n mid -> innerNode n).
    { intros n Hn. apply MIDI in Hn as [[i [_ ->]]|[b [_ [-> _]]]];
        [right|left]; eauto. }
    assert (N3 : gNodes (addNode g2 NExit) = NEntry :: mid ++ [NExit]).
    { simpl. unfold insertNode. simpl. now rewrite N2'. }
    destruct (TOT (lpHeader l) (loHeader _ _ _ OK)) as [hn HN].
    pose proof (proj2 (MS _ _) HN) as FH. rewrite FH.
    set (g4 := addEdge (addNode g2 NExit) NEntry hn).
    assert (SH4 : shaped mid g4) by (left; exact N3).
    assert (D4 : forall x y, diff g4 x y = 0%Z).
    { intros x y. unfold g4. rewrite diff_edge, diff_addNode.
      unfold diff. rewrite S2, P2, S1, P1. reflexivity. }
    assert (I4 : forall x y, In y (gSucc g4 x) <-> x = NEntry /\ y = hn).
    { intros x y. unfold g4. rewrite addEdge_succ. simpl.
      rewrite S2, S1. simpl. tauto. }
    assert (PRE : forall b n p, In (b, n) (shuffle m) -> b <> lpHeader l ->
       In p (bpred b) -> findBlock m p <> None).
    { intros b n p I1 I2 I3 Q. apply MN in Q. apply Q.
      apply (loEntered _ _ _ OK b); auto.
      apply (Permutation_in _ (SHF m)) in I1. apply MI in I1.
      eapply standsFor_in; eauto. }
    destruct (linkBlocks_ok bsucc bpred (lpHeader l) m mid (shuffle m) g4
                NEntry NEntry PRE SH4) as [g5 [E5 [SH5 _]]].
    rewrite E5.
    assert (D5 : forall x y, diff g5 x y = 0%Z).
    { intros x y.
      destruct (linkBlocks_ok bsucc bpred (lpHeader l) m mid (shuffle m)
                  g4 x y PRE SH4) as [g5' [E5' [_ D]]].
      rewrite E5 in E5'. inversion E5'; subst g5'.
      rewrite D, D4, (balance bsucc bpred (lpHeader l) m NDM); auto.
      apply (loEdges _ _ _ OK). }
    assert (I5 : forall x y, In y (gSucc g5 x) <->
      (x = NEntry /\ y = hn) \/
      exists b, standsFor l b x /\ succOf bsucc (lpHeader l) m b x y).
    { intros x y. rewrite (linkBlocks_in _ _ _ _ _ _ _ x y E5), I4. split.
      - intros [Q|[b [Q1 Q2]]]; auto. right. exists b. split; auto.
        apply MI. eapply Permutation_in; eauto.
      - intros [Q|[b [Q1 Q2]]]; auto. right. exists b. split; auto.
        apply (Permutation_in _ (Permutation_sym (SHF m))). now apply MI. }
    (* meaning of succOf *)
    assert (SO : forall b x y, standsFor l b x ->
      (succOf bsucc (lpHeader l) m b x y <->
       (y = NExit /\ leaves bsucc l b) \/
       (y = NLatch /\ jumpsBack bsucc l b) \/
       (x <> y /\ exists c, standsFor l c y /\ In c (bsucc b) /\
          c <> lpHeader l))).
    { intros b x y ST. unfold succOf, oneSucc, leaves, jumpsBack. split.
      - intros [[Q1 Q2]|[s [Q1 Q2]]]; [left; auto|].
        destruct (findBlock m s) as [sn|] eqn:E.
        + destruct (Nat.eqb s (lpHeader l)) eqn:Q.
          * apply Nat.eqb_eq in Q. subst. auto.
          * apply Nat.eqb_neq in Q. destruct Q2 as [Q2 ->].
            right. right. split; [congruence|]. exists s.
            split; auto. now apply MS.
        + left. split; auto. right. exists s. split; auto. now apply MN.
      - intros [[-> [Q|[s [Q1 Q2]]]]|[[-> Q]|[Q1 [c [Q2 [Q3 Q4]]]]]].
        + left; auto.
        + right. exists s. split; auto. apply MN in Q2. now rewrite Q2.
        + right. exists (lpHeader l). split; auto. rewrite FH.
          now rewrite Nat.eqb_refl.
        + right. exists c. split; auto. apply MS in Q2. rewrite Q2.
          apply Nat.eqb_neq in Q4. rewrite Q4. split; congruence. }
    set (g6 := linkNoExit g5).
    assert (NOX : gPred g5 NExit = [] <->
                  forall b, In b (lpBlocks l) -> ~ leaves bsucc l b).
    { split.
      - intros Q b Hb L. destruct (TOT b Hb) as [n ST].
        assert (I : In NExit (gSucc g5 n)).
        { apply I5. right. exists b. split; auto. apply SO; auto. }
        apply (diff_succ_pred g5 _ _ (D5 _ _)) in I. rewrite Q in I. auto.
      - intros Q. destruct (gPred g5 NExit) as [|p ps] eqn:E; auto. exfalso.
        assert (I : In p (gPred g5 NExit)) by (rewrite E; now left).
        apply (diff_succ_pred g5 _ _ (D5 _ _)) in I.
        apply I5 in I as [[_ I]|[b [ST I]]].
        + apply standsFor_inner in HN. subst hn.
          destruct HN as [[? ?]|[? ?]]; discriminate.
        + apply SO in I; auto.
          destruct I as [[_ I]|[[I _]|[_ [c [I _]]]]].
          * eapply Q; eauto. eapply standsFor_in; eauto.
          * discriminate.
          * apply standsFor_inner in I. destruct I as [[? ?]|[? ?]];
              discriminate. }
    assert (I6 : forall x y, In y (gSucc g6 x) <-> In y (gSucc g5 x) \/
      (x = NEntry /\ y = NExit /\
       forall b, In b (lpBlocks l) -> ~ leaves bsucc l b)).
    { intros x y. unfold g6, linkNoExit.
      destruct (gPred g5 NExit) as [|p ps] eqn:E.
      - rewrite addEdge_succ. rewrite <- NOX. intuition.
      - rewrite <- NOX. intuition discriminate. }
    assert (D6 : forall x y, diff g6 x y = 0%Z).
    { intros x y. unfold g6, linkNoExit. destruct (gPred g5 NExit); auto.
      rewrite diff_edge. auto. }
    assert (N6 : gNodes g6 = gNodes g5).
    { unfold g6, linkNoExit. destruct (gPred g5 NExit); auto. }
    destruct (trap_fold (lpInner l) g6 (loHeads _ _ _ OK)) as [D7 [N7 I7]].
    eexists. split; [reflexivity|]. split; [|split].
    - intros x y. rewrite D7. auto.
    - intros x y. rewrite I7, I6, I5. split.
      + intros [[[[-> ->]|[b [ST S]]]|[-> [-> Q]]]|[-> [i [Q1 [-> Q2]]]]].
        * now apply re_entry.
        * apply SO in S; auto.
          destruct S as [[-> S]|[[-> S]|[S1' [c [S2' [S3 S4]]]]]].
          -- eapply re_exit; eauto.
          -- eapply re_back; eauto.
          -- eapply re_flow; eauto.
        * now apply re_endless.
        * apply re_trap; auto. intros b Hb.
          assert (ST : standsFor l b (NLoop (lpHeader i))) by
            (left; exists i; auto).
          assert (NOS : forall y, ~ In y (gSucc g6 (NLoop (lpHeader i)))).
          { intros z Hz. rewrite Q2 in Hz. destruct Hz. }
          assert (NOS' : forall y,
            ~ succOf bsucc (lpHeader l) m b (NLoop (lpHeader i)) y).
          { intros z Hz. apply (NOS z). apply I6. left. apply I5. right.
            exists b. auto. }
          split.
          -- intros Q. apply (NOS' NExit). left. auto.
          -- intros s Hs.
             destruct (in_dec Nat.eq_dec s (lpBlocks l)) as [L|L].
             2:{ exfalso. apply (NOS' NExit). apply SO; auto. left.
                 split; auto. right. eauto. }
             destruct (Nat.eq_dec s (lpHeader l)) as [->|NH].
             { exfalso. apply (NOS' NLatch). apply SO; auto. }
             destruct (TOT s L) as [n Hn].
             destruct (rnode_dec (NLoop (lpHeader i)) n) as [<-|NE].
             ++ destruct Hn as [[j [J1 [J2 J3]]]|[_ [_ J]]]; [|discriminate].
                inversion J3 as [J4].
                replace i with j; auto.
                pose proof (loHeads _ _ _ OK) as ND.
                clear - J1 Q1 J4 ND.
                induction (lpInner l) as [|a is IH]; [destruct J1|].
                simpl in ND. apply NoDup_cons_iff in ND as [ND1 ND2].
                destruct J1 as [->|J1], Q1 as [->|Q1]; auto.
                ** exfalso. apply ND1. rewrite <- J4. now apply in_map.
                ** exfalso. apply ND1. rewrite J4. now apply in_map.
             ++ exfalso. apply (NOS' n). apply SO; auto. right. right.
                split; auto. exists s. auto.
      + intros R. destruct R as [y S|b c x y S1' S2' S3 S4 S5|b x S1' S2'
                                |b x S1' S2'|S|i S1' S2'].
        * left. left. left. split; auto. eapply standsFor_fun; eauto.
        * left. left. right. exists b. split; auto. apply SO; auto.
          right. right. split; auto. exists c. auto.
        * left. left. right. exists b. split; auto. apply SO; auto.
        * left. left. right. exists b. split; auto. apply SO; auto.
        * left. right. auto.
        * right. split; auto. exists i. split; auto. split; auto.
          destruct (gSucc g6 (NLoop (lpHeader i))) as [|z r] eqn:E; auto.
          exfalso.
          assert (I : In z (gSucc g6 (NLoop (lpHeader i)))) by
            (rewrite E; now left).
          apply I6 in I as [I|[I _]]; [|discriminate].
          apply I5 in I as [[I _]|[b [ST I]]]; [discriminate|].
          assert (BI : In b (lpBlocks i)).
          { destruct ST as [[j [J1 [J2 J3]]]|[_ [_ J]]]; [|discriminate].
            inversion J3 as [J4].
            replace i with j; auto.
            pose proof (loHeads _ _ _ OK) as ND.
            clear - J1 S1' J4 ND.
            induction (lpInner l) as [|a is IH]; [destruct J1|].
            simpl in ND. apply NoDup_cons_iff in ND as [ND1 ND2].
            destruct J1 as [->|J1], S1' as [->|S1']; auto.
            - exfalso. apply ND1. rewrite <- J4. now apply in_map.
            - exfalso. apply ND1. rewrite J4. now apply in_map. }
          destruct (S2' b BI) as [T1 T2].
          apply SO in I; auto.
          destruct I as [[-> [I|[s [Q1 Q2]]]]|[[-> I]|[Q1 [c [Q2 [Q3 Q4]]]]]].
          -- tauto.
          -- apply Q2. apply (loInside _ _ _ OK i S1'). auto.
          -- apply (loOwn _ _ _ OK i S1'). apply T2. exact I.
          -- apply Q1. eapply standsFor_fun; [exact OK| |exact Q2].
             left. exists i. auto.
    - exists mid.
      assert (LA : In NLatch (gNodes g5) <->
                   exists b, In b (lpBlocks l) /\ jumpsBack bsucc l b).
      { rewrite (linkBlocks_latch bsucc bpred (lpHeader l) m (shuffle m) g4 g5)
          by (auto; congruence).
        assert (NL : ~ In NLatch (gNodes g4)).
        { change (gNodes g4) with (gNodes (addNode g2 NExit)). rewrite N3.
          intros [Q|Q]; [discriminate|]. apply in_app_iff in Q.
          destruct Q as [Q|[Q|[]]]; [|discriminate].
          revert Q. apply base_noLatch. exact BASE. }
        split.
        - intros [Q|[b [n [Q1 Q2]]]]; [tauto|]. exists b. split; auto.
          apply (Permutation_in _ (SHF m)) in Q1. apply MI in Q1.
          eapply standsFor_in; eauto.
        - intros [b [Q1 Q2]]. right. destruct (TOT b Q1) as [n ST].
          exists b, n. split; auto.
          apply (Permutation_in _ (Permutation_sym (SHF m))). now apply MI. }
      rewrite N7, N6.
      assert (NLM : ~ In NLatch mid) by (apply base_noLatch; exact BASE).
      destruct SH5 as [Q|Q].
      + exists []. split; [exact Q|]. split; auto. split; auto. split; auto.
        split; [discriminate|]. intros Q'. apply LA in Q'. rewrite Q in Q'.
        exfalso. destruct Q' as [Q'|Q']; [discriminate|].
        apply in_app_iff in Q'. destruct Q' as [Q'|[Q'|[]]]; [tauto|discriminate].
      + exists [NLatch]. split; [exact Q|]. split; auto. split; auto.
        split; auto. split; auto. intros _. apply LA. rewrite Q. right.
        apply in_app_iff. right. now left.
  Qed.
End Level.
