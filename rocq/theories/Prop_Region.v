(* C46: regions built for loop nests are well-formed flow graphs. *)
From Coq Require Import List Arith Bool Lia ZArith Permutation.
Import ListNotations.
From Verif Require Import RegionModel RegionSpec RegionProof.

(* The node list of a region: one entry (first), one exit (last), one node for
   each direct inner loop, one node for each block outside of inner loops, a
   latch if and only if some block jumps back to the header; nothing else and
   no repetitions. Any traversal order of the block map is allowed. *)
Theorem C46_nodes :
  forall bsucc bpred shuffle l,
  (forall m, Permutation (shuffle m) m) -> loopOk bsucc bpred l ->
  exists g, buildLevel bsucc bpred shuffle l = Some g /\
    NoDup (gNodes g) /\
    hd_error (gNodes g) = Some NEntry /\
    last (gNodes g) NEntry = NExit /\
    forall n, In n (gNodes g) <->
      n = NEntry \/ n = NExit \/
      (n = NLatch /\ exists b, In b (lpBlocks l) /\ jumpsBack bsucc l b) \/
      (exists i, In i (lpInner l) /\ n = NLoop (lpHeader i)) \/
      (exists b, In b (lpBlocks l) /\ n = NBlock b /\
         forall i, In i (lpInner l) -> ~ In b (lpBlocks i)).
Proof.
  intros bsucc bpred shuffle l SH OK.
  destruct (build_ok bsucc bpred shuffle SH l OK)
    as [g [E [_ [_ [mid [latch [N [ND [M [L1 L2]]]]]]]]]].
  exists g. split; auto. rewrite N.
  assert (MI : forall n, In n mid -> innerNode n).
  { intros n Hn. apply M in Hn as [[i [_ ->]]|[b [_ [-> _]]]];
      [right|left]; eauto. }
  assert (NM : forall n, ~ innerNode n -> ~ In n mid) by (intros n A B; auto).
  assert (X1 : ~ innerNode NEntry) by (intros [[? ?]|[? ?]]; discriminate).
  assert (X2 : ~ innerNode NExit) by (intros [[? ?]|[? ?]]; discriminate).
  assert (X3 : ~ innerNode NLatch) by (intros [[? ?]|[? ?]]; discriminate).
  assert (LX : forall n, In n latch -> n = NLatch).
  { destruct L1 as [->| ->]; simpl; intuition. }
  split; [|split; [reflexivity|split]].
  - constructor.
    + rewrite !in_app_iff. intros [Q|[Q|[Q|[]]]].
      * now apply (NM _ X1).
      * apply LX in Q. discriminate.
      * discriminate.
    + clear N M. induction mid as [|x mid IH].
      * destruct L1 as [->| ->]; simpl; repeat constructor; simpl;
          intuition discriminate.
      * simpl. apply NoDup_cons_iff in ND as [ND1 ND2]. constructor.
        -- rewrite !in_app_iff. intros [Q|[Q|[Q|[]]]]; auto.
           ++ apply LX in Q. subst. apply X3. apply MI. now left.
           ++ subst. apply X2. apply MI. now left.
        -- apply IH; auto.
           ++ intros; apply MI; now right.
           ++ intros n A B. apply A. apply MI. now right.
  - rewrite app_assoc. rewrite app_comm_cons. apply last_last.
  - intros n. simpl. rewrite !in_app_iff. simpl. rewrite M. split.
    + intros [Q|[[Q|Q]|[Q|[Q|[]]]]]; auto.
      * right. right. left. split; auto. apply L2.
        destruct L1 as [L|L]; auto. subst. destruct Q.
    + intros [Q|[Q|[[-> Q]|[Q|Q]]]]; auto.
      apply L2 in Q. rewrite Q. simpl. auto.
Qed.
Print Assumptions C46_nodes.

(* The edges of a region are exactly those of the control flow between blocks
   with inner loops collapsed, and successor and predecessor lists agree, each
   multiple edge included. *)
Theorem C46_edges :
  forall bsucc bpred shuffle l,
  (forall m, Permutation (shuffle m) m) -> loopOk bsucc bpred l ->
  exists g, buildLevel bsucc bpred shuffle l = Some g /\
    (forall x y, In y (gSucc g x) <-> regionEdge bsucc l x y) /\
    (forall x y, In x (gPred g y) <-> In y (gSucc g x)) /\
    (forall x y, timesN (gSucc g x) y = timesN (gPred g y) x).
Proof.
  intros bsucc bpred shuffle l SH OK.
  destruct (build_ok bsucc bpred shuffle SH l OK) as [g [E [D [S _]]]].
  exists g. split; auto. split; auto. split.
  - intros x y. symmetry. now apply diff_succ_pred.
  - intros x y. specialize (D x y). unfold diff, cntN in D. lia.
Qed.
Print Assumptions C46_edges.

(* The entry has no predecessor, the exit has no successor, and the latch leads
   nowhere (back edges are dropped). *)
Theorem C46_entry_exit :
  forall bsucc bpred shuffle l,
  (forall m, Permutation (shuffle m) m) -> loopOk bsucc bpred l ->
  exists g, buildLevel bsucc bpred shuffle l = Some g /\
    gPred g NEntry = [] /\ gSucc g NExit = [] /\ gSucc g NLatch = [] /\
    gPred g NExit <> [].
Proof.
  intros bsucc bpred shuffle l SH OK.
  destruct (build_ok bsucc bpred shuffle SH l OK) as [g [E [D [S _]]]].
  exists g. split; auto.
  assert (NI : forall b n, standsFor l b n -> innerNode n)
    by (intros; eapply standsFor_inner; eauto).
  split; [|split; [|split]].
  - destruct (gPred g NEntry) as [|x r] eqn:Q; auto. exfalso.
    assert (I : In x (gPred g NEntry)) by (rewrite Q; now left).
    apply (diff_succ_pred g _ _ (D _ _)) in I. apply S in I.
    inversion I; subst;
      match goal with H : standsFor _ _ NEntry |- _ =>
        apply NI in H; destruct H as [[? ?]|[? ?]]; discriminate end.
  - destruct (gSucc g NExit) as [|x r] eqn:Q; auto. exfalso.
    assert (I : In x (gSucc g NExit)) by (rewrite Q; now left).
    apply S in I. inversion I; subst;
      match goal with H : standsFor _ _ NExit |- _ =>
        apply NI in H; destruct H as [[? ?]|[? ?]]; discriminate end.
  - destruct (gSucc g NLatch) as [|x r] eqn:Q; auto. exfalso.
    assert (I : In x (gSucc g NLatch)) by (rewrite Q; now left).
    apply S in I. inversion I; subst;
      match goal with H : standsFor _ _ NLatch |- _ =>
        apply NI in H; destruct H as [[? ?]|[? ?]]; discriminate end.
  - (* some edge leads to the exit *)
    assert (X : exists x, In NExit (gSucc g x)).
    { unfold buildLevel in E.
      destruct (addBlockNodes (lpBlocks l) (mapInner (lpInner l)) _)
        as [g2 m].
      destruct (findBlock m (lpHeader l)) as [hn|]; [|discriminate].
      destruct (fold_left _ _ _) as [g5|]; [|discriminate].
      inversion E as [E']. clear E.
      pose proof (trap_fold (lpInner l) (linkNoExit g5) (loHeads _ _ _ OK))
        as T. cbv zeta in T. rewrite E' in T. destruct T as [T1 [_ T2]].
      assert (Y : In NEntry (gPred (linkNoExit g5) NExit) \/
                  exists x, In x (gPred (linkNoExit g5) NExit)).
      { unfold linkNoExit. destruct (gPred g5 NExit) as [|p ps] eqn:Q.
        - left. simpl. apply push_in. auto.
        - right. exists p. rewrite Q. now left. }
      assert (Z : exists x, In x (gPred (linkNoExit g5) NExit)).
      { destruct Y as [Y|[x Y]]; eauto. }
      destruct Z as [x Hx]. exists x. rewrite E'. apply T2. left.
      apply (diff_succ_pred (linkNoExit g5)); auto.
      rewrite <- T1. apply D. }
    destruct X as [x X]. apply (diff_succ_pred g _ _ (D _ _)) in X.
    intro Q. rewrite Q in X. destruct X.
Qed.
Print Assumptions C46_entry_exit.

(* If each block is reached from the header inside of the loop (it is so for
   natural loops and for functions without unreachable blocks), then each node
   of the region is reached from its entry. *)
Theorem C46_no_unreachable_nodes :
  forall bsucc bpred shuffle l,
  (forall m, Permutation (shuffle m) m) -> loopOk bsucc bpred l ->
  (forall b, In b (lpBlocks l) -> reachedInside bsucc l b) ->
  (forall i, In i (lpInner l) -> lpBlocks i <> []) ->
  exists g, buildLevel bsucc bpred shuffle l = Some g /\
    forall n, In n (gNodes g) -> walk (gSucc g) NEntry n.
Proof.
  intros bsucc bpred shuffle l SH OK RI NE.
  destruct (C46_nodes bsucc bpred shuffle l SH OK)
    as [g [E [_ [_ [_ NI]]]]].
  destruct (C46_edges bsucc bpred shuffle l SH OK)
    as [g' [E' [S [P _]]]].
  destruct (C46_entry_exit bsucc bpred shuffle l SH OK)
    as [g'' [E'' [_ [_ [_ X]]]]].
  rewrite E in E', E''. inversion E'. inversion E''. subst g' g''.
  exists g. split; auto.
  assert (TOT : forall b, In b (lpBlocks l) -> exists n, standsFor l b n).
  { intros b Hb. destruct (findBlock (mapInner (lpInner l)) b) eqn:F.
    - exists r. left. now apply mapInner_some in F.
    - exists (NBlock b). right. split; auto. split; auto.
      now apply mapInner_none. }
  assert (RB : forall b, reachedInside bsucc l b -> forall n,
    standsFor l b n -> walk (gSucc g) NEntry n).
  { intros b H. induction H as [|a b Ha IH Hab Hb]; intros n ST.
    - eapply walk_next; [constructor|]. apply S. now apply re_entry.
    - destruct (Nat.eq_dec b (lpHeader l)) as [->|NH].
      { eapply walk_next; [constructor|]. apply S. now apply re_entry. }
      assert (Ia : In a (lpBlocks l)).
      { destruct Ha; auto. apply (loHeader _ _ _ OK). }
      destruct (TOT a Ia) as [k Sk].
      destruct (rnode_dec k n) as [->|N]; [now apply IH|].
      eapply walk_next; [apply IH; exact Sk|]. apply S.
      eapply re_flow; eauto. }
  assert (RX : forall n, In n (gPred g NExit) -> walk (gSucc g) NEntry n).
  { intros n Hn. apply P in Hn. apply S in Hn.
    inversion Hn; subst.
    - match goal with H : standsFor _ _ NExit |- _ =>
        apply standsFor_inner in H; destruct H as [[? ?]|[? ?]]; discriminate
      end.
    - match goal with H : standsFor _ _ NExit |- _ =>
        apply standsFor_inner in H; destruct H as [[? ?]|[? ?]]; discriminate
      end.
    - eapply RB; [|eassumption]. apply RI. eapply standsFor_in; eauto.
    - constructor.
    - destruct (lpBlocks i) as [|b bs] eqn:B; [now apply NE in B|].
      assert (In b (lpBlocks i)) by (rewrite B; now left).
      apply (RB b).
      + apply RI. now apply (loInside _ _ _ OK i).
      + left. exists i. auto. }
  intros n Hn. apply NI in Hn as [->|[->|[[-> [b [B1 B2]]]|[[i [I1 ->]]|Q]]]].
  - constructor.
  - destruct (gPred g NExit) as [|x r] eqn:Q; [congruence|].
    eapply walk_next; [apply RX; now left|]. apply P. rewrite Q. now left.
  - destruct (TOT b B1) as [k Sk].
    eapply walk_next; [eapply RB; [apply RI; exact B1|exact Sk]|].
    apply S. eapply re_back; eauto.
  - destruct (lpBlocks i) as [|b bs] eqn:B; [now apply NE in B|].
    assert (In b (lpBlocks i)) by (rewrite B; now left).
    apply (RB b).
    + apply RI. now apply (loInside _ _ _ OK i).
    + left. exists i. auto.
  - destruct Q as [b [B1 [-> B2]]]. apply (RB b); auto. right. auto.
Qed.
Print Assumptions C46_no_unreachable_nodes.

(* ---- innermost regions ---- *)
Fixpoint loop_ind2 (P : loop -> Prop)
  (H : forall h b is, Forall P is -> P (Loop h b is)) (l : loop) : P l :=
  match l with
  | Loop h b is =>
    H h b is ((fix go (is : list loop) : Forall P is :=
      match is with
      | [] => Forall_nil P
      | i :: r => Forall_cons i (loop_ind2 P H i) (go r)
      end) is)
  end.

Lemma getRegionFor_app : forall m k b,
  getRegionFor (m ++ k) b =
  match getRegionFor m b with Some h => Some h | None => getRegionFor k b end.
Proof.
  induction m as [|[x v] m IH]; simpl; intros k b; auto.
  destruct (Nat.eqb x b); auto.
Qed.

Lemma getRegionFor_exists : forall m b,
  existsb (fun kv : block * block => Nat.eqb (fst kv) b) m = true <->
  getRegionFor m b <> None.
Proof.
  induction m as [|[k h] m IH]; simpl; intros b.
  - split; congruence.
  - destruct (Nat.eqb k b); simpl; [split; congruence|apply IH].
Qed.

Definition ownStep (inner : list loop) (h : block) (m : list (block * block))
    (b : block) : list (block * block) :=
  match findBlock (mapInner inner) b with
  | Some _ => m
  | None => if existsb (fun kv : block * block => Nat.eqb (fst kv) b) m
            then m else m ++ [(b, h)]
  end.

Lemma ownStep_get : forall inner h m b c,
  getRegionFor (ownStep inner h m b) c =
  match getRegionFor m c with
  | Some x => Some x
  | None => if Nat.eqb b c then
              match findBlock (mapInner inner) b with
              | Some _ => None | None => Some h end
            else None
  end.
Proof.
  intros. unfold ownStep. destruct (findBlock (mapInner inner) b) eqn:F.
  - destruct (getRegionFor m c); auto. destruct (Nat.eqb b c); auto.
  - destruct (existsb (fun kv : block * block => Nat.eqb (fst kv) b) m) eqn:X.
    + apply getRegionFor_exists in X.
      destruct (getRegionFor m c) eqn:G; auto.
      destruct (Nat.eqb b c) eqn:Q; auto.
      apply Nat.eqb_eq in Q. subst. congruence.
    + rewrite getRegionFor_app. simpl. reflexivity.
Qed.

Lemma ownSteps_get : forall inner h bs m c,
  getRegionFor (fold_left (ownStep inner h) bs m) c =
  match getRegionFor m c with
  | Some x => Some x
  | None => if in_dec Nat.eq_dec c bs then
              match findBlock (mapInner inner) c with
              | Some _ => None | None => Some h end
            else None
  end.
Proof.
  induction bs as [|b bs IH]; intros m c.
  - simpl. destruct (getRegionFor m c); auto.
  - cbn [fold_left]. rewrite IH, ownStep_get.
    destruct (getRegionFor m c); auto.
    destruct (Nat.eqb b c) eqn:Q.
    + apply Nat.eqb_eq in Q. subst.
      destruct (in_dec Nat.eq_dec c (c :: bs)) as [|N].
      2:{ exfalso. apply N. now left. }
      destruct (findBlock (mapInner inner) c) eqn:F; auto.
      destruct (in_dec Nat.eq_dec c bs); auto.
    + apply Nat.eqb_neq in Q.
      destruct (in_dec Nat.eq_dec c bs) as [I1|I1],
        (in_dec Nat.eq_dec c (b :: bs)) as [I2|I2]; auto.
      * exfalso. apply I2. now right.
      * exfalso. destruct I2; tauto.
Qed.

Lemma nested_trans : forall a b c, nested a b -> nested b c -> nested a c.
Proof.
  intros a b c H1 H2. induction H2; auto. eapply nested_inner; eauto.
Qed.

Lemma nested_cases : forall l k,
  nested l k -> k = l \/ exists i, In i (lpInner l) /\ nested i k.
Proof.
  intros l k H. induction H as [|k i H IH Hi]; auto. right.
  destruct IH as [->|[j [J1 J2]]].
  - exists i. split; auto. constructor.
  - exists j. split; auto. eapply nested_inner; eauto.
Qed.

Lemma nested_blocks : forall bsucc bpred l k,
  nestOk bsucc bpred l -> nested l k -> incl (lpBlocks k) (lpBlocks l).
Proof.
  intros bsucc bpred l k OK H. induction H as [|k i H IH Hi].
  - apply incl_refl.
  - eapply incl_tran; [|exact IH]. apply (loInside _ _ _ (OK k H) i Hi).
Qed.

Lemma bbToRegion_ok : forall bsucc bpred l, nestOk bsucc bpred l -> forall m,
  (forall b, In b (lpBlocks l) -> getRegionFor m b = None) ->
  (forall b, ~ In b (lpBlocks l) ->
     getRegionFor (bbToRegion l m) b = getRegionFor m b) /\
  (forall b k, innermost l b k ->
     getRegionFor (bbToRegion l m) b = Some (lpHeader k)).
Proof.
  intros bsucc bpred l. induction l as [h bs is IH] using loop_ind2.
  intros OK m FR.
  assert (OKl := OK _ (nested_self _)).
  set (l := Loop h bs is) in *.
  set (m1 := fold_left (fun m i => bbToRegion i m) is m).
  assert (EQ : bbToRegion l m = fold_left (ownStep is h) bs m1)
    by reflexivity.
  assert (G : forall js m0, incl js is -> NoDup js ->
    (forall i b, In i js -> In b (lpBlocks i) -> getRegionFor m0 b = None) ->
    (forall b, (forall i, In i js -> ~ In b (lpBlocks i)) ->
       getRegionFor (fold_left (fun m i => bbToRegion i m) js m0) b =
       getRegionFor m0 b) /\
    (forall i b k, In i js -> innermost i b k ->
       getRegionFor (fold_left (fun m i => bbToRegion i m) js m0) b =
       Some (lpHeader k))).
  { induction js as [|j js IHj]; intros m0 I D F.
    - simpl. split; auto. intros i b k [].
    - apply NoDup_cons_iff in D as [D1 D2]. cbn [fold_left].
      assert (Ij : In j is) by (apply I; now left).
      rewrite Forall_forall in IH.
      assert (OKj : nestOk bsucc bpred j).
      { intros k Hk. apply OK. eapply nested_trans; [|exact Hk].
        eapply nested_inner; [apply nested_self|exact Ij]. }
      destruct (IH j Ij OKj m0) as [A B].
      { intros b Hb. apply (F j); auto. now left. }
      assert (AP : forall i b, In i js -> In b (lpBlocks i) ->
                   ~ In b (lpBlocks j)).
      { intros i b Hi Hb Hj. apply D1.
        rewrite (loApart _ _ _ OKl j i b); auto. apply I. now right. }
      destruct (IHj (bbToRegion j m0)) as [C E]; auto.
      { intros x Hx. apply I. now right. }
      { intros i b Hi Hb. rewrite A; [apply (F i); auto; now right|].
        eapply AP; eauto. }
      split.
      + intros b Hb. rewrite C.
        * apply A. apply Hb. now left.
        * intros i Hi. apply Hb. now right.
      + intros i b k [<-|Hi] IM.
        * rewrite C; [now apply B|]. intros i Hi Hb.
          destruct IM as [N1 [N2 _]].
          apply (AP i b Hi Hb). eapply nested_blocks; eauto.
        * eapply E; eauto. }
  destruct (G is m) as [A B].
  { apply incl_refl. }
  { pose proof (loHeads _ _ _ OKl) as ND. simpl in ND.
    eapply NoDup_map_inv; eauto. }
  { intros i b Hi Hb. apply FR. apply (loInside _ _ _ OKl i Hi). exact Hb. }
  fold m1 in A, B. split.
  - intros b Hb. rewrite EQ, ownSteps_get.
    assert (Q : getRegionFor m1 b = getRegionFor m b).
    { apply A. intros i Hi Hbi. apply Hb.
      apply (loInside _ _ _ OKl i Hi). exact Hbi. }
    rewrite Q. destruct (getRegionFor m b); auto.
    destruct (in_dec Nat.eq_dec b bs); auto. now apply Hb in i.
  - intros b k IM. rewrite EQ, ownSteps_get.
    destruct IM as [N1 [N2 N3]].
    destruct (nested_cases _ _ N1) as [->|[i [I1 I2]]].
    + rewrite A by (exact N3). rewrite FR by auto.
      destruct (in_dec Nat.eq_dec b bs) as [_|Q]; [|now apply Q in N2].
      assert (Q : findBlock (mapInner is) b = None) by
        (apply mapInner_none; exact N3).
      now rewrite Q.
    + rewrite (B i b k I1); auto. split; auto.
Qed.

(* The map from blocks to regions is total on the nest and gives the innermost
   loop which contains the block; the innermost loop is unique. *)
Theorem C46_innermost :
  forall bsucc bpred l, nestOk bsucc bpred l ->
  (forall b, In b (lpBlocks l) -> exists k, innermost l b k /\
     getRegionFor (bbToRegion l []) b = Some (lpHeader k) /\
     forall k', innermost l b k' -> k' = k) /\
  (forall b, ~ In b (lpBlocks l) -> getRegionFor (bbToRegion l []) b = None).
Proof.
  intros bsucc bpred l OK.
  destruct (bbToRegion_ok bsucc bpred l OK []) as [A B]; [auto|].
  split.
  2:{ intros b Hb. now rewrite A. }
  assert (EX : forall l, nestOk bsucc bpred l -> forall b,
    In b (lpBlocks l) -> exists k, innermost l b k /\
      forall k', innermost l b k' -> k' = k).
  { clear. intros l. induction l as [h bs is IH] using loop_ind2.
    intros OK b Hb. assert (OKl := OK _ (nested_self _)).
    destruct (findBlock (mapInner is) b) eqn:F.
    - apply mapInner_some in F as [i [I1 [I2 _]]].
      rewrite Forall_forall in IH.
      assert (OKi : nestOk bsucc bpred i).
      { intros k Hk. apply OK. eapply nested_trans; [|exact Hk].
        eapply nested_inner; [apply nested_self|exact I1]. }
      destruct (IH i I1 OKi b I2) as [k [[K1 K2] KU]].
      exists k. split.
      + split; auto. eapply nested_trans; [|exact K1].
        eapply nested_inner; [apply nested_self|exact I1].
      + intros k' [N1 [N2 N3]]. apply KU. split; auto.
        destruct (nested_cases _ _ N1) as [->|[j [J1 J2]]].
        * exfalso. now apply (N3 i I1).
        * replace i with j; auto.
          apply (loApart _ _ _ OKl j i b); auto.
          eapply (nested_blocks bsucc bpred); eauto.
          intros q Hq. apply OK. eapply nested_trans; [|exact Hq].
          eapply nested_inner; [apply nested_self|exact J1].
    - exists (Loop h bs is). split.
      + split; [constructor|]. split; auto. now apply mapInner_none.
      + intros k' [N1 [N2 N3]].
        destruct (nested_cases _ _ N1) as [->|[j [J1 J2]]]; auto.
        exfalso. apply (proj1 (mapInner_none is b) F j J1).
        eapply (nested_blocks bsucc bpred); eauto.
        intros q Hq. apply OK. eapply nested_trans; [|exact Hq].
        eapply nested_inner; [apply nested_self|exact J1]. }
  intros b Hb. destruct (EX l OK b Hb) as [k [K1 K2]].
  exists k. split; auto.
Qed.
Print Assumptions C46_innermost.

(* ---- temporary edges ---- *)
Lemma eraseFromEnd_filter : forall l n,
  eraseFromEnd l n = filter (fun x => negb (rnode_eqb x n)) l.
Proof.
  induction l as [|x l IH]; simpl; intros n; auto.
  destruct (rnode_eqb x n); simpl; now rewrite IH.
Qed.

Lemma removeAdjacent_spec : forall l n,
  removeAdjacent l n = filter (fun x => negb (rnode_eqb x n)) l.
Proof.
  intros l n. unfold removeAdjacent. rewrite eraseFromEnd_filter.
  assert (G : forall k, rev (filter (fun x => negb (rnode_eqb x n)) k) =
                        filter (fun x => negb (rnode_eqb x n)) (rev k)).
  { induction k as [|x k IH]; simpl; auto.
    rewrite filter_app. simpl. rewrite <- IH.
    destruct (rnode_eqb x n); simpl; auto. now rewrite app_nil_r. }
  rewrite G. now rewrite rev_involutive.
Qed.

(* removeSuccessor and removePredecessor drop all records of a node and keep
   the other records in order. *)
Theorem C46_remove_edges :
  forall g n m x,
  gSucc (removeSuccessor g n m) x =
    (if rnode_eqb x n then filter (fun y => negb (rnode_eqb y m)) (gSucc g x)
     else gSucc g x) /\
  gPred (removePredecessor g n m) x =
    (if rnode_eqb x n then filter (fun y => negb (rnode_eqb y m)) (gPred g x)
     else gPred g x) /\
  gPred (removeSuccessor g n m) = gPred g /\
  gSucc (removePredecessor g n m) = gSucc g.
Proof.
  intros. simpl. rewrite !removeAdjacent_spec. auto.
Qed.
Print Assumptions C46_remove_edges.

Lemma filter_none : forall l n, ~ In n l ->
  filter (fun x => negb (rnode_eqb x n)) l = l.
Proof.
  induction l as [|x l IH]; simpl; intros n H; auto.
  destruct (rnode_eqb x n) eqn:E.
  - apply rnode_eqb_eq in E. tauto.
  - simpl. rewrite IH; tauto.
Qed.

(* The edge which the live memory analysis adds from the latch to the exit is
   removed completely: after expand and collapse a region is as it was built. *)
Theorem C46_temporary_edges :
  forall bsucc bpred shuffle l,
  (forall m, Permutation (shuffle m) m) -> loopOk bsucc bpred l ->
  exists g, buildLevel bsucc bpred shuffle l = Some g /\
    gNodes (collapseLive (expandLive g)) = gNodes g /\
    (forall x, gSucc (collapseLive (expandLive g)) x = gSucc g x) /\
    (forall x, gPred (collapseLive (expandLive g)) x = gPred g x) /\
    ((exists b, In b (lpBlocks l) /\ jumpsBack bsucc l b) ->
     In NExit (gSucc (expandLive g) NLatch)).
Proof.
  intros bsucc bpred shuffle l SH OK.
  destruct (C46_entry_exit bsucc bpred shuffle l SH OK)
    as [g [E [_ [_ [SL _]]]]].
  destruct (C46_edges bsucc bpred shuffle l SH OK) as [g' [E' [_ [P _]]]].
  destruct (C46_nodes bsucc bpred shuffle l SH OK)
    as [g'' [E'' [_ [_ [_ NI]]]]].
  rewrite E in E', E''. inversion E'. inversion E''. subst g' g''.
  exists g. split; auto.
  assert (PL : ~ In NLatch (gPred g NExit)).
  { intro Q. apply P in Q. rewrite SL in Q. destruct Q. }
  unfold expandLive. destruct (hasLatch g) eqn:L.
  - assert (L' : hasLatch (addEdge g NLatch NExit) = true) by exact L.
    unfold collapseLive. rewrite L'. simpl. split; auto. split; [|split].
    + intros x. unfold push. destruct (rnode_eqb x NLatch) eqn:Q; auto.
      apply rnode_eqb_eq in Q. subst. rewrite SL. reflexivity.
    + intros x. unfold push. destruct (rnode_eqb x NExit) eqn:Q; auto.
      apply rnode_eqb_eq in Q. subst. rewrite removeAdjacent_spec.
      rewrite filter_app. simpl. rewrite app_nil_r. now apply filter_none.
    + intros _. unfold push. simpl. apply in_app_iff. right. now left.
  - unfold collapseLive. rewrite L. split; auto. split; auto. split; auto.
    intros H. exfalso.
    assert (Q : In NLatch (gNodes g)).
    { apply NI. right. right. left. auto. }
    apply hasLatch_spec in Q. congruence.
Qed.
Print Assumptions C46_temporary_edges.

(* A function with blocks 0..4: 0 -> 1; loop {1,2,3} with header 1 and inner
   loop {2}; 1 -> 2, 2 -> 2, 2 -> 3, 3 -> 1, 1 -> 4. *)
Definition exSucc (b : block) : list block :=
  match b with
  | 0 => [1] | 1 => [2; 4] | 2 => [2; 3] | 3 => [1] | _ => [] end.
Definition exPred (b : block) : list block :=
  match b with
  | 1 => [0; 3] | 2 => [1; 2] | 3 => [2] | 4 => [1] | _ => [] end.
Definition exInner := Loop 2 [2] [].
Definition exLoop := Loop 1 [1; 2; 3] [exInner].
Definition exFun := Loop 0 [0; 1; 2; 3; 4] [exLoop].

Example C46_nonvacuous :
  nestOk exSucc exPred exFun /\
  (forall b, In b (lpBlocks exLoop) -> reachedInside exSucc exLoop b) /\
  option_map gNodes (buildLevel exSucc exPred (fun m => m) exLoop) =
    Some [NEntry; NLoop 2; NBlock 1; NBlock 3; NLatch; NExit] /\
  getRegionFor (bbToRegion exFun []) 2 = Some 2 /\
  getRegionFor (bbToRegion exFun []) 3 = Some 1.
Proof.
  assert (ED : forall a b, times (exSucc a) b = times (exPred b) a).
  { intros a b. unfold times.
    destruct a as [|[|[|[|[|a]]]]]; destruct b as [|[|[|[|[|b]]]]];
      reflexivity. }
  split; [|split; [|split; [|split]]]; try reflexivity.
  - intros k Hk.
    assert (K : k = exFun \/ k = exLoop \/ k = exInner).
    { clear ED. induction Hk as [|k i H IH Hi]; auto.
      destruct IH as [->|[->| ->]]; simpl in Hi; intuition. }
    destruct K as [->|[->| ->]]; constructor; try exact ED; simpl; auto.
    + intros b p Hb NH Hp.
      destruct Hb as [<-|[<-|[<-|[<-|[<-|[]]]]]]; simpl in Hp; tauto.
    + intros i [<-|[]]. simpl. intuition discriminate.
    + intros i [<-|[]]. intros x. simpl. tauto.
    + constructor; auto; constructor.
    + intros i j b [<-|[]] [<-|[]]; auto.
    + intros b p Hb NH Hp.
      destruct Hb as [<-|[<-|[<-|[]]]]; simpl in Hp; try tauto.
    + intros i [<-|[]]. simpl. intuition discriminate.
    + intros i [<-|[]]. intros x. simpl. tauto.
    + constructor; auto; constructor.
    + intros i j b [<-|[]] [<-|[]]; auto.
    + intros b p Hb NH Hp. destruct Hb as [<-|[]]; tauto.
    + intros i [].
    + constructor.
    + intros i j b [].
  - assert (R2 : reachedInside exSucc exLoop 2).
    { eapply ri_step with 1; simpl; auto. apply ri_header. }
    intros b [<-|[<-|[<-|[]]]]; auto.
    + apply ri_header.
    + eapply ri_step; [exact R2| |]; simpl; auto.
Qed.
