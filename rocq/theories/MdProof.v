(** Proofs for the search for variables which hold a value. *)
From Coq Require Import List Bool Arith ZArith Lia.
From Verif Require Import MdModel MdSpec.
Import ListNotations.

Lemma value_eqb_eq a b : value_eqb a b = true <-> a = b.
Proof.
  destruct a as [n|z], b as [m|w]; cbn [value_eqb].
  - rewrite Nat.eqb_eq. split; congruence.
  - split; discriminate.
  - split; discriminate.
  - rewrite Z.eqb_eq. split; congruence.
Qed.
Lemma frag_eqb_eq a b : frag_eqb a b = true <-> a = b.
Proof.
  destruct a as [[o s]|], b as [[o' s']|]; cbn [frag_eqb]; try (split; congruence).
  rewrite andb_true_iff, !Nat.eqb_eq. split; [intros [-> ->]; reflexivity | intros H; injection H as -> ->; auto].
Qed.
Lemma loc_eqb_eq a b : loc_eqb a b = true <-> a = b.
Proof.
  destruct a as [v r], b as [w t]. unfold loc_eqb. cbn [lVar lFrag].
  rewrite andb_true_iff, Nat.eqb_eq, frag_eqb_eq. split; [intros [-> ->]; reflexivity | intros H; injection H as -> ->; auto].
Qed.
Lemma existsb_eqb x l : existsb (Nat.eqb x) l = true <-> In x l.
Proof.
  rewrite existsb_exists. split.
  - intros (y & H & E). apply Nat.eqb_eq in E. now subst.
  - intros H. exists x. now rewrite Nat.eqb_refl.
Qed.
Lemma existsb_eqb_false x l : existsb (Nat.eqb x) l = false <-> ~ In x l.
Proof. rewrite <- existsb_eqb. destruct (existsb _ l); split; congruence. Qed.
Lemma inFragb_ok r k : inFragb r k = true <-> inFrag r k.
Proof. destruct r as [[o n]|]; cbn [inFragb inFrag]; [|tauto]. rewrite andb_true_iff, Nat.leb_le, Nat.ltb_lt. tauto. Qed.
(** ** Fragments *)
Lemma mayAlias_ok a b : overlap a b -> mayAliasFragments a b = true.
Proof.
  intros (k & A & B). destruct a as [[o s]|], b as [[o' s']|]; try reflexivity.
  cbn [inFrag] in A, B. cbn [mayAliasFragments].
  replace (s =? 0) with false by (symmetry; apply Nat.eqb_neq; lia).
  replace (s' =? 0) with false by (symmetry; apply Nat.eqb_neq; lia).
  cbn [orb]. rewrite !orb_true_iff, !andb_true_iff, !Nat.eqb_eq, !Nat.ltb_lt. lia.
Qed.
Lemma mayAlias_exact a b : mayAliasFragments a b = true -> (b = None -> forall n, a <> Some (n, 0)) -> (a = None -> forall n, b <> Some (n, 0)) -> overlap a b.
Proof.
  destruct a as [[o s]|], b as [[o' s']|]; cbn [mayAliasFragments]; intros H A B.
  - destruct s as [|s]; [discriminate|]. destruct s' as [|s']; [discriminate|].
    cbn [orb Nat.eqb] in H. rewrite !orb_true_iff, !andb_true_iff, !Nat.eqb_eq, !Nat.ltb_lt in H.
    exists (Nat.max o o'). cbn [inFrag]. lia.
  - destruct s as [|s]; [now destruct (A eq_refl o)|]. exists o. cbn [inFrag]. lia.
  - destruct s' as [|s']; [now destruct (B eq_refl o')|]. exists o'. cbn [inFrag]. lia.
  - exists 0. cbn [inFrag]. auto.
Qed.

(** ** Intrinsics of a block *)
Lemma dbgsFrom_in l : forall b i p d, In (p, d) (dbgsFrom b i l) <->
  exists j, p = (b, i + j) /\ nth_error l j = Some (IDbg d).
Proof.
  induction l as [|x l IH]; intros b i p d; cbn [dbgsFrom].
  { split; [intros [] | intros (j & _ & H); now destruct j]. }
  assert (E : In (p, d) (dbgsFrom b (S i) l) <-> exists j, p = (b, i + S j) /\ nth_error l j = Some (IDbg d)).
  { rewrite IH. split; intros (j & A & B); exists j; (split; [|exact B]); rewrite A; f_equal; lia. }
  assert (G : forall Q, (exists j, p = (b, i + j) /\ nth_error (x :: l) j = Some (IDbg d)) <-> ((p = (b, i) /\ x = IDbg d) \/ exists j, p = (b, i + S j) /\ nth_error l j = Some (IDbg d)) \/ (Q /\ False)).
  { intros Q. split.
    - intros ([|j] & A & B).
      + left; left. cbn [nth_error] in B. injection B as ->. rewrite Nat.add_0_r in A. auto.
      + left; right. exists j. auto.
    - intros [[[A B]|(j & A & B)]|[_ []]].
      + exists 0. rewrite Nat.add_0_r. cbn [nth_error]. subst. auto.
      + exists (S j). auto. }
  rewrite (G True). clear G.
  destruct x as [d0| | |].
  - cbn [In]. rewrite E. split.
    + intros [A|A]; [|tauto]. injection A as <- <-. tauto.
    + intros [[[A B]|A]|[_ []]]; [|tauto]. injection B as ->. left. now subst.
  - rewrite E. split; [tauto|]. intros [[[A B]|A]|[_ []]]; [discriminate|tauto].
  - rewrite E. split; [tauto|]. intros [[[A B]|A]|[_ []]]; [discriminate|tauto].
  - rewrite E. split; [tauto|]. intros [[[A B]|A]|[_ []]]; [discriminate|tauto].
Qed.
Lemma instAt_block f b i x : instAt f (b, i) = Some x -> b < length f.
Proof.
  unfold instAt, blk. cbn [fst snd]. intros H. destruct (Nat.lt_ge_cases b (length f)) as [L|L]; [exact L|].
  rewrite nth_overflow in H by exact L. now destruct i.
Qed.
Lemma allDbgs_in f p d : In (p, d) (allDbgs f) <-> instAt f p = Some (IDbg d).
Proof.
  unfold allDbgs. rewrite in_flat_map. split.
  - intros (b & A & B). apply dbgsFrom_in in B. destruct B as (j & -> & B). exact B.
  - intros H. destruct p as [b i]. exists b. split.
    + apply in_seq. split; [lia|]. cbn. apply (instAt_block _ _ _ _ H).
    + apply dbgsFrom_in. exists i. auto.
Qed.

Lemma insertDom_spec l b m k bs : In (k, bs) (insertDom l b m) ->
  forall c, In c bs -> (k = l /\ c = b) \/ exists bs', In (k, bs') m /\ In c bs'.
Proof.
  induction m as [|[k0 bs0] m IH]; cbn [insertDom].
  - intros [A|[]] c H. injection A as <- <-. destruct H as [<-|[]]. auto.
  - destruct (loc_eqb k0 l) eqn:E.
    + apply loc_eqb_eq in E. subst k0. intros [A|A] c H.
      * injection A as <- <-. destruct (existsb (Nat.eqb b) bs0).
        -- right. exists bs0. cbn. auto.
        -- apply in_app_iff in H. destruct H as [H|[<-|[]]]; [|auto]. right. exists bs0. cbn. auto.
      * right. exists bs. cbn. auto.
    + intros [A|A] c H.
      * injection A as <- <-. right. exists bs0. cbn. auto.
      * destruct (IH A c H) as [G|(bs' & G & G')]; [auto|]. right. exists bs'. cbn. auto.
Qed.
Lemma insertDom_nonempty l b m : (forall k bs, In (k, bs) m -> bs <> []) -> forall k bs, In (k, bs) (insertDom l b m) -> bs <> [].
Proof.
  induction m as [|[k0 bs0] m IH]; cbn [insertDom]; intros H k bs.
  - intros [A|[]]. injection A as <- <-. discriminate.
  - destruct (loc_eqb k0 l) eqn:E.
    + intros [A|A].
      * injection A as <- <-. destruct (existsb (Nat.eqb b) bs0); [apply (H k0 bs0); cbn; auto|]. now destruct bs0.
      * apply (H k bs). cbn. auto.
    + intros [A|A].
      * injection A as <- <-. apply (H k0 bs0). cbn. auto.
      * apply (IH (fun k' bs' G => H k' bs' (or_intror G)) k bs A).
Qed.
Lemma insertDom_keys l b m : NoDup (map fst m) -> NoDup (map fst (insertDom l b m)).
Proof.
  assert (K : forall m x, In x (map fst (insertDom l b m)) -> x = l \/ In x (map fst m)).
  { induction m0 as [|[k0 bs0] m0 IH]; cbn [insertDom].
    - intros x [<-|[]]. auto.
    - intros x. destruct (loc_eqb k0 l); cbn [map fst In]; intros [A|A]; auto. destruct (IH x A); auto. }
  induction m as [|[k0 bs0] m IH]; cbn [insertDom]; intros H.
  - cbn. constructor; [easy|constructor].
  - inversion H as [|? ? A B]; subst. destruct (loc_eqb k0 l) eqn:E; cbn [map fst].
    + constructor; assumption.
    + constructor; [|auto]. intros G. destruct (K m k0 G) as [->|G']; [|contradiction].
      assert (loc_eqb l l = true) by now apply loc_eqb_eq. congruence.
Qed.
Lemma insertDom_has l b m : exists bs, In (l, bs) (insertDom l b m) /\ In b bs.
Proof.
  induction m as [|[k bs] m IH]; cbn [insertDom].
  - exists [b]. cbn. auto.
  - destruct (loc_eqb k l) eqn:E.
    + apply loc_eqb_eq in E. subst. destruct (existsb (Nat.eqb b) bs) eqn:F.
      * exists bs. apply existsb_eqb in F. cbn. auto.
      * exists (bs ++ [b]). rewrite in_app_iff. cbn. auto.
    + destruct IH as (bs' & A & B). exists bs'. cbn. auto.
Qed.
Lemma insertDom_mono l b m k bs c : In (k, bs) m -> In c bs -> exists bs', In (k, bs') (insertDom l b m) /\ In c bs'.
Proof.
  induction m as [|[k0 bs0] m IH]; cbn [insertDom]; [easy|]. intros [A|A] H.
  - injection A as -> ->. destruct (loc_eqb k l).
    + destruct (existsb (Nat.eqb b) bs).
      * exists bs. cbn. auto.
      * exists (bs ++ [b]). rewrite in_app_iff. cbn. auto.
    + exists bs. cbn. auto.
  - destruct (loc_eqb k0 l).
    + exists bs. cbn. auto.
    + destruct (IH A H) as (bs' & G & G'). exists bs'. cbn. auto.
Qed.

Section WithFunc.
Context (f : func) (domB : nat -> nat -> bool) (V : value) (users : list pos).

(** What is stored in the map of dominators *)
Definition domDbg (l : loc) (p : pos) : Prop :=
  exists d, instAt f p = Some (IDbg d) /\ dVal d = V /\ hasDeref d = false /\ getLoc d = l /\
            forall u, In u users -> domI domB p u = true.
Lemma findDom_spec :
  (forall l bs, In (l, bs) (findDomDbgValues f domB V users) ->
     bs <> [] /\ forall b, In b bs -> exists i, domDbg l (b, i)) /\
  NoDup (map fst (findDomDbgValues f domB V users)) /\
  (forall l b i, domDbg l (b, i) -> exists bs, In (l, bs) (findDomDbgValues f domB V users) /\ In b bs).
Proof.
  unfold findDomDbgValues.
  set (step := fun m (e : pos * dbg) => _).
  assert (G : forall es m done,
    (forall p d, In (p, d) (done ++ es) -> instAt f p = Some (IDbg d)) ->
    (forall l bs, In (l, bs) m -> bs <> [] /\ forall b, In b bs -> exists i, domDbg l (b, i)) ->
    NoDup (map fst m) ->
    (forall l b i d, In ((b, i), d) done -> domDbg l (b, i) -> exists bs, In (l, bs) m /\ In b bs) ->
    let m' := fold_left step es m in
    (forall l bs, In (l, bs) m' -> bs <> [] /\ forall b, In b bs -> exists i, domDbg l (b, i)) /\
    NoDup (map fst m') /\
    (forall l b i d, In ((b, i), d) (done ++ es) -> domDbg l (b, i) -> exists bs, In (l, bs) m' /\ In b bs)).
  { induction es as [|[p d] es IH]; intros m done A B C D; cbn [fold_left].
    { cbv zeta. split; [exact B|]. split; [exact C|]. intros l b i d H. rewrite app_nil_r in H. now apply (D l b i d). }
    assert (P : instAt f p = Some (IDbg d)) by (apply A; apply in_app_iff; cbn; auto).
    assert (A' : forall p0 d0, In (p0, d0) ((done ++ [(p, d)]) ++ es) -> instAt f p0 = Some (IDbg d0)).
    { intros p0 d0 H. apply A. rewrite <- app_assoc in H. exact H. }
    replace (done ++ (p, d) :: es) with ((done ++ [(p, d)]) ++ es) by (rewrite <- app_assoc; reflexivity).
    apply (IH (step m (p, d)) (done ++ [(p, d)]) A').
    - subst step. cbn beta iota.
      destruct (value_eqb (dVal d) V && negb (hasDeref d) && forallb (fun u => domI domB p u) users) eqn:E; [|exact B].
      apply andb_true_iff in E. destruct E as [E1 E3]. apply andb_true_iff in E1. destruct E1 as [E1 E2].
      apply value_eqb_eq in E1. apply negb_true_iff in E2. rewrite forallb_forall in E3.
      intros l bs H. split.
      { apply (insertDom_nonempty (getLoc d) (fst p) m (fun k bs' H' => proj1 (B k bs' H')) l bs H). }
      intros b Hb. destruct (insertDom_spec _ _ _ _ _ H b Hb) as [[-> ->]|(bs' & H1 & H2)].
      + exists (snd p). destruct p as [b0 i0]. exists d. auto.
      + apply (proj2 (B l bs' H1) b H2).
    - subst step. cbn beta iota. destruct (_ && _ && _); [apply insertDom_keys|]; exact C.
    - intros l b i d0 H HD. apply in_app_iff in H.
      assert (M : (exists bs, In (l, bs) m /\ In b bs) -> exists bs, In (l, bs) (step m (p, d)) /\ In b bs).
      { intros (bs & M1 & M2). subst step. cbn beta iota. destruct (_ && _ && _); [|eauto]. apply (insertDom_mono _ _ _ _ _ _ M1 M2). }
      destruct H as [H|[H|[]]].
      + apply M. apply (D l b i d0 H HD).
      + injection H as -> <-. subst step. cbn beta iota.
        destruct HD as (d1 & K1 & K2 & K3 & K4 & K5). rewrite P in K1. injection K1 as <-.
        replace (value_eqb (dVal d) V) with true by (symmetry; now apply value_eqb_eq). rewrite K3.
        replace (forallb (fun u => domI domB (b, i) u) users) with true
          by (symmetry; apply forallb_forall; exact K5).
        cbn [andb negb]. rewrite K4. apply insertDom_has. }
  destruct (G (allDbgs f) [] []) as (G1 & G2 & G3).
  - intros p d H. now apply allDbgs_in.
  - intros l bs [].
  - constructor.
  - intros l b i d [].
  - split; [exact G1|]. split; [exact G2|]. intros l b i HD. destruct HD as (d & K & HD).
    apply (G3 l b i d); [apply allDbgs_in; exact K|]. exists d. auto.
Qed.
End WithFunc.

(** ** Paths *)
Lemma exec_path mem f h p s : exec mem f h p s -> path f h p.
Proof. induction 1; [constructor|eapply pa_inst; eauto|eapply pa_jump; eauto]. Qed.
Lemma path_suffix f h p : path f h p -> forall a q c, h = a ++ q :: c -> path f c q.
Proof.
  induction 1 as [|h b i is P IH A|h b i c0 P IH A B C]; intros a q c E.
  - now destruct a.
  - destruct a as [|x a]; cbn in E; injection E as E1 E2; [subst; exact P|]. apply (IH a q c E2).
  - destruct a as [|x a]; cbn in E; injection E as E1 E2; [subst; exact P|]. apply (IH a q c E2).
Qed.
Lemma path_replace f h p : path f h p -> forall a q c c', h = a ++ q :: c -> path f c' q -> path f (a ++ q :: c') p.
Proof.
  induction 1 as [|h b i is P IH A|h b i c0 P IH A B C]; intros a q c c' E Q.
  - now destruct a.
  - destruct a as [|x a]; cbn in E; injection E as E1 E2; subst.
    + cbn. eapply pa_inst; eauto.
    + cbn. eapply pa_inst; eauto.
  - destruct a as [|x a]; cbn in E; injection E as E1 E2; subst.
    + cbn. eapply pa_jump; eauto.
    + cbn. eapply pa_jump; eauto.
Qed.
Lemma path_block f h b i : wf f -> path f h (b, i) -> b < length f.
Proof.
  intros W P. remember (b, i) as p eqn:E. revert b i E.
  induction P as [|h b0 i0 is P IH A|h b0 i0 c P IH A B C]; intros b i E; injection E as <- <-; [exact W|eauto|assumption].
Qed.
(** Positions [0 .. i-1] of a block, the last one is the first *)
Fixpoint part (b i : nat) : list pos := match i with 0 => [] | S i => (b, i) :: part b i end.
Lemma part_in b i p : In p (part b i) <-> fst p = b /\ snd p < i.
Proof.
  induction i as [|i IH]; cbn [part In].
  - split; [easy|lia].
  - rewrite IH. destruct p as [c j]. cbn [fst snd]. split.
    + intros [A|[A B]]; [injection A as -> ->; lia|lia].
    + intros [-> B]. destruct (Nat.eq_dec j i) as [->|N]; [auto|right; split; [auto|lia]].
Qed.
(** How the current block has been entered *)
Lemma path_peel f h b i : path f h (b, i) ->
  exists h', h = part b i ++ h' /\ path f h' (b, 0) /\ i <= length (bIns (blk f b)) /\
    (h' = [] \/ exists c h'', h' = (c, length (bIns (blk f c))) :: h'' /\
                 path f h'' (c, length (bIns (blk f c))) /\ In b (bSucc (blk f c))).
Proof.
  intros P. remember (b, i) as p eqn:E. revert b i E.
  induction P as [|h b0 i0 is P IH A|h b0 i0 c P IH A B C]; intros b i E; injection E as <- <-.
  - exists []. cbn. split; [reflexivity|]. split; [constructor|]. split; [lia|auto].
  - destruct (IH b0 i0 eq_refl) as (h' & -> & K & L & M). exists h'. cbn [part app].
    split; [reflexivity|]. split; [exact K|]. split; [|exact M].
    unfold instAt in A. cbn [fst snd] in A. assert (nth_error (bIns (blk f b0)) i0 <> None) as N by congruence.
    apply nth_error_Some in N. lia.
  - exists ((b0, i0) :: h). cbn [part app]. split; [reflexivity|]. split; [econstructor; eauto|].
    split; [lia|]. right. exists b0, h. subst i0. auto.
Qed.
Lemma path_preds f h b c : wf f -> path f h (c, length (bIns (blk f c))) -> In b (bSucc (blk f c)) -> In c (preds f b).
Proof.
  intros W P H. unfold preds. apply filter_In. split.
  - apply in_seq. pose proof (path_block _ _ _ _ W P). lia.
  - apply existsb_eqb. exact H.
Qed.
(** All positions of a block which has been left *)
Lemma left_block f h b i : path f h (b, i) -> forall a j, In (a, j) h -> a <> b ->
  forall k, k <= length (bIns (blk f a)) -> In (a, k) h.
Proof.
  intros P. remember (b, i) as p eqn:E. revert b i E.
  induction P as [|h b0 i0 is P IH A|h b0 i0 c P IH A B C]; intros b i E a j H N k L; injection E as <- <-.
  - destruct H.
  - destruct H as [H|H]; [injection H as -> ->; congruence|]. right. apply (IH b0 i0 eq_refl a j H N k L).
  - destruct (Nat.eq_dec a b0) as [->|N0].
    + destruct (Nat.eq_dec k i0) as [->|NK]; [left; reflexivity|]. right.
      destruct (path_peel f h b0 i0 P) as (h' & -> & _). apply in_app_iff. left. apply part_in. cbn. split; [reflexivity|lia].
    + destruct H as [H|H]; [injection H as -> ->; congruence|]. right. apply (IH b0 i0 eq_refl a j H N0 k L).
Qed.
Lemma domI_sound f domB p u h x : wf f -> domOk f domB -> domI domB p u = true -> instAt f p = Some x -> path f h u -> In p h.
Proof.
  intros W D E A P. destruct p as [a j], u as [b i]. unfold domI in E. cbn [fst snd] in E.
  destruct (a =? b) eqn:F.
  - apply Nat.eqb_eq in F. subst b. apply Nat.ltb_lt in E.
    destruct (path_peel _ _ _ _ P) as (h' & -> & _). apply in_app_iff. left. apply part_in. cbn. auto.
  - apply Nat.eqb_neq in F. destruct (D a b h i E F P) as (k & K).
    apply (left_block _ _ _ _ P a k K F). unfold instAt in A. cbn [fst snd] in A.
    assert (nth_error (bIns (blk f a)) j <> None) as N by congruence. apply nth_error_Some in N. lia.
Qed.

(** ** The walk *)
Section Walk.
Context (f : func) (V : value) (l : loc) (dom : list nat).
Lemma scanPreds_spec ps : forall wl vis wl' vis', scanPreds f V l dom ps wl vis = Some (wl', vis') ->
  exists new, wl' = new ++ wl /\ vis' = new ++ vis /\ NoDup new /\
    (forall p, In p new -> In p ps /\ ~ In p vis) /\
    (forall p, In p vis' -> ~ In p vis -> isAlias f V l p = false) /\
    (forall p, In p ps -> In p vis' \/ (isAlias f V l p = false /\ In p dom)).
Proof.
  induction ps as [|p ps IH]; intros wl vis wl' vis'; cbn [scanPreds].
  - intros H. injection H as <- <-. exists []. cbn. repeat split; try easy. constructor.
  - destruct (existsb (Nat.eqb p) vis) eqn:E1.
    { intros H. destruct (IH _ _ _ _ H) as (new & A & B & N & C & D & F). exists new. split; [exact A|]. split; [exact B|]. split; [exact N|].
      split; [|split; [exact D|]].
      - intros q Q. destruct (C q Q) as [C1 C2]. split; [right; exact C1|exact C2].
      - intros q [<-|Q]; [left; rewrite B; apply in_app_iff; right; now apply existsb_eqb|auto]. }
    destruct (isAlias f V l p) eqn:E2; [discriminate|].
    destruct (existsb (Nat.eqb p) dom) eqn:E3.
    { intros H. destruct (IH _ _ _ _ H) as (new & A & B & N & C & D & F). exists new. split; [exact A|]. split; [exact B|]. split; [exact N|].
      split; [|split; [exact D|]].
      - intros q Q. destruct (C q Q) as [C1 C2]. split; [right; exact C1|exact C2].
      - intros q [<-|Q]; [right; split; [exact E2|now apply existsb_eqb]|auto]. }
    intros H. destruct (IH _ _ _ _ H) as (new & A & B & N & C & D & F). exists (new ++ [p]).
    rewrite <- !app_assoc. cbn [app]. split; [exact A|]. split; [exact B|].
    split; [|split; [|split]].
    + apply (NoDup_Add (a := p) (l := new)); [|split; [exact N|]].
      * pose proof (Add_app p new []) as AA. rewrite app_nil_r in AA. exact AA.
      * intros Q. destruct (C p Q) as [_ C2]. apply C2. left. reflexivity.
    + intros q Q. apply in_app_iff in Q. destruct Q as [Q|[<-|[]]].
      * destruct (C q Q) as [C1 C2]. split; [right; exact C1|]. intros G. apply C2. right. exact G.
      * split; [left; reflexivity|]. now apply existsb_eqb_false.
    + intros q Q NQ. destruct (Nat.eq_dec q p) as [->|NE]; [exact E2|]. apply D; [exact Q|]. intros [G|G]; congruence.
    + intros q [<-|Q]; [|auto]. left. rewrite B. apply in_app_iff. right. left. reflexivity.
Qed.
(** [done] are processed blocks *)
Lemma walk_spec fuel : forall wl vis done,
  (forall p, In p vis -> isAlias f V l p = false /\ (In p wl \/ In p done)) ->
  (forall b p, In b done -> In p (preds f b) -> In p vis \/ (isAlias f V l p = false /\ In p dom)) ->
  walk f fuel V l dom wl vis = Some true ->
  exists Ws : list nat, incl wl Ws /\ incl done Ws /\
    forall b p, In b Ws -> In p (preds f b) -> isAlias f V l p = false /\ (In p Ws \/ In p dom).
Proof.
  induction fuel as [|fuel IH]; intros wl vis done A B; (destruct wl as [|b wl]; cbn [walk]).
  - intros _. exists done. split; [easy|]. split; [apply incl_refl|]. intros b p Hb Hp.
    destruct (B b p Hb Hp) as [G|[G1 G2]]; [|auto]. destruct (A p G) as [A1 [[]|A2]]. auto.
  - discriminate.
  - intros _. exists done. split; [easy|]. split; [apply incl_refl|]. intros b p Hb Hp.
    destruct (B b p Hb Hp) as [G|[G1 G2]]; [|auto]. destruct (A p G) as [A1 [[]|A2]]. auto.
  - destruct (scanPreds f V l dom (preds f b) wl vis) as [[wl' vis']|] eqn:E; [|discriminate].
    intros H. destruct (scanPreds_spec _ _ _ _ _ E) as (new & E1 & E2 & EN & E3 & E4 & E5).
    destruct (IH wl' vis' (b :: done)) as (Ws & K1 & K2 & K3).
    + intros p Hp. destruct (in_dec Nat.eq_dec p vis) as [I1|I1].
      * destruct (A p I1) as [A1 A2]. split; [exact A1|]. subst wl'. rewrite in_app_iff. cbn [In] in A2 |- *. tauto.
      * split; [now apply E4|]. left. subst wl' vis'. apply in_app_iff. apply in_app_iff in Hp. tauto.
    + intros c p [<-|Hc] Hp; [now apply E5|]. destruct (B c p Hc Hp) as [G|G]; [|auto].
      left. subst vis'. apply in_app_iff. auto.
    + exact H.
    + exists Ws. split; [|split; [|exact K3]].
      * intros p [<-|Hp]; [apply K2; left; reflexivity|]. apply K1. subst wl'. apply in_app_iff. auto.
      * intros p Hp. apply K2. right. exact Hp.
Qed.
(** The fuel is sufficient *)
Lemma walk_fuel fuel : forall wl vis,
  NoDup vis -> (forall p, In p vis -> p < length f) -> length wl + length f <= fuel + length vis ->
  walk f fuel V l dom wl vis <> None.
Proof.
  induction fuel as [|fuel IH]; intros wl vis N A L; (destruct wl as [|b wl]; cbn [walk]); try discriminate.
  - exfalso. cbn [length] in L.
    assert (length vis <= length (seq 0 (length f))).
    { apply NoDup_incl_length; [exact N|]. intros p Hp. apply in_seq. pose proof (A p Hp). lia. }
    rewrite seq_length in H. lia.
  - destruct (scanPreds f V l dom (preds f b) wl vis) as [[wl' vis']|] eqn:E; [|discriminate].
    destruct (scanPreds_spec _ _ _ _ _ E) as (new & -> & -> & EN & E3 & _ & _).
    apply IH.
    + clear - N EN E3. induction new as [|x new IHn]; [exact N|]. cbn. inversion EN; subst. constructor.
      * intros G. apply in_app_iff in G. destruct G as [G|G]; [contradiction|]. apply (proj2 (E3 x (or_introl eq_refl))). exact G.
      * apply IHn; [assumption|]. intros p Hp. apply E3. right. exact Hp.
    + intros p Hp. apply in_app_iff in Hp. destruct Hp as [Hp|Hp]; [|auto].
      destruct (E3 p Hp) as [G _]. unfold preds in G. apply filter_In in G. destruct G as [G _]. apply in_seq in G. lia.
    + rewrite !app_length. cbn [length] in L. lia.
Qed.
End Walk.

(** ** Decomposition of a path: the last intrinsic for the location *)
Section Main.
Context (f : func) (V : value) (l : loc).
Definition aliasing (p : pos) : Prop :=
  exists d, instAt f p = Some (IDbg d) /\ dVar d = lVar l /\ overlap (dFrag d) (lFrag l).
Definition exact_ (p : pos) : Prop := exists d, instAt f p = Some (IDbg d) /\ dVal d = V /\ getLoc d = l.
Definition split_ (h : list pos) : Prop :=
  exists a q c, h = a ++ q :: c /\ exact_ q /\ forall p, In p a -> ~ aliasing p.
Hypothesis NoDeref : forall d, dbgIn f d -> hasDeref d = false.
Hypothesis NonEmpty : exists k, inFrag (lFrag l) k.

Lemma exact_aliasing p : exact_ p -> aliasing p.
Proof.
  intros (d & A & B & C). exists d. split; [exact A|]. subst l. cbn [getLoc lVar lFrag] in *. split; [reflexivity|].
  destruct NonEmpty as (k & K). exists k. auto.
Qed.
Lemma overlap_dec a b : {overlap a b} + {~ overlap a b}.
Proof.
  destruct a as [[o s]|], b as [[o' s']|].
  - destruct (le_lt_dec (Nat.min (o + s) (o' + s')) (Nat.max o o')) as [L|L].
    + right. intros (k & A & B). cbn [inFrag] in A, B. lia.
    + left. exists (Nat.max o o'). cbn [inFrag]. lia.
  - destruct s as [|s]; [right; intros (k & A & _); cbn in A; lia|left; exists o; cbn; lia].
  - destruct s' as [|s']; [right; intros (k & _ & A); cbn in A; lia|left; exists o'; cbn; lia].
  - left. exists 0. cbn. auto.
Qed.
Lemma aliasing_dec p : {aliasing p} + {~ aliasing p}.
Proof.
  unfold aliasing. destruct (instAt f p) as [[d|n u|n i|u]|] eqn:E;
    try (right; intros (d' & A & _); congruence).
  destruct (Nat.eq_dec (dVar d) (lVar l)) as [A|A].
  - destruct (overlap_dec (dFrag d) (lFrag l)) as [B|B].
    + left. exists d. auto.
    + right. intros (d' & A' & _ & B'). injection A' as <-. contradiction.
  - right. intros (d' & A' & B' & _). injection A' as <-. contradiction.
Qed.
(** In a block which is not an alias the last aliasing intrinsic associates the location and the value *)
Lemma block_split b : isAlias f V l b = false ->
  split_ (part b (length (bIns (blk f b)))) \/ forall p, In p (part b (length (bIns (blk f b)))) -> ~ aliasing p.
Proof.
  intros H. set (n := length (bIns (blk f b))).
  assert (G : forall m, m <= n -> (forall i, m <= i -> i < n -> ~ aliasing (b, i)) ->
     split_ (part b n) \/ forall p, In p (part b n) -> ~ aliasing p).
  { induction m as [|m IH]; intros L A.
    - right. intros [c j] P. apply part_in in P. cbn [fst snd] in P. destruct P as [-> P]. apply A; lia.
    - destruct (aliasing_dec (b, m)) as [D|D].
      + left. destruct D as (d & D1 & D2 & D3).
        (* the intrinsic is followed by the exact one *)
        assert (R : restored V l (skipn m (bIns (blk f b))) = true).
        { destruct (restored V l (skipn m (bIns (blk f b)))) eqn:R; [reflexivity|]. exfalso.
          assert (isAlias f V l b = true); [|congruence]. unfold isAlias. apply existsb_exists. exists ((b, m), d). split.
          - apply dbgsFrom_in. exists m. auto.
          - cbn beta iota. rewrite D2, Nat.eqb_refl. cbn [snd].
            rewrite R. rewrite (NoDeref d) by (exists (b, m); exact D1). cbn [negb].
            rewrite (mayAlias_ok _ _ D3). reflexivity. }
        unfold restored in R. apply existsb_exists in R. destruct R as (i & R1 & R2).
        apply In_nth_error in R1. destruct R1 as (k & R1). 
        assert (E : nth_error (bIns (blk f b)) (m + k) = Some i).
        { rewrite <- R1. clear. generalize (bIns (blk f b)). induction m as [|m IHm]; intros t; cbn [skipn]; [reflexivity|]. destruct t; [now destruct k|apply IHm]. }
        destruct i as [d'| | |]; try discriminate. apply andb_true_iff in R2. destruct R2 as [R2 R3].
        apply value_eqb_eq in R2. apply loc_eqb_eq in R3.
        assert (X : exact_ (b, m + k)) by (exists d'; auto).
        assert (m + k < n) as LT. { apply nth_error_Some. rewrite E. discriminate. }
        destruct k as [|k]; [|exfalso; apply (A (m + S k)); [lia|lia|apply exact_aliasing; exact X]].
        rewrite Nat.add_0_r in *.
        assert (SP : forall t, m < t -> exists a, part b t = a ++ (b, m) :: part b m /\ forall p, In p a -> fst p = b /\ m < snd p < t).
        { induction t as [|t IHt]; intros LTt; [lia|]. destruct (Nat.eq_dec t m) as [->|NE].
          - exists []. cbn. split; [reflexivity|easy].
          - destruct IHt as (a & P1 & P2); [lia|]. exists ((b, t) :: a). cbn [part app]. rewrite P1. split; [reflexivity|].
            intros p [<-|Hp]; [cbn; lia|]. destruct (P2 p Hp). lia. }
        destruct (SP n LT) as (a & P1 & P2). exists a, (b, m), (part b m). split; [exact P1|]. split; [exact X|].
        intros [c j] Hp. destruct (P2 _ Hp) as [Q1 Q2]. cbn [fst snd] in Q1, Q2. subst c. apply A; lia.
      + apply IH; [lia|]. intros i L1 L2. destruct (Nat.eq_dec i m) as [->|NE]; [exact D|]. apply A; lia. }
  apply (G n); [lia|]. intros i L1 L2. lia.
Qed.
Lemma split_app a h : (forall p, In p a -> ~ aliasing p) -> split_ h -> split_ (a ++ h).
Proof.
  intros A (x & q & c & -> & E & N). exists (a ++ x), q, c. rewrite <- app_assoc. split; [reflexivity|]. split; [exact E|].
  intros p Hp. apply in_app_iff in Hp. destruct Hp; auto.
Qed.
Lemma split_left h t : split_ h -> split_ (h ++ t).
Proof. intros (x & q & c & -> & E & N). exists x, q, (c ++ t). rewrite <- app_assoc. auto. Qed.

(** The walk finds intrinsics on each path *)
Lemma walk_split (Ws dom : list nat) : wf f ->
  (forall b p, In b Ws -> In p (preds f b) -> isAlias f V l p = false /\ (In p Ws \/ In p dom)) ->
  (forall b, In b dom -> exists i, exact_ (b, i)) ->
  forall n h b, length h <= n -> path f h (b, 0) -> In b Ws -> (exists p, In p h /\ exact_ p) -> split_ h.
Proof.
  intros W K D. induction n as [|n IH]; intros h b L P Hb (x & X1 & X2).
  { destruct h; [destruct X1|cbn in L; lia]. }
  destruct (path_peel _ _ _ _ P) as (h' & Eh & _ & _ & [->|(c & h2 & -> & P2 & S2)]).
  { cbn in Eh. subst h. destruct X1. }
  cbn [part app] in Eh. subst h.
  pose proof (path_preds _ _ _ _ W P2 S2) as PP.
  destruct (K b c Hb PP) as [K1 K2].
  assert (NA : forall p, In p [(c, length (bIns (blk f c)))] -> ~ aliasing p).
  { intros p [<-|[]] (d & A & _). unfold instAt in A. cbn [fst snd] in A.
    assert (nth_error (bIns (blk f c)) (length (bIns (blk f c))) <> None) as N by congruence. apply nth_error_Some in N. lia. }
  change ((c, length (bIns (blk f c))) :: h2) with ([(c, length (bIns (blk f c)))] ++ h2).
  apply split_app; [exact NA|].
  destruct (path_peel _ _ _ _ P2) as (h3 & -> & P3 & L3 & _).
  destruct (block_split c K1) as [SB|SB].
  - apply split_left. exact SB.
  - apply split_app; [exact SB|].
    destruct K2 as [K2|K2].
    + apply (IH h3 c); [|exact P3|exact K2|].
      * cbn [length] in L. rewrite app_length in L. lia.
      * exists x. split; [|exact X2]. destruct X1 as [<-|X1].
        { exfalso. apply (NA _ (or_introl eq_refl)). apply exact_aliasing. exact X2. }
        apply in_app_iff in X1. destruct X1 as [X1|X1]; [|exact X1].
        exfalso. apply (SB x X1). apply exact_aliasing. exact X2.
    + exfalso. destruct (D c K2) as (i & Di). apply (SB (c, i)).
      * apply part_in. cbn [fst snd]. split; [reflexivity|]. destruct Di as (d & A & _). unfold instAt in A. cbn [fst snd] in A.
        apply nth_error_Some. congruence.
      * apply exact_aliasing. exact Di.
Qed.
(** Search inside of the block of the user; fragments are equal or disjoint *)
Hypothesis NoOverlap : forall d e, dbgIn f d -> dbgIn f e -> dVar d = dVar e -> overlap (dFrag d) (dFrag e) -> dFrag d = dFrag e.
Lemma scanBack_spec b : forall i, i <= length (bIns (blk f b)) -> dbgIn f (Dbg V (lVar l) OpNone (lFrag l)) \/ (exists e, dbgIn f e /\ getLoc e = l) ->
  match scanBack V l (rev (firstn i (bIns (blk f b)))) with
  | Some true => split_ (part b i)
  | Some false => True
  | None => forall p, In p (part b i) -> ~ aliasing p
  end.
Proof.
  intros i L Ex. induction i as [|i IH]; [intros p []|]. cbn [part].
  destruct (nth_error (bIns (blk f b)) i) as [x|] eqn:E.
  2:{ apply nth_error_None in E. lia. }
  assert (F : firstn (S i) (bIns (blk f b)) = firstn i (bIns (blk f b)) ++ [x]).
  { clear - E. revert i E. induction (bIns (blk f b)) as [|y t IHt]; intros i E; [now destruct i|].
    destruct i as [|i]; cbn [nth_error] in E.
    - injection E as ->. reflexivity.
    - change (firstn (S (S i)) (y :: t)) with (y :: firstn (S i) t). rewrite (IHt i E). reflexivity. }
  rewrite F, rev_app_distr. cbn [rev app].
  assert (IH' := IH (ltac:(lia))). clear IH.
  assert (Step : ~ aliasing (b, i) ->
    match scanBack V l (rev (firstn i (bIns (blk f b)))) with
    | Some true => split_ ((b, i) :: part b i) | Some false => True
    | None => forall p, In p ((b, i) :: part b i) -> ~ aliasing p end).
  { intros NA. destruct (scanBack V l (rev (firstn i (bIns (blk f b))))) as [[|]|].
    - change ((b, i) :: part b i) with ([(b, i)] ++ part b i). apply split_app; [|exact IH']. intros p [<-|[]]. exact NA.
    - exact Logic.I.
    - intros p [<-|Hp]; [exact NA|apply IH'; exact Hp]. }
  destruct x as [d| | |]; cbn [scanBack].
  - assert (ND : hasDeref d = false) by (apply NoDeref; exists (b, i); exact E).
    rewrite ND. cbn [negb andb]. destruct (loc_eqb (getLoc d) l) eqn:EL.
    + destruct (value_eqb (dVal d) V) eqn:EV; [|exact Logic.I].
      exists [], (b, i), (part b i). split; [reflexivity|]. split; [|intros p []].
      exists d. apply value_eqb_eq in EV. apply loc_eqb_eq in EL. auto.
    + apply Step. intros (d' & A & B & C). unfold instAt in A. cbn [fst snd] in A. rewrite E in A. injection A as <-.
      assert (dbgIn f d) as Hd by (exists (b, i); exact E).
      assert (dFrag d = lFrag l) as EF.
      { destruct Ex as [Ex|(e & Ex & <-)].
        - apply (NoOverlap d _ Hd Ex B C).
        - apply (NoOverlap d e Hd Ex B C). }
      assert (loc_eqb (getLoc d) l = true); [|congruence]. apply loc_eqb_eq. unfold getLoc. rewrite B, EF. now destruct l.
  - apply Step. intros (d' & A & _). unfold instAt in A. cbn [fst snd] in A. congruence.
  - apply Step. intros (d' & A & _). unfold instAt in A. cbn [fst snd] in A. congruence.
  - apply Step. intros (d' & A & _). unfold instAt in A. cbn [fst snd] in A. congruence.
Qed.
End Main.

(** No definitions of the value after the last intrinsic *)
Lemma first_occurrence (q : pos) (h : list pos) : In q h -> exists a c, h = a ++ q :: c /\ ~ In q c.
Proof.
  induction h as [|x h IH]; [easy|]. intros H.
  destruct (in_dec (fun x y : pos => ltac:(decide equality; apply Nat.eq_dec)) q h) as [I1|I1].
  - destruct (IH I1) as (a & c & -> & N). exists (x :: a), c. auto.
  - destruct H as [->|H]; [|contradiction]. exists [], h. auto.
Qed.
Lemma no_redefinition f V l h u d0 : path f h u -> defFirst f V ->
  (forall h', path f h' u -> In d0 h') -> exact_ f V l d0 -> (exists k, inFrag (lFrag l) k) ->
  forall a q c, h = a ++ q :: c -> (forall p, In p a -> ~ aliasing f l p) ->
  forall n p i, V = VReg n -> In p a -> instAt f p = Some i -> ~ defines n i.
Proof.
  intros P DF DD X0 NE a q c -> NA n p i EV Hp Ei Di.
  apply in_split in Hp. destruct Hp as (a1 & a2 & ->).
  assert (PP : path f (a2 ++ q :: c) p).
  { apply (path_suffix _ _ _ P a1 p). rewrite <- app_assoc. reflexivity. }
  (* the first time when the definition is executed *)
  assert (F : exists h0, path f h0 p /\ ~ In p h0).
  { destruct (in_dec (fun x y : pos => ltac:(decide equality; apply Nat.eq_dec)) p (a2 ++ q :: c)) as [I1|I1].
    - destruct (first_occurrence p _ I1) as (x & y & E & N). exists y. split; [|exact N]. apply (path_suffix _ _ _ PP x p y E).
    - eauto. }
  destruct F as (h0 & P0 & N0).
  assert (Q : path f (a1 ++ p :: h0) u).
  { apply (path_replace _ _ _ P a1 p (a2 ++ q :: c) h0); [|exact P0]. rewrite <- app_assoc. reflexivity. }
  pose proof (DD _ Q) as I2. apply in_app_iff in I2. destruct I2 as [I2|[I2|I2]].
  - apply (NA d0); [apply in_app_iff; auto|]. apply exact_aliasing with (V := V); assumption.
  - subst d0. destruct X0 as (d & A & _). rewrite Ei in A. injection A as ->. destruct Di.
  - apply in_split in I2. destruct I2 as (x & y & ->). apply N0.
    destruct X0 as (d & A & B & _).
    assert (In p y) as Hy.
    { apply (DF n p i d0 d y EV Ei Di A B). apply (path_suffix _ _ _ P0 x d0 y eq_refl). }
    apply in_app_iff. right. right. exact Hy.
Qed.
(** States *)
Lemma exec_split mem f h p s : exec mem f h p s -> forall a q c, h = a ++ q :: c -> exists sq, exec mem f c q sq.
Proof.
  induction 1 as [s|h b i s is s' P IH A B|h b i c0 s P IH A B C]; intros a q c E.
  - now destruct a.
  - destruct a as [|x a]; cbn in E; injection E as E1 E2; [subst; eauto|]. apply (IH a q c E2).
  - destruct a as [|x a]; cbn in E; injection E as E1 E2; [subst; eauto|]. apply (IH a q c E2).
Qed.
Lemma holds_after mem f V l h u s : exec mem f h u s ->
  forall a q c d, h = a ++ q :: c -> instAt f q = Some (IDbg d) -> dVal d = V -> getLoc d = l -> dOp d = OpNone ->
  (forall p, In p a -> ~ aliasing f l p) ->
  (forall n p i, V = VReg n -> In p a -> instAt f p = Some i -> ~ defines n i) -> holds s l V.
Proof.
  induction 1 as [s|h b i s is s' P IH A B|h b i c0 s P IH A B C]; intros a q c d E Eq Ev El Eo NA ND.
  - now destruct a.
  - destruct a as [|x a]; cbn in E; injection E as E1 E2.
    + subst q. rewrite Eq in A. injection A as <-. inversion B; subst. intros k K.
      cbn [getLoc lVar lFrag] in *. cbn [setVar vars valueOf regs]. rewrite Nat.eqb_refl.
      apply inFragb_ok in K. rewrite K. cbn [andb]. rewrite Eo. cbn [described]. reflexivity.
    + subst x h. assert (Hs : holds s l V).
      { apply (IH a q c d eq_refl Eq Ev El Eo); [intros p Hp; apply NA; right; exact Hp|].
        intros n p i0 EV Hp. apply (ND n p i0 EV). right. exact Hp. }
      assert (NA0 := NA (b, i) (or_introl eq_refl)).
      inversion B; subst.
      * intros k K. specialize (Hs k K). cbn [setVar vars].
        destruct ((lVar (getLoc d) =? dVar d0) && inFragb (dFrag d0) k) eqn:EE.
        { exfalso. apply NA0. exists d0. apply andb_true_iff in EE. destruct EE as [E3 E4]. apply Nat.eqb_eq in E3.
          split; [exact A|]. split; [symmetry; exact E3|]. exists k. apply inFragb_ok in E4. auto. }
        rewrite Hs. reflexivity.
      * intros k K. specialize (Hs k K). cbn [setReg vars]. rewrite Hs. f_equal. f_equal.
        destruct (dVal d) as [m|z0] eqn:EV; [|reflexivity]. cbn [valueOf setReg regs].
        destruct (Nat.eqb_spec m n) as [->|NE]; [|reflexivity]. exfalso.
        apply (ND n (b, i) _ eq_refl (or_introl eq_refl) A). reflexivity.
      * intros k K. specialize (Hs k K). cbn [setReg vars]. rewrite Hs. f_equal. f_equal.
        destruct (dVal d) as [m|z0] eqn:EV; [|reflexivity]. cbn [valueOf setReg regs].
        destruct (Nat.eqb_spec m n) as [->|NE]; [|reflexivity]. exfalso.
        apply (ND n (b, i) _ eq_refl (or_introl eq_refl) A). reflexivity.
      * exact Hs.
  - destruct a as [|x a]; cbn in E; injection E as E1 E2.
    + subst q i. unfold instAt in Eq. cbn [fst snd] in Eq.
      assert (nth_error (bIns (blk f b)) (length (bIns (blk f b))) <> None) as N by congruence. apply nth_error_Some in N. lia.
    + apply (IH a q c d E2 Eq Ev El Eo).
      * intros p Hp. apply NA. right. exact Hp.
      * intros n p i0 EV Hp. apply (ND n p i0 EV). right. exact Hp.
Qed.
Lemma findLocs_spec f domB V users l dom u : wf f -> domOk f domB ->
  (forall d, dbgIn f d -> hasDeref d = false) ->
  (forall d e, dbgIn f d -> dbgIn f e -> dVar d = dVar e -> overlap (dFrag d) (dFrag e) -> dFrag d = dFrag e) ->
  In (l, dom) (findLocs f domB V users) -> In u users -> (exists k, inFrag (lFrag l) k) ->
  (exists d0, exact_ f V l d0 /\ forall h, path f h u -> In d0 h) /\
  forall h, path f h u -> split_ f V l h.
Proof.
  intros W D ND NO H Hu NE. unfold findLocs in H. apply filter_In in H. destruct H as [H R]. cbn [fst snd] in R.
  destruct (findDom_spec f domB V users) as (F1 & _ & _).
  destruct (F1 l dom H) as [F2 F3].
  assert (R' : reached f V l dom u = true).
  { destruct users as [|u0 us]; [discriminate|]. rewrite forallb_forall in R. apply R. exact Hu. }
  assert (X : exists d0, exact_ f V l d0 /\ forall h, path f h u -> In d0 h).
  { destruct dom as [|b0 dom]; [congruence|]. destruct (F3 b0 (or_introl eq_refl)) as (i & d & A1 & A2 & A3 & A4 & A5).
    exists (b0, i). split; [exists d; auto|]. intros h P. apply (domI_sound f domB (b0, i) u h (IDbg d) W D (A5 u Hu) A1 P). }
  split; [exact X|]. intros h P. destruct u as [b i].
  destruct (path_peel _ _ _ _ P) as (h' & Eh & P' & L & _).
  unfold reached in R'. cbn [fst snd] in R'.
  assert (Ex : exists e, dbgIn f e /\ getLoc e = l).
  { destruct X as (d0 & (d & A & _ & B) & _). exists d. split; [exists d0; exact A|exact B]. }
  pose proof (scanBack_spec f V l ND NE NO b i L (or_intror Ex)) as SB.
  destruct (scanBack V l (rev (firstn i (bIns (blk f b))))) as [[|]|].
  - rewrite Eh. apply split_left. exact SB.
  - discriminate.
  - destruct (walk f (S (length f)) V l dom [b] []) as [[|]|] eqn:Ew; try discriminate.
    destruct (walk_spec f V l dom (S (length f)) [b] [] []) as (Ws & K1 & _ & K3); [easy|easy|exact Ew|].
    rewrite Eh. apply split_app; [exact SB|].
    destruct X as (d0 & X0 & X1).
    apply (walk_split f V l ND NE Ws dom W K3) with (n := length h') (b := b).
    + intros c Hc. destruct (F3 c Hc) as (j & d & A1 & A2 & A3 & A4 & A5). exists j, d. auto.
    + lia.
    + exact P'.
    + apply K1. left. reflexivity.
    + exists d0. split; [|exact X0]. pose proof (X1 h P) as I1. rewrite Eh in I1. apply in_app_iff in I1.
      destruct I1 as [I1|I1]; [|exact I1]. exfalso. apply (SB d0 I1). apply exact_aliasing with (V := V); assumption.
Qed.
Lemma frag_empty_dec r : (exists k, inFrag r k) \/ forall k, ~ inFrag r k.
Proof.
  destruct r as [[o [|n]]|].
  - right. intros k K. cbn in K. lia.
  - left. exists o. cbn. lia.
  - left. exists 0. cbn. auto.
Qed.
Theorem findMetadata_ok mem f domB V users l u h s : wf f -> domOk f domB -> defFirst f V ->
  (forall d, dbgIn f d -> dOp d = OpNone) ->
  (forall d e, dbgIn f d -> dbgIn f e -> dVar d = dVar e -> overlap (dFrag d) (dFrag e) -> dFrag d = dFrag e) ->
  In l (fst (findMetadata f domB V users)) -> In u users -> exec mem f h u s -> holds s l V.
Proof.
  intros W D DF NO FR H Hu E.
  destruct (frag_empty_dec (lFrag l)) as [NE|NE]; [|intros k K; destruct (NE k K)].
  cbn [findMetadata fst] in H. apply in_map_iff in H. destruct H as ([l' dom] & E' & H). cbn [fst] in E'. subst l'.
  assert (ND : forall d, dbgIn f d -> hasDeref d = false) by (intros d Hd; unfold hasDeref; rewrite (NO d Hd); reflexivity).
  pose proof (exec_path _ _ _ _ _ E) as P.
  destruct (findLocs_spec f domB V users l dom u W D ND FR H Hu NE) as ((d0 & X0 & X1) & X2).
  destruct (X2 h P) as (a & q & c & Eh & (d & Q1 & Q2 & Q3) & NA).
  apply (holds_after mem f V l h u s E a q c d Eh Q1 Q2 Q3 (NO d (ex_intro _ q Q1)) NA).
  intros n p i EV Hp. apply (no_redefinition f V l h u d0 P DF X1 X0 NE a q c Eh NA n p i EV Hp).
Qed.
(** ** The returned variable *)
Lemma firstInBlock_spec V l o is : firstInBlock V l o is = true -> l <> o ->
  forall j d, nth_error is j = Some (IDbg d) -> dVal d = V -> hasDeref d = false -> getLoc d = o ->
  exists i e, i < j /\ nth_error is i = Some (IDbg e) /\ dVal e = V /\ getLoc e = l.
Proof.
  induction is as [|x is IH]; intros H N j d E Ev Ed El; [now destruct j|].
  assert (Next : firstInBlock V l o is = true -> (x <> IDbg d \/ j <> 0) ->
     exists i e, i < j /\ nth_error (x :: is) i = Some (IDbg e) /\ dVal e = V /\ getLoc e = l).
  { intros G NX. destruct j as [|j].
    - cbn [nth_error] in E. injection E as ->. destruct NX; congruence.
    - destruct (IH G N j d E Ev Ed El) as (i & e & A & B). exists (S i), e. split; [lia|exact B]. }
  destruct x as [d'| | |]; cbn [firstInBlock] in H.
  - destruct (value_eqb (dVal d') V && negb (hasDeref d')) eqn:E1.
    + destruct (loc_eqb (getLoc d') l) eqn:E2.
      * apply andb_true_iff in E1. destruct E1 as [E1 _]. apply value_eqb_eq in E1. apply loc_eqb_eq in E2.
        destruct j as [|j].
        { cbn [nth_error] in E. injection E as ->. congruence. }
        exists 0, d'. split; [lia|]. auto.
      * destruct (loc_eqb (getLoc d') o) eqn:E3; [discriminate|]. apply Next; [exact H|].
        left. intros G. injection G as ->. assert (loc_eqb (getLoc d) o = true) by (apply loc_eqb_eq; exact El). congruence.
    + apply Next; [exact H|]. left. intros G. injection G as ->. rewrite Ed in E1.
      assert (value_eqb (dVal d) V = true) as EE by (apply value_eqb_eq; exact Ev). rewrite EE in E1. discriminate.
  - apply Next; [exact H|]. left. discriminate.
  - apply Next; [exact H|]. left. discriminate.
  - apply Next; [exact H|]. left. discriminate.
Qed.
Lemma nodup_fst (A B : Type) (m : list (A * B)) a b b' : NoDup (map fst m) -> In (a, b) m -> In (a, b') m -> b = b'.
Proof.
  induction m as [|[x y] m IH]; cbn; intros N; [easy|]. inversion N as [|? ? N1 N2]; subst.
  intros [H|H] [H'|H'].
  - congruence.
  - injection H as -> ->. destruct N1. apply in_map_iff. exists (a, b'). auto.
  - injection H' as -> ->. destruct N1. apply in_map_iff. exists (a, b). auto.
  - auto.
Qed.
Theorem findMetadata_first : C69_first_claim.
Proof.
  intros f domB V users r l p d h W D Hr Hl N Ep Ev Ed El Du P.
  cbn [findMetadata fst snd] in Hr, Hl.
  destruct (find (fun e => isFirst f domB V (findLocs f domB V users) (fst e) (snd e)) (findLocs f domB V users)) as [[r' dom]|] eqn:F; [|discriminate].
  injection Hr as Hr. cbn [fst] in Hr. subst r'.
  apply find_some in F. destruct F as [F1 F2]. cbn [fst snd] in F2.
  apply in_map_iff in Hl. destruct Hl as ([l' bs] & E' & Hl). cbn [fst] in E'. subst l'.
  unfold isFirst in F2. rewrite forallb_forall in F2. specialize (F2 (l, bs) Hl). cbn [fst snd] in F2.
  apply orb_true_iff in F2. destruct F2 as [F2|F2]; [apply loc_eqb_eq in F2; contradiction|].
  rewrite forallb_forall in F2.
  destruct (findDom_spec f domB V users) as (G1 & G2 & G3).
  assert (InD : forall x, In x (findLocs f domB V users) -> In x (findDomDbgValues f domB V users)).
  { intros x Hx. unfold findLocs in Hx. apply filter_In in Hx. apply Hx. }
  destruct p as [b i].
  destruct (G3 l b i) as (bs' & B1 & B2); [exists d; auto 6|].
  assert (bs' = bs) by (apply (nodup_fst _ _ _ l bs' bs G2 B1 (InD _ Hl))). subst bs'.
  specialize (F2 b B2). rewrite forallb_forall in F2.
  destruct (G1 r dom (InD _ F1)) as [NEd G4]. destruct dom as [|c dom]; [congruence|].
  specialize (F2 c (or_introl eq_refl)). destruct (G4 c (or_introl eq_refl)) as (j & e & J1 & J2 & J3 & J4 & J5).
  destruct (c =? b) eqn:EC.
  - apply Nat.eqb_eq in EC. subst c.
    destruct (firstInBlock_spec V r l _ F2 (fun G => N (eq_sym G)) i d Ep Ev Ed El) as (k & e' & K1 & K2 & K3 & K4).
    exists (b, k), e'. split; [|auto]. destruct (path_peel _ _ _ _ P) as (h' & -> & _). apply in_app_iff. left. apply part_in. cbn. auto.
  - apply Nat.eqb_neq in EC. exists (c, j), e. split; [|auto].
    apply (domI_sound f domB (c, j) (b, i) h (IDbg e) W D); [|exact J1|exact P].
    unfold domI. cbn [fst snd]. apply Nat.eqb_neq in EC. rewrite EC. exact F2.
Qed.
(** ** All users *)
Lemma usesIn_ok V us : In V us -> usesIn V us = true.
Proof. intros H. apply existsb_exists. exists V. split; [exact H|now apply value_eqb_eq]. Qed.
Lemma usersFrom_in f V b l : forall i j x us, nth_error l j = Some x -> (x = IUse us \/ exists n, x = IDef n us) -> In V us ->
  In (b, i + j) (usersFrom f V b i l).
Proof.
  induction l as [|y l IH]; intros i j x us E H U; [now destruct j|].
  destruct j as [|j]; cbn [nth_error] in E.
  - injection E as ->. rewrite Nat.add_0_r. destruct H as [->|(n & ->)]; cbn [usersFrom]; rewrite (usesIn_ok _ _ U); left; reflexivity.
  - replace (i + S j) with (S i + j) by lia. specialize (IH (S i) j x us E H U).
    destruct y; cbn [usersFrom]; try (apply in_app_iff; right); exact IH.
Qed.
Lemma usersOf_in f V u h : wf f -> noPhiUse f V -> path f h u -> usedAt f V u -> In u (usersOf f V).
Proof.
  intros W NP P H. assert (B : fst u < length f) by (destruct u as [b i]; apply (path_block _ _ _ _ W P)).
  unfold usersOf. apply in_flat_map. exists (fst u). split; [apply in_seq; lia|]. apply in_app_iff.
  destruct H as [p i us A C U|b U|p n inc b A U].
  - left. destruct p as [b j]. apply (usersFrom_in f V b _ 0 j i us A C U).
  - right. cbn [fst]. rewrite (usesIn_ok _ _ U). left. reflexivity.
  - destruct (NP p n inc b A U).
Qed.
(** ** Completeness *)
Theorem findMetadata_found : C69_found_claim.
Proof.
  intros f domB V users l p d NU Ep Ev Ed El Du Only.
  assert (Hd : hasDeref d = false) by (unfold hasDeref; destruct (dOp d); congruence).
  destruct (findDom_spec f domB V users) as (_ & _ & G3). destruct p as [b i].
  destruct (G3 l b i) as (bs & B1 & _); [exists d; auto 6|].
  cbn [findMetadata fst]. apply in_map_iff. exists (l, bs). split; [reflexivity|].
  unfold findLocs. apply filter_In. split; [exact B1|]. cbn [fst snd]. destruct users as [|u0 us]; [congruence|].
  apply forallb_forall. intros u Hu.
  assert (NoDer : forall e, hasDeref e = false -> dOp e <> OpDeref) by (intros e He G; unfold hasDeref in He; rewrite G in He; discriminate).
  assert (NAl : forall c, isAlias f V l c = false).
  { intros c. destruct (isAlias f V l c) eqn:E; [|reflexivity]. exfalso. unfold isAlias in E. apply existsb_exists in E.
    destruct E as ([q e] & E1 & E2). apply dbgsFrom_in in E1. destruct E1 as (j & -> & E1). cbn [snd Nat.add] in E2.
    repeat (apply andb_true_iff in E2; let A := fresh "K" in destruct E2 as [E2 A]).
    apply Nat.eqb_eq in E2. apply negb_true_iff in K1.
    destruct (Only e (ex_intro _ (c, j) E1) E2 (NoDer e K1)) as [O1 O2].
    apply negb_true_iff in K. assert (restored V l (skipn j (bIns (blk f c))) = true) as R; [|congruence].
    unfold restored. apply existsb_exists. exists (IDbg e). split.
    - assert (G : nth_error (skipn j (bIns (blk f c))) 0 = Some (IDbg e)).
      { rewrite <- E1. clear. generalize (bIns (blk f c)). induction j as [|j IH]; intros t; cbn [skipn]; [reflexivity|].
        destruct t as [|y t]; [reflexivity|apply IH]. }
      apply nth_error_In in G. exact G.
    - apply andb_true_iff. split; [now apply value_eqb_eq|now apply loc_eqb_eq]. }
  unfold reached.
  assert (SB : forall r, (forall x, In x r -> forall e, x = IDbg e -> dbgIn f e) -> scanBack V l r = None \/ scanBack V l r = Some true).
  { induction r as [|x r IH]; intros Hr; cbn [scanBack]; [auto|].
    assert (IH' := IH (fun y Hy => Hr y (or_intror Hy))).
    destruct x as [e| | |]; try exact IH'.
    destruct (negb (hasDeref e) && loc_eqb (getLoc e) l) eqn:E; [|exact IH'].
    apply andb_true_iff in E. destruct E as [E1 E2]. apply negb_true_iff in E1. apply loc_eqb_eq in E2.
    right. f_equal. apply value_eqb_eq. apply (Only e); [|now rewrite <- E2|apply NoDer; exact E1].
    apply (Hr (IDbg e) (or_introl eq_refl) e eq_refl). }
  destruct (SB (rev (firstn (snd u) (bIns (blk f (fst u)))))) as [-> | ->]; [|  | reflexivity].
  { intros x Hx e ->. apply in_rev in Hx.
    assert (Hx' : In (IDbg e) (bIns (blk f (fst u)))).
    { rewrite <- (firstn_skipn (snd u)). apply in_app_iff. left. exact Hx. }
    apply In_nth_error in Hx'. destruct Hx' as (j & J). exists (fst u, j). exact J. }
  assert (SP : forall ps wl vis, scanPreds f V l bs ps wl vis <> None).
  { induction ps as [|q ps IH]; intros wl vis; cbn [scanPreds]; [discriminate|].
    rewrite (NAl q). destruct (existsb _ vis); [apply IH|]. destruct (existsb _ bs); apply IH. }
  assert (WK : forall fuel wl vis, walk f fuel V l bs wl vis <> Some false).
  { induction fuel as [|fuel IH]; intros wl vis; destruct wl as [|c wl]; cbn [walk]; try discriminate.
    pose proof (SP (preds f c) wl vis) as H. destruct (scanPreds f V l bs (preds f c) wl vis) as [[wl' vis']|]; [apply IH|congruence]. }
  pose proof (WK (S (length f)) [fst u] []) as H1.
  pose proof (walk_fuel f V l bs (S (length f)) [fst u] []) as H2.
  destruct (walk f (S (length f)) V l bs [fst u] []) as [[|]|]; [reflexivity|congruence|].
  exfalso. apply H2; [constructor|easy|cbn [length]; lia|reflexivity].
Qed.
