(** Proofs about the checker of memory which is not initialized. *)
From Coq Require Import PeanoNat Bool List Lia Wf_nat.
From Verif Require Import NotInitModel NotInitSpec.
Import ListNotations.

Section T.
  Variable t : tree.
  Hypothesis Ok : treeOk t.
  Lemma contains_le a e : contains t a e -> a <= e.
  Proof. induction 1 as [|e p E _ IH]; [lia|]. specialize (Ok e p E). lia. Qed.
  Lemma contains_trans a b c : contains t a b -> contains t b c -> contains t a c.
  Proof. intros A B. induction B as [|e p E _ IH]; [exact A|]. exact (CUp t a e p E IH). Qed.
  Lemma climb_named e a d : contains t a e -> tMeta t a = Some d ->
    (forall b, contains t b e -> inside t a b -> tMeta t b = None) -> forall fuel, e <= fuel -> climb t fuel e = (a, Some d).
  Proof.
    intros C M. induction C as [|e p E C IH]; intros N fuel L.
    - destruct fuel; cbn [climb]; rewrite M; reflexivity.
    - pose proof (Ok e p E) as Lt. pose proof (contains_le a p C) as La.
      assert (Me : tMeta t e = None) by (apply N; [apply CSelf|split; [lia|exact (CUp t a e p E C)]]).
      destruct fuel as [|fuel]; [lia|]. cbn [climb]. rewrite Me, E. apply IH; [|lia].
      intros b Cb Ib. apply N; [exact (CUp t b e p E Cb)|exact Ib].
  Qed.
  Lemma climb_spec fuel : forall e, e <= fuel ->
    match climb t fuel e with (a, Some d) => named t e a d | (_, None) => anonymous t e end.
  Proof.
    induction fuel as [|fuel IH]; intros e L; cbn [climb].
    - destruct (tMeta t e) as [d|] eqn:M.
      + split; [apply CSelf|]. split; [exact M|]. intros b Cb [Ne Cab].
        apply contains_le in Cb, Cab. destruct Ne; lia.
      + destruct (tParent t e) as [p|] eqn:E; [specialize (Ok e p E); lia|].
        intros a C. destruct C as [|e p E' _]; [exact M|]. rewrite E in E'; discriminate E'.
    - destruct (tMeta t e) as [d|] eqn:M.
      + split; [apply CSelf|]. split; [exact M|]. intros b Cb [Ne Cab].
        apply contains_le in Cb, Cab. destruct Ne; lia.
      + destruct (tParent t e) as [p|] eqn:E.
        * pose proof (Ok e p E) as Lt. assert (Lp : p <= fuel) by lia. specialize (IH p Lp).
          destruct (climb t fuel p) as [a [d|]].
          -- destruct IH as (C & Ma & N). split; [exact (CUp t a e p E C)|]. split; [exact Ma|].
             intros b Cb Ib. destruct Cb as [|e p' E' Cb]; [exact M|]. rewrite E in E'. injection E' as <-. exact (N b Cb Ib).
          -- intros a' C. destruct C as [|e p' E' C]; [exact M|]. rewrite E in E'. injection E' as <-. exact (IH a' C).
        * intros a C. destruct C as [|e p E' _]; [exact M|]. rewrite E in E'; discriminate E'.
  Qed.
  Lemma named_climb e a d : named t e a d <-> climb t e e = (a, Some d).
  Proof.
    split.
    - intros (C & M & N). exact (climb_named e a d C M N e (le_n e)).
    - intro E. pose proof (climb_spec e e (le_n e)) as H. rewrite E in H. exact H.
  Qed.
  Lemma anonymous_climb e : anonymous t e <-> snd (climb t e e) = None.
  Proof.
    pose proof (climb_spec e e (le_n e)) as H. destruct (climb t e e) as [a [d|]]; cbn; split; intro Q.
    - destruct H as (C & M & _). rewrite (Q a C) in M. discriminate M.
    - discriminate Q.
    - reflexivity.
    - exact H.
  Qed.
  Lemma skip_ordinary e : skip t e = false <-> ordinary t e.
  Proof. unfold skip, ordinary. destruct (tObject t e); split; intro H; try discriminate; try reflexivity; auto; destruct H; discriminate. Qed.
  Lemma inLocs_In a l : inLocs a l = true <-> exists d, In (a, d) l.
  Proof.
    unfold inLocs. rewrite existsb_exists. split.
    - intros ([b d] & I1 & E). cbn in E. apply Nat.eqb_eq in E; subst b. exists d; exact I1.
    - intros [d I1]. exists (a, d). split; [exact I1|apply Nat.eqb_refl].
  Qed.
  Lemma parentIn_spec l fuel : forall e, e <= fuel -> parentIn t fuel l e = true <-> exists b, inside t b e /\ inLocs b l = true.
  Proof.
    induction fuel as [|fuel IH]; intros e L; cbn [parentIn].
    - destruct (tParent t e) as [p|] eqn:E; [specialize (Ok e p E); lia|].
      split; [discriminate|]. intros (b & [Ne C] & _). destruct C as [|e p E' _]; [destruct Ne; reflexivity|]. rewrite E in E'; discriminate E'.
    - destruct (tParent t e) as [p|] eqn:E.
      + pose proof (Ok e p E) as Lt. assert (Lp : p <= fuel) by lia. destruct (inLocs p l) eqn:I1.
        * split; [|reflexivity]. intros _. exists p. split; [|exact I1]. split; [lia|]. exact (CUp t p e p E (CSelf t p)).
        * rewrite (IH p Lp). split.
          -- intros (b & [Ne C] & Ib). exists b. split; [|exact Ib]. pose proof (contains_le b p C). split; [lia|exact (CUp t b e p E C)].
          -- intros (b & [Ne C] & Ib). exists b. split; [|exact Ib]. destruct C as [|e p' E' C]; [destruct Ne; reflexivity|].
             rewrite E in E'. injection E' as <-. split; [|exact C]. intros ->. congruence.
      + split; [discriminate|]. intros (b & [Ne C] & _). destruct C as [|e p E' _]; [destruct Ne; reflexivity|]. rewrite E in E'; discriminate E'.
  Qed.
  (** * Collection *)
  Lemma keq_eq a b : keq a b = true <-> a = b.
  Proof. destruct a, b; cbn; split; intro; congruence. Qed.
  Lemma has_In k d vs : has k d vs = true <-> In (k, d) vs.
  Proof.
    unfold has. rewrite existsb_exists. split.
    - intros ([k' d'] & I1 & E). cbn in E. apply andb_true_iff in E as [E1 E2]. apply keq_eq in E1. apply Nat.eqb_eq in E2. subst. exact I1.
    - intro I1. exists (k, d). split; [exact I1|]. cbn. rewrite (proj2 (keq_eq k k) eq_refl), Nat.eqb_refl. reflexivity.
  Qed.
  Lemma insert_In d d' vs : (exists k, In (k, d') (insert t d vs)) <-> (exists k, In (k, d') vs) \/ d' = d.
  Proof.
    unfold insert. destruct (has (tKind t d) d vs) eqn:H.
    - apply has_In in H. split; [tauto|]. intros [Q| ->]; [exact Q|]. exists (tKind t d); exact H.
    - split.
      + intros (k & I1). apply in_app_iff in I1 as [I1|[Q|[]]]; [left; exists k; exact I1|]. injection Q as _ <-. right; reflexivity.
      + intros [(k & I1)| ->]; [exists k|exists (tKind t d)]; apply in_app_iff; [left; exact I1|right; left; reflexivity].
  Qed.
  Definition cand (uses : list nat) (a d : nat) : Prop :=
    exists e, In e uses /\ skip t e = false /\ climb t e e = (a, Some d) /\ tKnown t d = true.
  Lemma cand_candidate uses a d : cand uses a d <-> candidate t uses a d.
  Proof. split; intros (e & I1 & Sk & N & K); exists e; (split; [exact I1|]; split; [apply skip_ordinary; exact Sk|]; split; [apply named_climb; exact N|exact K]). Qed.
  Lemma cand_meta uses a d : cand uses a d -> tMeta t a = Some d.
  Proof. intros (e & _ & _ & N & _). apply named_climb in N as (_ & M & _). exact M. Qed.
  Definition collected (uses : list nat) (s : state) : Prop :=
    (forall d, scalars s d <-> exists a, cand uses a d /\ tLeaf t a = true) /\
    (forall d, aggregates s d <-> exists a, cand uses a d /\ tLeaf t a = false) /\
    (sNoMeta s = true <-> exists e, In e uses /\ tObject t e = OOrdinary /\ snd (climb t e e) = None) /\
    (forall a d, In (a, d) (sLocs s) <-> cand uses a d).
  Lemma cand_app uses e a d : cand (uses ++ [e]) a d <->
    cand uses a d \/ (skip t e = false /\ climb t e e = (a, Some d) /\ tKnown t d = true).
  Proof.
    split.
    - intros (e' & I1 & R). apply in_app_iff in I1 as [I1|[<-|[]]]; [left; exists e'; tauto|right; exact R].
    - intros [(e' & I1 & R)|R]; [exists e'|exists e]; (split; [apply in_app_iff|exact R]); [left; exact I1|right; left; reflexivity].
  Qed.
  Lemma step_ok uses s e : collected uses s -> collected (uses ++ [e]) (visitUse t s e).
  Proof.
    intros (Sc & Ag & Nm & Lo).
    assert (Same : forall s', scalars s' = scalars s -> aggregates s' = aggregates s -> sLocs s' = sLocs s ->
      (forall a d, ~ (skip t e = false /\ climb t e e = (a, Some d) /\ tKnown t d = true)) ->
      (sNoMeta s' = true <-> sNoMeta s = true \/ (tObject t e = OOrdinary /\ snd (climb t e e) = None)) -> collected (uses ++ [e]) s').
    { intros s' E1 E2 E3 No Nm'. split; [|split; [|split]].
      - intro d. rewrite E1, Sc. split; intros (a & C & Lf); exists a; (split; [|exact Lf]); [apply cand_app; left; exact C|].
        apply cand_app in C as [C|C]; [exact C|destruct (No _ _ C)].
      - intro d. rewrite E2, Ag. split; intros (a & C & Lf); exists a; (split; [|exact Lf]); [apply cand_app; left; exact C|].
        apply cand_app in C as [C|C]; [exact C|destruct (No _ _ C)].
      - rewrite Nm', Nm. split.
        + intros [(e' & I1 & R)|R]; [exists e'|exists e]; (split; [apply in_app_iff|exact R]); [left; exact I1|right; left; reflexivity].
        + intros (e' & I1 & R). apply in_app_iff in I1 as [I1|[<-|[]]]; [left; exists e'; tauto|right; exact R].
      - intros a d. rewrite E3, Lo, cand_app. split; [tauto|]. intros [C|C]; [exact C|destruct (No _ _ C)]. }
    unfold visitUse. destruct (skip t e) eqn:Sk.
    - apply Same; try reflexivity; [intros a d [Q _]; discriminate Q|]. split; [tauto|].
      intros [Q|[Q _]]; [exact Q|]. unfold skip in Sk. rewrite Q in Sk. discriminate Sk.
    - destruct (climb t e e) as [e' [d|]] eqn:Cl.
      + destruct (tKnown t d) eqn:Kn.
        * set (l := if inLocs e' (sLocs s) then sLocs s else (e', d) :: sLocs s).
          assert (New : forall a d', (skip t e = false /\ climb t e e = (a, Some d') /\ tKnown t d' = true) <-> (a = e' /\ d' = d)).
          { intros a d'. rewrite ?Cl, ?Sk. split; [intros (_ & Q & _); injection Q as -> ->; split; reflexivity|].
            intros [-> ->]. repeat split; assumption. }
          assert (Ll : forall a d', In (a, d') l <-> cand (uses ++ [e]) a d').
          { intros a d'. rewrite cand_app, New, <- Lo. unfold l. destruct (inLocs e' (sLocs s)) eqn:I1.
            - split; [tauto|]. intros [Q|[-> ->]]; [exact Q|]. apply inLocs_In in I1 as [d0 I1].
              pose proof (cand_meta uses e' d0 (proj1 (Lo e' d0) I1)) as M0.
              assert (M1 : tMeta t e' = Some d) by (apply named_climb in Cl as (_ & M & _); exact M).
              rewrite M0 in M1. injection M1 as <-. exact I1.
            - cbn. split; [intros [Q|Q]; [injection Q as <- <-; right; split; reflexivity|left; exact Q]|].
              intros [Q|[-> ->]]; [right; exact Q|left; reflexivity]. }
          assert (Nm' : sNoMeta s = true <-> exists e0, In e0 (uses ++ [e]) /\ tObject t e0 = OOrdinary /\ snd (climb t e0 e0) = None).
          { rewrite Nm. split.
            - intros (e0 & I1 & R). exists e0. split; [apply in_app_iff; left; exact I1|exact R].
            - intros (e0 & I1 & R). apply in_app_iff in I1 as [I1|[<-|[]]]; [exists e0; split; assumption|].
              destruct R as [_ R]. rewrite ?Cl in R. discriminate R. }
          assert (Gr : forall (lf : bool) (P0 : nat -> Prop), (forall d', P0 d' <-> exists a, cand uses a d' /\ tLeaf t a = lf) ->
            forall d', (P0 d' \/ (tLeaf t e' = lf /\ d' = d)) <-> exists a, cand (uses ++ [e]) a d' /\ tLeaf t a = lf).
          { intros lf P0 H d'. rewrite H. split.
            - intros [(a & C & Lf)|[Lf ->]].
              + exists a. split; [apply cand_app; left; exact C|exact Lf].
              + exists e'. split; [apply cand_app; right; apply New; split; reflexivity|exact Lf].
            - intros (a & C & Lf). apply cand_app in C as [C|C]; [left; exists a; split; assumption|].
              apply New in C as [-> ->]. right; split; [exact Lf|reflexivity]. }
          destruct (tLeaf t e') eqn:Lf; (split; [|split; [|split; [exact Nm'|exact Ll]]]); intro d'.
          -- rewrite <- (Gr true (scalars s) Sc d'). unfold scalars at 1. cbn [sScalars]. rewrite insert_In. unfold scalars. tauto.
          -- rewrite <- (Gr false (aggregates s) Ag d'). split; [left; assumption|]. intros [Q|[Q _]]; [exact Q|discriminate Q].
          -- rewrite <- (Gr true (scalars s) Sc d'). split; [left; assumption|]. intros [Q|[Q _]]; [exact Q|discriminate Q].
          -- rewrite <- (Gr false (aggregates s) Ag d'). unfold aggregates at 1. cbn [sAggregates]. rewrite insert_In. unfold aggregates. tauto.
        * apply Same; try reflexivity.
          -- intros a d' (_ & Q & K). rewrite ?Cl in Q. injection Q as _ <-. congruence.
          -- rewrite ?Cl. cbn. split; [tauto|]. intros [Q|[_ Q]]; [exact Q|discriminate Q].
      + destruct (tObject t e) eqn:Ob; cbn [snd].
        1,2,3: unfold skip in Sk; rewrite Ob in Sk; discriminate Sk.
        * apply Same; try reflexivity.
          -- intros a d' (_ & Q & _). rewrite ?Cl in Q. discriminate Q.
          -- split; [tauto|]. intros [Q|[Q _]]; [exact Q|congruence].
        * apply Same; try reflexivity.
          -- intros a d' (_ & Q & _). rewrite ?Cl in Q. discriminate Q.
          -- cbn. rewrite ?Cl. cbn. split; [intros _; right; split; reflexivity|reflexivity].
  Qed.
  Lemma collect_ok uses : collected uses (fold_left (visitUse t) uses (State [] [] false [])).
  Proof.
    induction uses as [|e uses IH] using rev_ind.
    - split; [|split; [|split]].
      + intro d. split; [intros (k & [])|intros (a & (e & [] & _) & _)].
      + intro d. split; [intros (k & [])|intros (a & (e & [] & _) & _)].
      + cbn. split; [discriminate|intros (e & [] & _)].
      + intros a d. split; [intros []|intros (e & [] & _)].
    - rewrite fold_left_app. cbn [fold_left]. apply step_ok. exact IH.
  Qed.
  (** * Reduction *)
  Lemma eraseVar_In d d' vs : (exists k, In (k, d') (eraseVar d vs)) <-> (exists k, In (k, d') vs) /\ d' <> d.
  Proof.
    unfold eraseVar. split.
    - intros (k & I1). apply filter_In in I1 as [I1 E]. cbn in E. apply negb_true_iff, Nat.eqb_neq in E. split; [exists k; exact I1|exact E].
    - intros ((k & I1) & N). exists k. apply filter_In. split; [exact I1|]. cbn. apply negb_true_iff, Nat.eqb_neq. exact N.
  Qed.
  Definition drop (l0 : list (nat * nat)) (s' : state) (p : nat * nat) : state :=
    if parentIn t (fst p) l0 (fst p)
    then State (eraseVar (snd p) (sScalars s')) (eraseVar (snd p) (sAggregates s')) (sNoMeta s') (sLocs s')
    else s'.
  Lemma reduce_spec l0 l : forall s, let s' := fold_left (drop l0) l s in
    (forall d, scalars s' d <-> scalars s d /\ forall a, In (a, d) l -> parentIn t a l0 a = false) /\
    (forall d, aggregates s' d <-> aggregates s d /\ forall a, In (a, d) l -> parentIn t a l0 a = false) /\ sNoMeta s' = sNoMeta s.
  Proof.
    induction l as [|[a0 d0] l IH]; intros s s'.
    - split; [|split; [|reflexivity]]; intro d; (split; [intro H; split; [exact H|intros a []]|intros [H _]; exact H]).
    - unfold s'. cbn [fold_left]. specialize (IH (drop l0 s (a0, d0))). cbn zeta in IH. destruct IH as (IS & IA & IN).
      assert (Gr : forall (P0 P1 : nat -> Prop), (forall d, P1 d <-> P0 d /\ (parentIn t a0 l0 a0 = true -> d <> d0)) -> forall d,
        (P1 d /\ forall a, In (a, d) l -> parentIn t a l0 a = false) <-> (P0 d /\ forall a, In (a, d) ((a0, d0) :: l) -> parentIn t a l0 a = false)).
      { intros P0 P1 H d. rewrite H. split.
        - intros [[A B] C]. split; [exact A|]. intros a [Q|Q]; [|exact (C a Q)]. injection Q as <- <-.
          destruct (parentIn t a0 l0 a0); [destruct (B eq_refl); reflexivity|reflexivity].
        - intros [A B]. split; [split; [exact A|]|].
          + intros Q ->. rewrite (B a0 (or_introl eq_refl)) in Q. discriminate Q.
          + intros a Q. exact (B a (or_intror Q)). }
      split; [|split].
      + intro d. rewrite IS. apply (Gr (scalars s)). intro d'. unfold drop. cbn [fst snd]. destruct (parentIn t a0 l0 a0).
        * unfold scalars at 1. cbn [sScalars]. rewrite eraseVar_In. unfold scalars. tauto.
        * split; [intro Q; split; [exact Q|discriminate]|tauto].
      + intro d. rewrite IA. apply (Gr (aggregates s)). intro d'. unfold drop. cbn [fst snd]. destruct (parentIn t a0 l0 a0).
        * unfold aggregates at 1. cbn [sAggregates]. rewrite eraseVar_In. unfold aggregates. tauto.
        * split; [intro Q; split; [exact Q|discriminate]|tauto].
      + rewrite IN. unfold drop. cbn. destruct (parentIn t a0 l0 a0); reflexivity.
  Qed.
  Lemma maximal_iff uses s d : (forall a d, In (a, d) (sLocs s) <-> cand uses a d) ->
    (forall a, In (a, d) (sLocs s) -> parentIn t a (sLocs s) a = false) <->
    (forall a b d', candidate t uses a d -> candidate t uses b d' -> ~ inside t b a).
  Proof.
    intro Lo. split.
    - intros H a b d' Ca Cb Ib. apply cand_candidate, Lo in Ca, Cb. specialize (H a Ca).
      assert (Q : parentIn t a (sLocs s) a = true); [|congruence]. apply (parentIn_spec _ a a (le_n a)).
      exists b. split; [exact Ib|]. apply inLocs_In. exists d'; exact Cb.
    - intros H a Ia. destruct (parentIn t a (sLocs s) a) eqn:Q; [|reflexivity]. exfalso.
      apply (parentIn_spec _ a a (le_n a)) in Q as (b & Ib & Lb). apply inLocs_In in Lb as [d' Lb].
      apply Lo, cand_candidate in Ia, Lb. exact (H a b d' Ia Lb Ib).
  Qed.
End T.
Lemma exact_true : C86_exact_claim.
Proof.
  intros t uses Ok maximal. unfold run, reduce.
  set (s := fold_left (visitUse t) uses (State [] [] false [])).
  destruct (collect_ok t Ok uses) as (Sc & Ag & Nm & Lo). fold s in Sc, Ag, Nm, Lo.
  destruct (reduce_spec t (sLocs s) (sLocs s) s) as (RS & RA & RN). unfold drop in RS, RA, RN.
  assert (Cs : forall lf d, (exists a, cand t uses a d /\ tLeaf t a = lf) <-> (exists a, candidate t uses a d /\ tLeaf t a = lf)).
  { intros lf d. split; intros (a & C & L); exists a; (split; [apply (cand_candidate t Ok); exact C|exact L]). }
  split; [|split].
  - intro d. rewrite RS, Sc, Cs, (maximal_iff t Ok uses s d Lo). unfold maximal. tauto.
  - intro d. rewrite RA, Ag, Cs, (maximal_iff t Ok uses s d Lo). unfold maximal. tauto.
  - rewrite RN, Nm. split; intros (e & I1 & O1 & A); exists e; (split; [exact I1|]; split; [exact O1|apply (anonymous_climb t Ok); exact A]).
Qed.
Lemma covered_true : C86_covered_claim true true true.
Proof.
  intros t uses e Ok Ie Oe Inj Kn Ar. specialize (Inj eq_refl). specialize (Kn eq_refl). specialize (Ar eq_refl).
  destruct (exact_true t uses Ok) as (RS & RA & RN).
  pose proof (climb_spec t Ok e e (le_n e)) as H. destruct (climb t e e) as [a [d|]] eqn:Cl.
  - left. assert (Ca : candidate t uses a d) by (exists e; split; [exact Ie|]; split; [exact Oe|]; split; [exact H|apply Kn]).
    assert (Top : exists b db, contains t b a /\ candidate t uses b db /\ forall c dc, candidate t uses c dc -> ~ inside t c b).
    { clear H Cl. revert d Ca. induction a as [a IH] using lt_wf_ind. intros d Ca.
      destruct (collect_ok t Ok uses) as (_ & _ & _ & Lo).
      set (s := fold_left (visitUse t) uses (State [] [] false [])) in Lo.
      destruct (parentIn t a (sLocs s) a) eqn:Q.
      - apply (parentIn_spec t Ok _ a a (le_n a)) in Q as (b & Ib & Lb). apply inLocs_In in Lb as [d' Lb].
        apply Lo, (cand_candidate t Ok) in Lb. pose proof (contains_le t Ok b a (proj2 Ib)) as Le. destruct Ib as [Ne Cb].
        destruct (IH b ltac:(lia) d' Lb) as (c & dc & Cc & Cd & M). exists c, dc.
        split; [exact (contains_trans t c b a Cc Cb)|]. split; assumption.
      - exists a, d. split; [apply CSelf|]. split; [exact Ca|]. intros c dc Cc Ic.
        apply (cand_candidate t Ok), Lo in Cc. assert (Q' : parentIn t a (sLocs s) a = true); [|congruence].
        apply (parentIn_spec t Ok _ a a (le_n a)). exists c. split; [exact Ic|]. apply inLocs_In. exists dc; exact Cc. }
    destruct Top as (b & db & Cb & Db & M). exists b, db.
    assert (Mb : tMeta t b = Some db) by (destruct Db as (e' & _ & _ & (_ & Q & _) & _); exact Q).
    split; [exact (contains_trans t b a e Cb (proj1 H))|]. split; [exact Mb|].
    assert (Mx : forall a' b' d', candidate t uses a' db -> candidate t uses b' d' -> ~ inside t b' a').
    { intros a' b' d' Ca' Cb'. assert (Ma' : tMeta t a' = Some db) by (destruct Ca' as (e' & _ & _ & (_ & Q & _) & _); exact Q).
      rewrite (Inj a' b db Ma' Mb). exact (M b' d' Cb'). }
    destruct (tLeaf t b) eqn:Lf; [left; apply RS|right; apply RA]; (split; [exact Mx|exists b; split; assumption]).
  - right. apply RN. exists e. split; [exact Ie|]. destruct Oe as [Oe|Oe]; [split; assumption|destruct (Ar e Oe H)].
Qed.
Lemma class_true : C86_class_claim.
Proof.
  intros t uses.
  set (good := fun vs : vars => NoDup vs /\ forall k d, In (k, d) vs -> k = tKind t d).
  assert (Ins : forall d vs, good vs -> good (insert t d vs)).
  { intros d vs [N K]. unfold insert. destruct (has (tKind t d) d vs) eqn:H; [split; assumption|]. split.
    - apply NoDup_rev in N. rewrite <- (rev_involutive (vs ++ [_])). apply NoDup_rev. rewrite rev_app_distr. cbn. constructor; [|exact N].
      intro I1. apply in_rev in I1. apply has_In in I1. congruence.
    - intros k d' I1. apply in_app_iff in I1 as [I1|[Q|[]]]; [exact (K k d' I1)|]. injection Q as <- <-. reflexivity. }
  assert (Er : forall d vs, good vs -> good (eraseVar d vs)).
  { intros d vs [N K]. split; [apply NoDup_filter; exact N|]. intros k d' I1. apply filter_In in I1 as [I1 _]. exact (K k d' I1). }
  set (inv := fun s => good (sScalars s) /\ good (sAggregates s)).
  assert (St : forall s e, inv s -> inv (visitUse t s e)).
  { intros s e [A B]. unfold visitUse. destruct (skip t e); [split; assumption|]. destruct (climb t e e) as [a [d|]].
    - destruct (tKnown t d); [|split; assumption]. destruct (tLeaf t a); (split; cbn; [|]); auto.
    - destruct (tObject t e); split; assumption. }
  assert (C : forall us s, inv s -> inv (fold_left (visitUse t) us s)).
  { induction us as [|e us IH]; intros s H; cbn [fold_left]; [exact H|]. apply IH, St, H. }
  assert (R : forall l0 l s, inv s -> inv (fold_left (drop t l0) l s)).
  { intros l0. induction l as [|p l IH]; intros s H; cbn [fold_left]; [exact H|]. apply IH. unfold drop.
    destruct (parentIn t (fst p) l0 (fst p)); [|exact H]. destruct H as [A B]. split; cbn; auto. }
  assert (G : inv (run t uses)).
  { unfold run, reduce. apply R. apply C. split; split; cbn; try constructor; intros k d []. }
  intros vs [-> | -> ]; [exact (proj1 G)|exact (proj2 G)].
Qed.

(** * Counterexamples *)
(* nodes 1 and 2 have the same location 7, the node 1 is a part of the node 0 *)
Definition flat (e : nat) : option nat := None.
Definition treeI : tree := Tree (fun e => if Nat.eqb e 1 then Some 0 else None) (fun e => negb (Nat.eqb e 0)) (fun _ => OOrdinary)
  (fun e => match e with 0 => Some 5 | 1 | 2 => Some 7 | _ => None end) (fun _ => true) (fun _ => KLocal).
Lemma covered_refuted_inj : ~ C86_covered_claim false true true.
Proof.
  intro H. destruct (H treeI [0; 1; 2] 2) as [(a & d & C & M & R)|Q].
  - intros [|[|e]] p E; cbn in E; try discriminate E. injection E as <-. lia.
  - cbn; tauto.
  - left; reflexivity.
  - discriminate.
  - reflexivity.
  - intros _ e E. discriminate E.
  - assert (Ea : a = 2) by (inversion C as [|e' p E' C']; subst; [reflexivity|discriminate E']). subst a.
    injection M as <-. destruct R as [(k & I1)|(k & I1)]; cbn in I1; intuition discriminate.
  - discriminate Q.
Qed.
Lemma covered_refuted_known : ~ C86_covered_claim true false true.
Proof.
  intro H. destruct (H (Tree flat (fun _ => true) (fun _ => OOrdinary) (fun e => Some e) (fun _ => false) (fun _ => KLocal)) [0] 0)
    as [(a & d & C & M & R)|Q].
  - intros e p E. discriminate E.
  - left; reflexivity.
  - left; reflexivity.
  - intros _ a b d E1 E2. cbn in E1, E2. congruence.
  - discriminate.
  - intros _ e E. discriminate E.
  - destruct R as [(k & I1)|(k & I1)]; destruct I1.
  - discriminate Q.
Qed.
Lemma covered_refuted_arg : ~ C86_covered_claim true true false.
Proof.
  intro H. destruct (H (Tree flat (fun _ => true) (fun _ => OArgument) (fun e => None) (fun _ => true) (fun _ => KLocal)) [0] 0)
    as [(a & d & C & M & R)|Q].
  - intros e p E. discriminate E.
  - left; reflexivity.
  - right; reflexivity.
  - intros _ a b d E1 E2. discriminate E1.
  - reflexivity.
  - discriminate.
  - discriminate M.
  - discriminate Q.
Qed.
