(** Proofs about the partition of subscripts: groups are connected components. *)
From Coq Require Import ZArith Bool List Arith Lia Relations.
From Verif Require Import DepModel MIVModel DepDriverModel DepDriverSpec.
Import ListNotations.
Local Open Scope nat_scope.

Section P.
Context {Env : Type} (lv : levels).
Notation NL := (NL lv).
Variable n : nat.
Variable ps0 : pairs Env.

Lemma intersects_iff a b : intersects lv a b = true <-> exists K, K < NL /\ a K = true /\ b K = true.
Proof.
  unfold intersects, anyBits, andBits. rewrite existsb_exists. split.
  - intros (K & I & H). apply in_seq in I. apply andb_true_iff in H. exists K. split; [lia|exact H].
  - intros (K & LK & A & B). exists K. split; [apply in_seq; lia|]. now rewrite A, B.
Qed.

(* subscripts with loops *)
Definition active (P : nat) : bool :=
  isLinear _ (ps0 P) && negb match pCls _ (ps0 P) with ZIV => true | _ => false end.
Hypothesis init_group : forall P, P < n -> forall R, pGroup _ (ps0 P) R = Nat.eqb P R.
Hypothesis init_loops : forall P, P < n -> active P = true -> pGroupLoops _ (ps0 P) = pLoops _ (ps0 P) /\
  exists K, K < NL /\ pLoops _ (ps0 P) K = true.
Hypothesis init_none : forall P, P < n -> active P = false -> forall K, K < NL -> pGroupLoops _ (ps0 P) K = false.

Definition shares (P R : nat) : Prop :=
  P < n /\ R < n /\ active P = true /\ active R = true /\
  exists K, K < NL /\ pLoops _ (ps0 P) K = true /\ pLoops _ (ps0 R) K = true.
Definition linked : nat -> nat -> Prop := clos_refl_trans _ shares.
Lemma shares_sym P R : shares P R -> shares R P.
Proof. intros (A & B & C & D & K & E & F & H). repeat split; auto. exists K. auto. Qed.
Lemma linked_sym P R : linked P R -> linked R P.
Proof.
  induction 1; [apply rt_step; apply shares_sym; assumption|apply rt_refl|eapply rt_trans; eassumption].
Qed.

(* facts which hold for each array of subscripts in the process *)
Record arr (ps : pairs Env) : Prop := {
  a_same : forall P, pSub _ (ps P) = pSub _ (ps0 P) /\ pCls _ (ps P) = pCls _ (ps0 P) /\ pLoops _ (ps P) = pLoops _ (ps0 P);
  a_self : forall P, P < n -> pGroup _ (ps P) P = true;
  a_le : forall P R, P < n -> pGroup _ (ps P) R = true -> R <= P;
  a_linked : forall P R, P < n -> pGroup _ (ps P) R = true -> linked P R;
  a_active : forall P R, P < n -> pGroup _ (ps P) R = true -> R = P \/ active P = true /\ active R = true;
  a_loops : forall P K, P < n -> K < NL -> (pGroupLoops _ (ps P) K = true <->
     active P = true /\ exists R, pGroup _ (ps P) R = true /\ active R = true /\ pLoops _ (ps0 R) K = true) }.

Lemma arr0 : arr ps0.
Proof.
  split.
  - auto.
  - intros P L. rewrite init_group by exact L. apply Nat.eqb_refl.
  - intros P R L H. rewrite init_group in H by exact L. apply Nat.eqb_eq in H. lia.
  - intros P R L H. rewrite init_group in H by exact L. apply Nat.eqb_eq in H. subst. apply rt_refl.
  - intros P R L H. rewrite init_group in H by exact L. apply Nat.eqb_eq in H. auto.
  - intros P K L LK. destruct (active P) eqn:A.
    + destruct (init_loops P L A) as [E _]. rewrite E. split.
      * intro H. split; [reflexivity|]. exists P. rewrite init_group by exact L. rewrite Nat.eqb_refl. auto.
      * intros (_ & R & G & _ & H). rewrite init_group in G by exact L. apply Nat.eqb_eq in G. now subst.
    + rewrite (init_none P L A K LK). split; [discriminate|]. intros [H _]. discriminate.
Qed.

Lemma arr_merge SI SJ ps b : arr ps -> SI < SJ -> SJ < n ->
  arr (fst (mergeInto Env lv SI SJ (ps, b))).
Proof.
  intros A LT LN. unfold mergeInto. destruct (intersects lv _ _) eqn:IE; [|exact A]. cbn [fst].
  apply intersects_iff in IE. destruct IE as (K0 & LK0 & K1 & K2).
  assert (LI : SI < n) by lia.
  pose proof (proj1 (a_loops ps A SI K0 LI LK0) K1) as (AI & R1 & G1 & A1 & L1).
  pose proof (proj1 (a_loops ps A SJ K0 LN LK0) K2) as (AJ & R2 & G2 & A2 & L2).
  assert (LINK : linked SJ SI).
  { eapply rt_trans; [exact (a_linked ps A SJ R2 LN G2)|].
    eapply rt_trans; [|apply linked_sym; exact (a_linked ps A SI R1 LI G1)].
    apply rt_step. repeat split; auto.
    - pose proof (a_le ps A SJ R2 LN G2). lia.
    - pose proof (a_le ps A SI R1 LI G1). lia.
    - exists K0. auto. }
  split.
  - intro P. unfold setLevel. destruct (Nat.eqb_spec P SJ) as [E|NE]; [subst; cbn|]; apply (a_same ps A).
  - intros P L. unfold setLevel. destruct (Nat.eqb_spec P SJ) as [E|NE]; [|apply (a_self ps A P L)].
    cbn [pGroup]. unfold orBits. subst P. now rewrite (a_self ps A SJ L).
  - intros P R L. unfold setLevel. destruct (Nat.eqb_spec P SJ) as [E|NE]; [|apply (a_le ps A P R L)].
    cbn [pGroup]. unfold orBits. subst P. intro H. apply orb_true_iff in H. destruct H as [H|H].
    + exact (a_le ps A SJ R L H).
    + pose proof (a_le ps A SI R LI H). lia.
  - intros P R L. unfold setLevel. destruct (Nat.eqb_spec P SJ) as [E|NE]; [|apply (a_linked ps A P R L)].
    cbn [pGroup]. unfold orBits. subst P. intro H. apply orb_true_iff in H. destruct H as [H|H].
    + exact (a_linked ps A SJ R L H).
    + eapply rt_trans; [exact LINK|]. exact (a_linked ps A SI R LI H).
  - intros P R L. unfold setLevel. destruct (Nat.eqb_spec P SJ) as [E|NE]; [|apply (a_active ps A P R L)].
    cbn [pGroup]. unfold orBits. subst P. intro H. apply orb_true_iff in H. destruct H as [H|H].
    + exact (a_active ps A SJ R L H).
    + destruct (a_active ps A SI R LI H) as [E|[X Y]]; [subst R|]; auto.
  - intros P K L LK. unfold setLevel. destruct (Nat.eqb_spec P SJ) as [E|NE]; [|apply (a_loops ps A P K L LK)].
    cbn [pGroup pGroupLoops]. unfold orBits. subst P. rewrite orb_true_iff.
    rewrite (a_loops ps A SJ K LN LK), (a_loops ps A SI K LI LK). split.
    + intros [(X & R & G & Y & Z)|(X & R & G & Y & Z)]; (split; [exact AJ|]); exists R; rewrite G; auto.
      split; [apply orb_true_r|auto].
    + intros (X & R & G & Y & Z). apply orb_true_iff in G. destruct G as [G|G]; [left|right]; (split; [assumption|]); exists R; auto.
Qed.
Lemma mergeInto_pair SI SJ ps b :
  mergeInto Env lv SI SJ (ps, b) = (fst (mergeInto Env lv SI SJ (ps, true)), b && snd (mergeInto Env lv SI SJ (ps, true))).
Proof. unfold mergeInto. destruct (intersects lv _ _); cbn; [now rewrite andb_false_r|now rewrite andb_true_r]. Qed.
Lemma merge_frame SI SJ ps b P : P <> SJ -> fst (mergeInto Env lv SI SJ (ps, b)) P = ps P.
Proof.
  intro N. unfold mergeInto. destruct (intersects lv _ _); [|reflexivity]. cbn [fst]. unfold setLevel.
  destruct (Nat.eqb_spec P SJ); [contradiction|reflexivity].
Qed.

(* the inner loop *)
Definition inner SI l st := fold_left (fun st SJ => mergeInto Env lv SI SJ st) l st.
Lemma inner_ok SI l : NoDup l -> (forall J, In J l -> SI < J < n) -> forall ps b, arr ps ->
  let r := inner SI l (ps, b) in
  arr (fst r) /\
  (forall P, ~ In P l -> fst r P = ps P) /\
  (forall J, In J l -> if intersects lv (pGroupLoops _ (ps SI)) (pGroupLoops _ (ps J))
      then (forall R, pGroup _ (fst r J) R = pGroup _ (ps J) R || pGroup _ (ps SI) R) /\
           (forall K, pGroupLoops _ (fst r J) K = pGroupLoops _ (ps J) K || pGroupLoops _ (ps SI) K)
      else fst r J = ps J) /\
  (snd r = true <-> b = true /\ forall J, In J l -> intersects lv (pGroupLoops _ (ps SI)) (pGroupLoops _ (ps J)) = false).
Proof.
  induction l as [|J l IH]; intros N R ps b A; cbv zeta; unfold inner; cbn [fold_left].
  - cbn [fst snd]. split; [exact A|]. split; [auto|]. split; [intros J []|]. split; [|tauto]. intro H. split; [exact H|]. intros J [].
  - inversion N as [|? ? N1 N2]; subst.
    destruct (R J (or_introl eq_refl)) as [R1 R2].
    pose proof (arr_merge SI J ps b A R1 R2) as A1.
    destruct (mergeInto Env lv SI J (ps, b)) as [ps1 b1] eqn:EM. cbn [fst] in A1.
    destruct (IH N2 (fun K I => R K (or_intror I)) ps1 b1 A1) as (B1 & B2 & B3 & B4).
    fold (inner SI l (ps1, b1)). set (r := inner SI l (ps1, b1)) in *.
    assert (FR : forall P, P <> J -> ps1 P = ps P).
    { intros P NP. pose proof (merge_frame SI J ps b P NP) as F. rewrite EM in F. exact F. }
    assert (SIJ : SI <> J) by lia.
    split; [exact B1|]. split; [|split].
    + intros P NI. rewrite B2 by (intro I; apply NI; now right). apply FR. intro E. apply NI. now left.
    + intros J' [E|I].
      * subst J'. rewrite (B2 J N1).
        unfold mergeInto in EM. destruct (intersects lv _ _) eqn:IE.
        -- injection EM as <- <-. unfold setLevel. rewrite Nat.eqb_refl. cbn [pGroup pGroupLoops]. split; reflexivity.
        -- injection EM as <- <-. reflexivity.
      * assert (NJ : J' <> J) by (intro E; subst; contradiction).
        specialize (B3 J' I). rewrite (FR SI SIJ), (FR J' NJ) in B3. exact B3.
    + rewrite B4. unfold mergeInto in EM. destruct (intersects lv (pGroupLoops _ (ps SI)) (pGroupLoops _ (ps J))) eqn:IE.
      * injection EM as E1 E2. split.
        -- intros [H _]. congruence.
        -- intros [_ H]. rewrite (H J (or_introl eq_refl)) in IE. discriminate.
      * injection EM as E1 E2. rewrite <- E1, <- E2. split; intros [H1 H2]; (split; [exact H1|]).
        -- intros J' [E|I]; [now subst|]. apply H2. exact I.
        -- intros J' I. apply H2. now right.
Qed.

(* the invariant of the outer loop: subscripts before [k] are done *)
Record inv (k : nat) (s : parts Env) : Prop := {
  i_arr : arr (ptPairs _ s);
  i_top_range : forall P, ptSep _ s P = true \/ ptCpl _ s P = true -> P < k /\ P < n /\ isLinear _ (ps0 P) = true;
  i_sep : forall P, ptSep _ s P = true -> forall R, R < n -> pGroup _ (ptPairs _ s P) R = Nat.eqb P R;
  i_cpl : forall P, ptCpl _ s P = true -> active P = true /\ ptSep _ s P = false /\ exists R, R <> P /\ pGroup _ (ptPairs _ s P) R = true;
  (* a top group shares no loops with anything after it *)
  i_closed : forall P J, ptSep _ s P = true \/ ptCpl _ s P = true -> P < J < n ->
     intersects lv (pGroupLoops _ (ptPairs _ s P)) (pGroupLoops _ (ptPairs _ s J)) = false;
  (* a subscript which is done is in a top group or in a group after it *)
  i_cover : forall P, P < k -> P < n -> isLinear _ (ps0 P) = true ->
     exists J, J < n /\ pGroup _ (ptPairs _ s J) P = true /\
       ((ptSep _ s J = true \/ ptCpl _ s J = true) \/ k <= J /\ active J = true) }.

Lemma count_one (b : bits) P : P < n -> b P = true -> (countBits n b = 1 <-> forall R, R < n -> b R = Nat.eqb P R).
Proof.
  intros L H. unfold countBits, setBits.
  assert (IP : In P (filter b (seq 0 n))) by (apply filter_In; split; [apply in_seq; lia|exact H]).
  split.
  - intros C R LR. destruct (filter b (seq 0 n)) as [|a [|? ?]] eqn:E; try discriminate.
    destruct IP as [->|[]].
    destruct (b R) eqn:BR.
    + assert (I : In R (filter b (seq 0 n))) by (apply filter_In; split; [apply in_seq; lia|exact BR]).
      rewrite E in I. destruct I as [->|[]]. symmetry. apply Nat.eqb_refl.
    + symmetry. apply Nat.eqb_neq. intro; subst. congruence.
  - intro F. assert (ND : NoDup (filter b (seq 0 n))) by (apply NoDup_filter, seq_NoDup).
    destruct (filter b (seq 0 n)) as [|a [|c l]] eqn:E; [destruct IP|reflexivity|].
    exfalso. assert (EQ : forall R, In R (filter b (seq 0 n)) -> R = P).
    { intros R I. apply filter_In in I. destruct I as [I1 I2]. apply in_seq in I1. rewrite F in I2 by lia.
      apply Nat.eqb_eq in I2. auto. }
    rewrite E in EQ. inversion ND as [|? ? X Y]; subst.
    apply X. rewrite (EQ a) by (cbn; auto). rewrite (EQ c) by (cbn; auto). left. reflexivity.
Qed.

Lemma active_linear P : active P = true -> isLinear _ (ps0 P) = true.
Proof. unfold active. intro H. apply andb_true_iff in H. apply H. Qed.
Lemma shares_group (ps : pairs Env) A P J : arr ps -> P < n -> J < n ->
  pGroup _ (ps P) A = true -> active A = true -> active P = true -> active J = true -> pGroup _ (ps J) A = true ->
  intersects lv (pGroupLoops _ (ps P)) (pGroupLoops _ (ps J)) = true.
Proof.
  intros X LP LJ GA AA AP AJ GJ. apply intersects_iff.
  assert (LA : A < n) by (pose proof (a_le ps X P A LP GA); lia).
  destruct (init_loops A LA AA) as [_ (K & LK & H)]. exists K. split; [exact LK|].
  split; apply (a_loops ps X); auto; (split; [assumption|]); exists A; auto.
Qed.

Lemma partStep_inv k s : k < n -> inv k s -> inv (S k) (partStep _ lv n k s).
Proof.
  intros LK V. destruct V as [VA VT VS VC VD VV].
  unfold partStep.
  assert (SAME : isLinear _ (ptPairs _ s k) = isLinear _ (ps0 k)).
  { unfold isLinear. destruct (a_same _ VA k) as (-> & _). reflexivity. }
  rewrite SAME. destruct (isLinear _ (ps0 k)) eqn:LIN; cbn [negb].
  2:{ (* non-linear *)
    split; auto.
    - intros P T. destruct (VT P T). split; [lia|assumption].
    - intros P LP LN LI. assert (P <> k) by (intro; subst; congruence).
      destruct (VV P ltac:(lia) LN LI) as (J & LJ & GJ & T). exists J. split; [exact LJ|]. split; [exact GJ|].
      destruct T as [T|[T1 T2]]; [left; exact T|right]. split; [|exact T2].
      assert (J <> k) by (intro; subst; apply active_linear in T2; congruence). lia. }
  destruct (a_same _ VA k) as (_ & CE & _). rewrite CE.
  assert (ZC : pCls _ (ps0 k) = ZIV \/ active k = true /\ pCls _ (ps0 k) <> ZIV).
  { unfold active. rewrite LIN. destruct (pCls _ (ps0 k)); auto; right; split; auto; discriminate. }
  destruct ZC as [ZC|[AK ZN]].
  { (* ZIV *)
    rewrite ZC. assert (AK : active k = false) by (unfold active; rewrite LIN, ZC; reflexivity).
    split; cbn [ptPairs ptSep ptCpl]; auto.
    - intros P T. unfold addBit, setLevel in T. destruct (Nat.eqb_spec P k) as [E|NE].
      + subst. auto.
      + destruct (VT P T). split; [lia|assumption].
    - intros P T R LR. unfold addBit, setLevel in T. destruct (Nat.eqb_spec P k) as [E|NE]; [|exact (VS P T R LR)].
      subst. destruct (Nat.eqb_spec k R) as [E|NE]; [subst; exact (a_self _ VA R LK)|].
      destruct (pGroup _ (ptPairs _ s k) R) eqn:G; [|reflexivity].
      destruct (a_active _ VA k R LK G) as [E|[E _]]; congruence.
    - intros P T. destruct (VC P T) as (A & B & C). split; [exact A|]. split; [|exact C].
      unfold addBit, setLevel. destruct (Nat.eqb_spec P k) as [E|NE]; [subst; congruence|exact B].
    - intros P J T R. unfold addBit, setLevel in T. destruct (Nat.eqb_spec P k) as [E|NE]; [|exact (VD P J T R)].
      subst. apply not_true_is_false. intro X. apply intersects_iff in X. destruct X as (K & LK' & X & _).
      apply (a_loops _ VA) in X; [|exact LK|exact LK']. destruct X as [X _]. congruence.
    - intros P LP LN LI. destruct (Nat.eq_dec P k) as [E|NE].
      + subst. exists k. split; [exact LK|]. split; [exact (a_self _ VA k LK)|]. left. left.
        unfold addBit, setLevel. now rewrite Nat.eqb_refl.
      + destruct (VV P ltac:(lia) LN LI) as (J & LJ & GJ & T). exists J. split; [exact LJ|]. split; [exact GJ|].
        destruct T as [[T|T]|[T1 T2]].
        * left. left. unfold addBit, setLevel. destruct (Nat.eqb J k); auto.
        * left. right. exact T.
        * right. split; [|exact T2]. assert (J <> k) by (intro; subst; congruence). lia. }
  (* a subscript with loops *)
  set (body := let '(ps, Done) := fold_left (fun st SJ => mergeInto Env lv k SJ st) (seq (S k) (n - S k)) (ptPairs _ s, true) in
    if Done then
      if Nat.eqb (countBits n (pGroup _ (ptPairs _ s k))) 1 then mkParts _ ps (addBit (ptSep _ s) k) (ptCpl _ s)
      else mkParts _ ps (ptSep _ s) (addBit (ptCpl _ s) k)
    else mkParts _ ps (ptSep _ s) (ptCpl _ s)).
  assert (GOAL : inv (S k) body); [|destruct (pCls _ (ps0 k)); [congruence|exact GOAL..]].
  unfold body. fold (inner k (seq (S k) (n - S k)) (ptPairs _ s, true)).
  assert (RNG : forall J, In J (seq (S k) (n - S k)) -> k < J < n) by (intros J I; apply in_seq in I; lia).
  destruct (inner_ok k _ (seq_NoDup _ _) RNG (ptPairs _ s) true VA) as (B1 & B2 & B3 & B4).
  destruct (inner k (seq (S k) (n - S k)) (ptPairs _ s, true)) as [ps Done]. cbn [fst snd] in *.
  assert (FR : forall P, P <= k -> ps P = ptPairs _ s P).
  { intros P LP. apply B2. intro I. apply in_seq in I. lia. }
  (* old top groups are closed still *)
  assert (CL : forall P J, ptSep _ s P = true \/ ptCpl _ s P = true -> P < J < n ->
     intersects lv (pGroupLoops _ (ps P)) (pGroupLoops _ (ps J)) = false).
  { intros P J T R. destruct (VT P T) as (LP & _). rewrite (FR P) by lia.
    destruct (Nat.leb_spec J k) as [LE|GT]; [rewrite (FR J) by lia; exact (VD P J T R)|].
    assert (IJ : In J (seq (S k) (n - S k))) by (apply in_seq; lia).
    specialize (B3 J IJ). destruct (intersects lv (pGroupLoops _ (ptPairs _ s k)) (pGroupLoops _ (ptPairs _ s J))) eqn:IE.
    - apply not_true_is_false. intro X. apply intersects_iff in X. destruct X as (K & LK' & X1 & X2).
      destruct B3 as [_ B3]. rewrite B3 in X2. apply orb_true_iff in X2. destruct X2 as [X2|X2].
      + pose proof (VD P J T R) as Y. assert (Z : intersects lv (pGroupLoops _ (ptPairs _ s P)) (pGroupLoops _ (ptPairs _ s J)) = true)
          by (apply intersects_iff; eauto). congruence.
      + pose proof (VD P k T ltac:(lia)) as Y. assert (Z : intersects lv (pGroupLoops _ (ptPairs _ s P)) (pGroupLoops _ (ptPairs _ s k)) = true)
          by (apply intersects_iff; eauto). congruence.
    - rewrite B3. exact (VD P J T R). }
  (* where the cover goes *)
  assert (COVER : forall P, P < S k -> P < n -> isLinear _ (ps0 P) = true ->
     exists J, J < n /\ pGroup _ (ps J) P = true /\
       ((ptSep _ s J = true \/ ptCpl _ s J = true) \/ k <= J /\ active J = true)).
  { intros P LP LN LI. destruct (Nat.eq_dec P k) as [E|NE].
    - subst. exists k. split; [exact LK|]. split; [exact (a_self _ B1 k LK)|]. right. auto.
    - destruct (VV P ltac:(lia) LN LI) as (J & LJ & GJ & T). exists J. split; [exact LJ|]. split; [|exact T].
      destruct (Nat.leb_spec J k) as [LE|GT]; [rewrite (FR J LE); exact GJ|].
      assert (IJ : In J (seq (S k) (n - S k))) by (apply in_seq; lia).
      specialize (B3 J IJ). destruct (intersects lv _ _); [|rewrite B3; exact GJ].
      destruct B3 as [B3 _]. rewrite B3, GJ. reflexivity. }
  destruct Done.
  - (* done *)
    assert (NOI : forall J, k < J < n -> intersects lv (pGroupLoops _ (ps k)) (pGroupLoops _ (ps J)) = false).
    { intros J R. assert (IJ : In J (seq (S k) (n - S k))) by (apply in_seq; lia).
      destruct (proj1 B4 eq_refl) as [_ B5]. specialize (B5 J IJ). specialize (B3 J IJ). rewrite B5 in B3.
      rewrite B3, (FR k) by lia. exact B5. }
    assert (SELF : pGroup _ (ptPairs _ s k) k = true) by exact (a_self _ VA k LK).
    assert (NOT : ptSep _ s k = false /\ ptCpl _ s k = false).
    { split; apply not_true_is_false; intro T.
      - destruct (VT k (or_introl T)). lia.
      - destruct (VT k (or_intror T)). lia. }
    destruct (Nat.eqb_spec (countBits n (pGroup _ (ptPairs _ s k))) 1) as [C1|C1].
    + split; cbn [ptPairs ptSep ptCpl]; auto.
      * intros P T. unfold addBit, setLevel in T. destruct (Nat.eqb_spec P k) as [E|NE]; [subst; auto|].
        destruct (VT P T). split; [lia|assumption].
      * intros P T R LR. unfold addBit, setLevel in T. destruct (Nat.eqb_spec P k) as [E|NE].
        -- subst. rewrite (FR k) by lia. exact (proj1 (count_one _ k LK SELF) C1 R LR).
        -- destruct (VT P (or_introl T)). rewrite (FR P) by lia. exact (VS P T R LR).
      * intros P T. destruct (VC P T) as (A & B & R & C). destruct (VT P (or_intror T)). split; [exact A|].
        split; [|exists R; rewrite (FR P) by lia; exact C].
        unfold addBit, setLevel. destruct (Nat.eqb_spec P k) as [E|NE]; [lia|exact B].
      * intros P J T R. unfold addBit, setLevel in T. destruct (Nat.eqb_spec P k) as [E|NE]; [subst; auto|auto].
      * intros P LP LN LI. destruct (COVER P LP LN LI) as (J & LJ & GJ & T). exists J. split; [exact LJ|]. split; [exact GJ|].
        destruct T as [[T|T]|[T1 T2]].
        -- left. left. unfold addBit, setLevel. destruct (Nat.eqb J k); auto.
        -- left. right. exact T.
        -- destruct (Nat.eq_dec J k) as [E|NE]; [left; left; subst; unfold addBit, setLevel; now rewrite Nat.eqb_refl|].
           right. split; [lia|exact T2].
    + split; cbn [ptPairs ptSep ptCpl]; auto.
      * intros P T. unfold addBit, setLevel in T. destruct (Nat.eqb_spec P k) as [E|NE]; [subst; auto|].
        destruct (VT P T). split; [lia|assumption].
      * intros P T R LR. destruct (VT P (or_introl T)). rewrite (FR P) by lia. exact (VS P T R LR).
      * intros P T. unfold addBit, setLevel in T. destruct (Nat.eqb_spec P k) as [E|NE].
        -- subst. split; [exact AK|]. split; [apply NOT|]. rewrite (FR k) by lia.
           destruct (existsb (fun R => pGroup _ (ptPairs _ s k) R && negb (Nat.eqb R k)) (seq 0 n)) eqn:X.
           ++ apply existsb_exists in X. destruct X as (R & _ & X). apply andb_true_iff in X. destruct X as [X1 X2].
              exists R. split; [|exact X1]. apply negb_true_iff, Nat.eqb_neq in X2. exact X2.
           ++ exfalso. apply C1. apply (count_one _ k LK SELF). intros R LR.
              destruct (Nat.eqb_spec k R) as [E|NE]; [subst; exact SELF|].
              destruct (pGroup _ (ptPairs _ s k) R) eqn:G; [|reflexivity].
              assert (Y : existsb (fun R => pGroup _ (ptPairs _ s k) R && negb (Nat.eqb R k)) (seq 0 n) = true).
              { apply existsb_exists. exists R. split; [apply in_seq; lia|]. rewrite G. cbn.
                apply negb_true_iff, Nat.eqb_neq. auto. }
              congruence.
        -- destruct (VC P T) as (A & B & R & C). destruct (VT P (or_intror T)). split; [exact A|].
           split; [exact B|]. exists R. rewrite (FR P) by lia. exact C.
      * intros P J T R. unfold addBit, setLevel in T. destruct (Nat.eqb_spec P k) as [E|NE]; [subst; auto|auto].
      * intros P LP LN LI. destruct (COVER P LP LN LI) as (J & LJ & GJ & T). exists J. split; [exact LJ|]. split; [exact GJ|].
        destruct T as [[T|T]|[T1 T2]].
        -- left. left. exact T.
        -- left. right. unfold addBit, setLevel. destruct (Nat.eqb J k); auto.
        -- destruct (Nat.eq_dec J k) as [E|NE]; [left; right; subst; unfold addBit, setLevel; now rewrite Nat.eqb_refl|].
           right. split; [lia|exact T2].
  - (* merged into another subscript *)
    split; cbn [ptPairs ptSep ptCpl]; auto.
    + intros P T. destruct (VT P T). split; [lia|assumption].
    + intros P T R LR. destruct (VT P (or_introl T)). rewrite (FR P) by lia. exact (VS P T R LR).
    + intros P T. destruct (VC P T) as (A & B & R & C). destruct (VT P (or_intror T)). split; [exact A|].
      split; [exact B|]. exists R. rewrite (FR P) by lia. exact C.
    + intros P LP LN LI. destruct (COVER P LP LN LI) as (J & LJ & GJ & T).
      destruct T as [T|[T1 T2]]; [exists J; auto|].
      destruct (Nat.eq_dec J k) as [E|NE]; [|exists J; split; [exact LJ|]; split; [exact GJ|]; right; split; [lia|exact T2]].
      subst J. assert (X : exists J, In J (seq (S k) (n - S k)) /\
         intersects lv (pGroupLoops _ (ptPairs _ s k)) (pGroupLoops _ (ptPairs _ s J)) = true).
      { destruct (existsb (fun J => intersects lv (pGroupLoops _ (ptPairs _ s k)) (pGroupLoops _ (ptPairs _ s J))) (seq (S k) (n - S k))) eqn:X.
        - apply existsb_exists in X. exact X.
        - exfalso. assert (F : false = true); [|discriminate]. apply B4. split; [reflexivity|]. intros J I.
          apply not_true_is_false. intro Y.
          assert (Z : existsb (fun J => intersects lv (pGroupLoops _ (ptPairs _ s k)) (pGroupLoops _ (ptPairs _ s J))) (seq (S k) (n - S k)) = true)
            by (apply existsb_exists; exists J; auto). congruence. }
      destruct X as (J & IJ & X). specialize (B3 J IJ). rewrite X in B3. destruct B3 as [B3 _].
      apply RNG in IJ. exists J. split; [lia|]. split.
      * rewrite B3. rewrite (FR k) in GJ by lia. rewrite GJ. apply orb_true_r.
      * right. split; [lia|]. apply intersects_iff in X. destruct X as (K & LK' & _ & X).
        apply (a_loops _ VA) in X; [apply X|lia|exact LK'].
Qed.

Lemma partition_inv : inv n (partition _ lv n ps0).
Proof.
  unfold partition.
  assert (H : forall k, k <= n -> inv k (fold_left (fun s SI => partStep _ lv n SI s) (seq 0 k) (mkParts _ ps0 noBits noBits))).
  { induction k as [|k IH]; intro L.
    - cbn. split; cbn [ptPairs ptSep ptCpl].
      + exact arr0.
      + intros P [T|T]; discriminate.
      + discriminate.
      + discriminate.
      + intros P J [T|T]; discriminate.
      + intros P LP. lia.
    - rewrite seq_S, fold_left_app. cbn [fold_left plus]. apply partStep_inv; [lia|]. apply IH. lia. }
  apply H. lia.
Qed.

Definition isTop (s : parts Env) (P : nat) : Prop := ptSep _ s P = true \/ ptCpl _ s P = true.

Theorem partition_spec :
  let pt := partition _ lv n ps0 in
  (forall P, P < n -> isLinear _ (ps0 P) = true ->
     exists SI, isTop pt SI /\ pGroup _ (ptPairs _ pt SI) P = true /\
       forall SI', isTop pt SI' -> pGroup _ (ptPairs _ pt SI') P = true -> SI' = SI) /\
  (forall SI P, isTop pt SI -> (pGroup _ (ptPairs _ pt SI) P = true <-> linked SI P)) /\
  (forall SI, isTop pt SI -> SI < n /\ isLinear _ (ps0 SI) = true) /\
  (forall SI, ptSep _ pt SI = true -> ptCpl _ pt SI = false /\ forall P, pGroup _ (ptPairs _ pt SI) P = true -> P = SI) /\
  (forall SI, ptCpl _ pt SI = true -> exists P, P <> SI /\ pGroup _ (ptPairs _ pt SI) P = true) /\
  (forall P, pSub _ (ptPairs _ pt P) = pSub _ (ps0 P) /\ pCls _ (ptPairs _ pt P) = pCls _ (ps0 P) /\
     pLoops _ (ptPairs _ pt P) = pLoops _ (ps0 P)).
Proof.
  cbv zeta. pose proof partition_inv as V. set (pt := partition _ lv n ps0) in *.
  destruct V as [VA VT VS VC VD VV].
  assert (TL : forall SI, isTop pt SI -> SI < n) by (intros SI T; destruct (VT SI T); lia).
  (* a member of a top group with loops makes the top a subscript with loops *)
  assert (TOP_ACT : forall SI P, isTop pt SI -> pGroup _ (ptPairs _ pt SI) P = true -> active P = true -> active SI = true).
  { intros SI P T G A. destruct (a_active _ VA SI P (TL SI T) G) as [E|[X _]]; [subst|]; assumption. }
  assert (DISJ : forall SI SI', isTop pt SI -> isTop pt SI' -> SI <> SI' ->
     intersects lv (pGroupLoops _ (ptPairs _ pt SI)) (pGroupLoops _ (ptPairs _ pt SI')) = false).
  { intros SI SI' T T' NE. destruct (Nat.lt_ge_cases SI SI') as [LT|GE].
    - apply (VD SI SI' T). split; [exact LT|]. apply TL; exact T'.
    - apply not_true_is_false. intro X. apply intersects_iff in X. destruct X as (K & LK & X1 & X2).
      assert (Y : intersects lv (pGroupLoops _ (ptPairs _ pt SI')) (pGroupLoops _ (ptPairs _ pt SI)) = true)
        by (apply intersects_iff; eauto).
      rewrite (VD SI' SI T') in Y; [discriminate|]. split; [lia|]. apply TL; exact T. }
  assert (UNIQ : forall P SI SI', isTop pt SI -> isTop pt SI' -> pGroup _ (ptPairs _ pt SI) P = true ->
     pGroup _ (ptPairs _ pt SI') P = true -> SI' = SI).
  { intros P SI SI' T T' G G'. destruct (Nat.eq_dec SI' SI) as [E|NE]; [exact E|exfalso].
    destruct (active P) eqn:AP.
    - pose proof (shares_group (ptPairs _ pt) P SI SI' VA (TL _ T) (TL _ T') G AP (TOP_ACT _ _ T G AP) (TOP_ACT _ _ T' G' AP) G') as X.
      rewrite (DISJ SI SI' T T') in X; [discriminate|auto].
    - destruct (a_active _ VA SI P (TL _ T) G) as [E|[_ E]]; [|congruence].
      destruct (a_active _ VA SI' P (TL _ T') G') as [E'|[_ E']]; [|congruence]. congruence. }
  assert (COV : forall P, P < n -> isLinear _ (ps0 P) = true -> exists SI, isTop pt SI /\ pGroup _ (ptPairs _ pt SI) P = true).
  { intros P LP LI. destruct (VV P LP LP LI) as (J & LJ & GJ & [T|[T _]]); [exists J; split; [exact T|exact GJ]|lia]. }
  assert (COMP : forall SI P R, isTop pt SI -> pGroup _ (ptPairs _ pt SI) P = true -> shares P R -> pGroup _ (ptPairs _ pt SI) R = true).
  { intros SI P R T G (LP & LR & AP & AR & K & LK & K1 & K2).
    destruct (COV R LR (active_linear R AR)) as (SI' & T' & G').
    destruct (Nat.eq_dec SI' SI) as [E|NE]; [subst; exact G'|exfalso].
    assert (X : intersects lv (pGroupLoops _ (ptPairs _ pt SI)) (pGroupLoops _ (ptPairs _ pt SI')) = true).
    { apply intersects_iff. exists K. split; [exact LK|]. split; apply (a_loops _ VA); auto.
      - split; [exact (TOP_ACT _ _ T G AP)|]. exists P. auto.
      - split; [exact (TOP_ACT _ _ T' G' AR)|]. exists R. auto. }
    rewrite (DISJ SI SI' T T') in X; [discriminate|auto]. }
  split; [|split; [|split; [|split; [|split]]]].
  - intros P LP LI. destruct (COV P LP LI) as (SI & T & G). exists SI. split; [exact T|]. split; [exact G|].
    intros SI' T' G'. exact (UNIQ P SI SI' T T' G G').
  - intros SI P T. split; [intro G; exact (a_linked _ VA SI P (TL _ T) G)|].
    intro LK. assert (H : forall A B, linked A B -> pGroup _ (ptPairs _ pt SI) A = true -> pGroup _ (ptPairs _ pt SI) B = true).
    { intros A B L. induction L; auto. intro G. eapply COMP; eauto. }
    apply (H SI P LK). exact (a_self _ VA SI (TL _ T)).
  - intros SI T. destruct (VT SI T) as (_ & A & B). auto.
  - intros SI T. split.
    + apply not_true_is_false. intro C. destruct (VC SI C) as (_ & B & _). congruence.
    + intros P G. assert (LP : P < n) by (pose proof (a_le _ VA SI P (TL _ (or_introl T)) G); pose proof (TL SI (or_introl T)); lia).
      rewrite (VS SI T P LP) in G. apply Nat.eqb_eq in G. auto.
  - intros SI T. destruct (VC SI T) as (_ & _ & R & C). exists R. exact C.
  - exact (a_same _ VA).
Qed.
End P.
