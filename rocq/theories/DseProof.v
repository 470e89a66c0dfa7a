(** Proofs about removal of stores. *)
From Coq Require Import PeanoNat Bool List Lia Permutation.
From Verif Require Import DseModel DseSpec.
Import ListNotations.

(** Sets with stores only. *)
Definition okFor (A : analysis) (s : nat) (i : instr) : Prop :=
  match i with
  | Load a _ => setOf A a <> s
  | Store _ a _ => setOf A a = s -> isPlainAlloca A a = true
  | Unknown c => ~ In s (touches A c)
  | _ => True
  end.
Definition Inv (A : analysis) (pre : list instr) (os : onlyStores) : Prop :=
  forall s L, In (s, L) os ->
    (forall i, In i pre -> okFor A s i) /\
    (forall pc, In pc L -> exists vol a v, nth_error pre pc = Some (Store vol a v) /\
       isPlainAlloca A a = true /\ setOf A a = s).
Lemma eraseSet_In s x os : In x (eraseSet s os) <-> In x os /\ fst x <> s.
Proof.
  unfold eraseSet. rewrite filter_In, negb_true_iff, Nat.eqb_neq. reflexivity.
Qed.
Lemma eraseAll_In ss x os : In x (fold_right eraseSet os ss) <-> In x os /\ ~ In (fst x) ss.
Proof.
  induction ss as [|s ss IH]; cbn [fold_right In].
  - tauto.
  - rewrite eraseSet_In, IH. intuition congruence.
Qed.
Lemma Inv_weak A pre i os : Inv A pre os -> (forall s L, In (s, L) os -> okFor A s i) ->
  Inv A (pre ++ [i]) os.
Proof.
  intros H K s L IL. destruct (H s L IL) as [H1 H2]. split.
  - intros x IX. apply in_app_or in IX. destruct IX as [IX|[<-|[]]]; [exact (H1 x IX)|exact (K s L IL)].
  - intros pc IP. destruct (H2 pc IP) as (vol & a & v & E & R). exists vol, a, v.
    split; [|exact R]. rewrite nth_error_app1; [exact E|]. apply nth_error_Some. congruence.
Qed.
Lemma visitInstr_Inv A pre i os : Inv A pre os ->
  Inv A (pre ++ [i]) (visitInstr A (length pre) i os).
Proof.
  intro H. destruct i as [vol a v|a r|c|c| |]; cbn [visitInstr];
    try (apply Inv_weak; [exact H|intros; exact I]).
  - destruct (isPlainAlloca A a) eqn:PA; cbn [negb].
    + intros s L IL. unfold pushStore in IL. apply in_map_iff in IL.
      destruct IL as ([s0 L0] & E & IL). cbn [fst snd] in E.
      assert (X : s0 = s) by (destruct (Nat.eqb s0 (setOf A a)); congruence). subst s0.
      assert (K : Inv A (pre ++ [Store vol a v]) [(s, L0)]).
      { apply Inv_weak.
        - intros s1 L1 [Q|[]]. injection Q as <- <-. exact (H _ _ IL).
        - intros s1 L1 _ _. exact PA. }
      destruct (K s L0 (or_introl eq_refl)) as [K1 K2]. split; [exact K1|].
      intros pc IP. destruct (Nat.eqb_spec s (setOf A a)) as [ES|ES].
      * injection E as <-. destruct IP as [<-|IP]; [|exact (K2 pc IP)].
        exists vol, a, v. split; [|auto]. rewrite nth_error_app2, Nat.sub_diag by lia. reflexivity.
      * injection E as <-. exact (K2 pc IP).
    + apply Inv_weak.
      * intros s L IL. apply eraseSet_In in IL. exact (H s L (proj1 IL)).
      * intros s L IL. apply eraseSet_In in IL. cbn [fst] in IL. cbn [okFor]. intro E.
        destruct IL as [_ IL]. congruence.
  - apply Inv_weak.
    + intros s L IL. apply eraseSet_In in IL. exact (H s L (proj1 IL)).
    + intros s L IL. apply eraseSet_In in IL. cbn [fst] in IL. cbn [okFor]. intro E.
      destruct IL as [_ IL]. congruence.
  - apply Inv_weak.
    + intros s L IL. apply eraseAll_In in IL. exact (H s L (proj1 IL)).
    + intros s L IL. apply eraseAll_In in IL. cbn [fst] in IL. exact (proj2 IL).
Qed.
Lemma visitAll_Inv A is : forall pre os, Inv A pre os ->
  Inv A (pre ++ is) (visitAll A (length pre) is os).
Proof.
  induction is as [|i is IH]; intros pre os H; cbn [visitAll].
  - now rewrite app_nil_r.
  - specialize (IH _ _ (visitInstr_Inv A pre i os H)).
    rewrite app_length in IH. cbn [length] in IH. rewrite Nat.add_1_r in IH.
    now rewrite <- app_assoc in IH.
Qed.
Lemma findStores_Inv A is : Inv A is (findStores A is).
Proof.
  apply (visitAll_Inv A is []). intros s L IL. apply in_map_iff in IL.
  destruct IL as (s0 & E & _). injection E as <- <-. split; intros ? [].
Qed.

Lemma has_In x l : has x l = true <-> In x l.
Proof.
  unfold has. rewrite existsb_exists. split.
  - intros (y & IY & E). apply Nat.eqb_eq in E. now subst.
  - intro IX. exists x. split; [exact IX|apply Nat.eqb_refl].
Qed.
Lemma has_out x l : has x l = false <-> ~ In x l.
Proof. rewrite <- has_In. now destruct (has x l). Qed.
Lemma nth_removeAt dead is : forall pc k,
  nth k (removeAt dead pc is) Ret
  = if has (pc + k) dead && (k <? length is) then Nop else nth k is Ret.
Proof.
  induction is as [|i is IH]; intros pc k.
  - cbn [removeAt length]. destruct k; now rewrite andb_false_r.
  - cbn [removeAt]. destruct k as [|k]; cbn [nth length].
    + rewrite Nat.add_0_r. cbn. fold (has pc dead). now rewrite andb_true_r.
    + rewrite IH. replace (S pc + k) with (pc + S k) by lia. reflexivity.
Qed.

Section Same.
Variables (m : machine) (A : analysis) (is : list instr).
Hypothesis right : rightAnalysis m A.
Hypothesis noVolatile : forall a v, In (Store true a v) is -> isPlainAlloca A a = false.

Definition kept (s : nat) : Prop := forall L, ~ In (s, L) (findStores A is).
Lemma kept_dec s : kept s \/ exists L, In (s, L) (findStores A is).
Proof.
  unfold kept. induction (findStores A is) as [|[s0 L0] os IH].
  - left. intros L [].
  - destruct IH as [IH|(L & IH)].
    + destruct (Nat.eq_dec s0 s) as [->|N].
      * right. exists L0. now left.
      * left. intros L [E|IL]; [congruence|exact (IH L IL)].
    + right. exists L. now right.
Qed.
Lemma dead_store pc : In pc (toRemove A is) -> exists a v s L,
  nth_error is pc = Some (Store false a v) /\ isPlainAlloca A a = true /\
  setOf A a = s /\ In (s, L) (findStores A is).
Proof.
  intro H. unfold toRemove in H. apply in_flat_map in H. destruct H as ([s L] & IL & IP).
  destruct (findStores_Inv A is s L IL) as [_ H]. destruct (H pc IP) as (vol & a & v & E & PA & ES).
  exists a, v, s, L. destruct vol; [|auto].
  rewrite (noVolatile a v) in PA; [discriminate|]. exact (nth_error_In _ _ E).
Qed.
Lemma alive pc : ~ In pc (toRemove A is) \/ In pc (toRemove A is).
Proof. destruct (has pc (toRemove A is)) eqn:E; [right; now apply has_In|left; now apply has_out]. Qed.

Lemma instr_ok i s L : In i is \/ i = Ret -> In (s, L) (findStores A is) -> okFor A s i.
Proof.
  intros [H| ->] IL; [|exact I]. exact (proj1 (findStores_Inv A is s L IL) i H).
Qed.

Lemma same_steps n (c : config m) :
  let c1 := steps m is n c in
  let c2 := steps m (eliminate A is) n c in
  cPc c1 = cPc c2 /\ cRegs c1 = cRegs c2 /\ cEvents c1 = cEvents c2 /\ cDone c1 = cDone c2 /\
  forall l, ~ isLocal m l -> cMem c1 l = cMem c2 l.
Proof.
  destruct right as (region & R1 & R2 & R3 & R4).
  set (agree := fun M1 M2 : Loc m -> Val m =>
    forall l, ~ isLocal m l \/ (forall s, region l = Some s -> kept s) -> M1 l = M2 l).
  enough (K : let c1 := steps m is n c in let c2 := steps m (eliminate A is) n c in
    cPc c1 = cPc c2 /\ cRegs c1 = cRegs c2 /\ cEvents c1 = cEvents c2 /\ cDone c1 = cDone c2 /\
    agree (cMem c1) (cMem c2)).
  { cbv zeta in *. destruct K as (K1 & K2 & K3 & K4 & K5). repeat split; try assumption.
    intros l NL. apply K5. now left. }
  induction n as [|n IH]; cbv zeta in *; cbn [steps].
  - repeat split; reflexivity.
  - destruct IH as (E1 & E2 & E3 & E4 & AG).
    set (c1 := steps m is n c) in *. set (c2 := steps m (eliminate A is) n c) in *.
    destruct c1 as [pc r1 M1 ev1 d1], c2 as [pc2 r2 M2 ev2 d2]. cbn [cPc cRegs cMem cEvents cDone] in *.
    subst pc2 r2 ev2 d2. unfold step. cbn [cPc cRegs cMem cEvents cDone].
    destruct d1; [repeat split; exact AG|].
    unfold eliminate. rewrite nth_removeAt. cbn [Nat.add].
    destruct (alive pc) as [AL|DE].
    + apply has_out in AL. rewrite AL. cbn [andb].
      assert (IN : In (nth pc is Ret) is \/ nth pc is Ret = Ret).
      { destruct (Nat.lt_ge_cases pc (length is)) as [LT|GE].
        - left. now apply nth_In.
        - right. now apply nth_overflow. }
      destruct (nth pc is Ret) as [vol a v|a r|u|o| |]; cbn [cPc cRegs cMem cEvents cDone];
        try (repeat split; exact AG).
      * repeat split. intros l HL. unfold write. destruct (locDec m (addrOf m a r1) l); [reflexivity|].
        exact (AG l HL).
      * assert (ML : M1 (addrOf m a r1) = M2 (addrOf m a r1)).
        { apply AG. right. intros s E L IL. rewrite R1 in E. injection E as E.
          exact (instr_ok _ _ _ IN IL E). }
        rewrite ML. repeat split. exact AG.
      * destruct (R2 u r1 M1 M2) as [S1 S2].
        { intros l HL. apply AG. right. intros s E L IL.
          exact (instr_ok _ _ _ IN IL (HL s E)). }
        destruct (onUnknown m u r1 M1) as [r1' M1'] eqn:U1,
                 (onUnknown m u r1 M2) as [r2' M2'] eqn:U2.
        cbn [fst snd] in S1, S2. subst r2'. cbn [cPc cRegs cMem cEvents cDone]. repeat split.
        intros l HL.
        assert (T : (forall s, region l = Some s -> In s (touches A u)) \/
                    exists s, region l = Some s /\ ~ In s (touches A u)).
        { destruct (region l) as [s|]; [|left; discriminate].
          destruct (in_dec Nat.eq_dec s (touches A u)) as [IT|NT]; [left; congruence|right; eauto]. }
        destruct T as [T|(s & T1 & T2)]; [exact (S2 l T)|].
        pose proof (R3 u r1 M1 l s T1 T2) as Q1. pose proof (R3 u r1 M2 l s T1 T2) as Q2.
        rewrite U1 in Q1. rewrite U2 in Q2. cbn [snd] in Q1, Q2. rewrite Q1, Q2. exact (AG l HL).
    + destruct (dead_store pc DE) as (a & v & s & L & NE & PA & ES & IL).
      apply has_In in DE. rewrite DE.
      assert (LT : pc < length is) by (apply nth_error_Some; congruence).
      apply Nat.ltb_lt in LT. rewrite LT. cbn [andb].
      rewrite (nth_error_nth _ _ Ret NE). cbn [cPc cRegs cMem cEvents cDone]. repeat split.
      intros l HL. unfold write. destruct (locDec m (addrOf m a r1) l) as [<-|_]; [|exact (AG l HL)].
      exfalso. destruct HL as [HL|HL].
      * exact (HL (R4 a r1 PA)).
      * rewrite R1 in HL. apply (HL _ eq_refl L). now rewrite ES.
Qed.
End Same.

(** Operands. *)
Lemma without_In x y l : In y (without x l) <-> In y l /\ y <> x.
Proof. unfold without. rewrite filter_In, negb_true_iff, Nat.eqb_neq. reflexivity. Qed.
Lemma without_NoDup x l : NoDup l -> NoDup (without x l).
Proof. apply NoDup_filter. Qed.
Lemma without_length x l : NoDup l -> In x l -> length (without x l) < length l.
Proof.
  intros N IX. assert (H : length (x :: without x l) <= length l).
  { apply NoDup_incl_length.
    - constructor; [|now apply without_NoDup]. rewrite without_In. tauto.
    - intros y [<-|IY]; [exact IX|]. apply without_In in IY. tauto. }
  cbn in H. lia.
Qed.
Lemma hasUses_true G live x : hasUses G live x = true <-> exists y, In y live /\ In x (ops G y).
Proof.
  unfold hasUses. rewrite existsb_exists. split; intros (y & IY & H); exists y; split; auto;
    now apply has_In.
Qed.
Lemma pushOps_ok G os : forall W V W' V', pushOps G os (W, V) = (W', V') ->
  NoDup W -> (forall y, In y V <-> In y W) ->
  NoDup W' /\ (forall y, In y V' <-> In y W') /\ (forall y, In y W -> In y W') /\
  (forall y, In y os -> inMem G y = false -> In y W') /\
  (forall y, In y W' -> In y W \/ (In y os /\ inMem G y = false)).
Proof.
  induction os as [|x os IH]; intros W V W' V' H N VW; cbn [pushOps] in H.
  - injection H as <- <-. repeat split; auto; try apply VW; intros ? [].
  - destruct (negb (inMem G x) && negb (has x V)) eqn:C.
    + apply andb_true_iff in C. destruct C as [C1 C2]. apply negb_true_iff in C1, C2.
      apply has_out in C2. rewrite VW in C2.
      destruct (IH _ _ _ _ H) as (H1 & H2 & H3 & H4 & H5).
      * now constructor.
      * intro y. cbn [In]. now rewrite VW.
      * repeat split; try assumption; try apply H2.
        -- intros y IY. apply H3. now right.
        -- intros y [<-|IY] M; [apply H3; now left|now apply H4].
        -- intros y IY. destruct (H5 y IY) as [[<-|Q]|[Q1 Q2]]; auto.
           ++ right. split; [now left|exact C1].
           ++ right. split; [now right|exact Q2].
    + destruct (IH _ _ _ _ H N VW) as (H1 & H2 & H3 & H4 & H5).
      repeat split; try assumption; try apply H2.
      * intros y [<-|IY] M; [|now apply H4]. rewrite M in C. cbn [negb andb] in C.
        apply negb_false_iff in C. apply has_In in C. apply H3. now apply VW.
      * intros y IY. destruct (H5 y IY) as [Q|[Q1 Q2]]; auto. right. split; [now right|exact Q2].
Qed.

Section Operands.
Variables (G : graph) (live0 : list nat) (x0 : nat).
Record ok (s : state) : Prop := Ok {
  k_live : NoDup (sLive s);
  k_closed : closed G (sLive s);
  k_work : NoDup (sWork s);
  k_workLive : forall y, In y (sWork s) -> In y (sLive s) /\ inMem G y = false;
  k_visited : forall y, In y (sVisited s) <-> In y (sWork s);
  k_usesND : NoDup (sUses s);
  k_uses : forall y, In y (sUses s) -> In y (sLive s) /\ inMem G y = false;
  k_sub : forall y, In y (sLive s) -> In y live0 /\ y <> x0;
  k_gone : forall y, In y live0 -> ~ In y (sLive s) -> y = x0 \/ inMem G y = false;
  k_track : forall y z, In y live0 -> ~ In y (sLive s) -> In z (ops G y) -> inMem G z = false ->
    In z (sLive s) -> In z (sWork s) \/ In z (sUses s);
  k_quiet : sChanged s = false -> forall y, In y (sUses s) -> ~ In y (sWork s) ->
    hasUses G (sLive s) y = true
}.

Lemma pop_ok s x W : ok s -> sWork s = x :: W -> ok (pop G s).
Proof.
  intros [K1 K2 K3 K4 K5 K6 K7 K8 K9 K10 K11] E. unfold pop. rewrite E.
  rewrite E in K3, K4, K5, K10, K11. inversion K3 as [|? ? NX NW]; subst.
  assert (VW : forall y, In y (without x (sVisited s)) <-> In y W).
  { intro y. rewrite without_In, K5. cbn [In]. split.
    - intros [[Q|Q] N]; [congruence|exact Q].
    - intro Q. split; [now right|]. intros ->. exact (NX Q). }
  destruct (K4 x (or_introl eq_refl)) as [XL XM].
  destruct (hasUses G (sLive s) x) eqn:U.
  - constructor; cbn [sLive sWork sVisited sUses sChanged]; auto.
    + intros y IY. apply K4. now right.
    + constructor; [rewrite without_In; tauto|now apply without_NoDup].
    + intros y [<-|IY]; [auto|]. apply without_In in IY. now apply K7.
    + intros y z IY NY IZ M LZ. destruct (K10 y z IY NY IZ M LZ) as [[->|Q]|Q]; auto.
      * right. now left.
      * right. destruct (Nat.eq_dec z x) as [->|N]; [now left|right; rewrite without_In; auto].
    + intros C y [<-|IY] NI; [exact U|]. apply without_In in IY. destruct IY as [IY N].
      apply (K11 C y IY). intros [Q|Q]; [congruence|exact (NI Q)].
  - assert (UX : forall y, In y (sLive s) -> ~ In x (ops G y)).
    { intros y IY Q. assert (X : hasUses G (sLive s) x = true) by (apply hasUses_true; eauto).
      congruence. }
    destruct (pushOps G (ops G x) (W, without x (sVisited s))) as [W' V'] eqn:P.
    destruct (pushOps_ok _ _ _ _ _ _ P NW VW) as (P1 & P2 & P3 & P4 & P5).
    constructor; cbn [sLive sWork sVisited sUses sChanged]; auto; try now apply without_NoDup.
    + intros y z IY IZ. apply without_In in IY. destruct IY as [IY NY]. apply without_In.
      split; [exact (K2 y z IY IZ)|]. intros ->. exact (UX y IY IZ).
    + intros y IY. rewrite without_In. destruct (P5 y IY) as [Q|[Q1 Q2]].
      * destruct (K4 y (or_intror Q)) as [L M]. split; [split; [exact L|]|exact M].
        intros ->. exact (NX Q).
      * split; [|exact Q2]. split; [exact (K2 x y XL Q1)|]. intros ->. exact (UX x XL Q1).
    + intros y IY. apply without_In in IY. destruct IY as [IY NY]. rewrite without_In.
      destruct (K7 y IY). auto.
    + intros y IY. apply without_In in IY. now apply K8.
    + intros y IY NY. destruct (Nat.eq_dec y x) as [->|N]; [now right|].
      apply (K9 y IY). intro Q. apply NY. rewrite without_In. auto.
    + intros y z IY NY IZ M LZ. apply without_In in LZ. destruct LZ as [LZ NZ].
      destruct (Nat.eq_dec y x) as [->|N]; [left; exact (P4 z IZ M)|].
      assert (NY' : ~ In y (sLive s)) by (intro Q; apply NY; rewrite without_In; auto).
      destruct (K10 y z IY NY' IZ M LZ) as [[Q|Q]|Q]; [congruence|left; exact (P3 z Q)|].
      right. rewrite without_In. auto.
    + discriminate.
Qed.

Definition size (s : state) : nat := length (sLive s) * S (length (sLive s)) + length (sWork s).
Lemma work_le s : ok s -> length (sWork s) <= length (sLive s).
Proof.
  intro K. apply NoDup_incl_length; [apply (k_work s K)|]. intros y IY. now apply (k_workLive s K).
Qed.
Lemma pop_live s x W : ok s -> sWork s = x :: W ->
  (sLive (pop G s) = sLive s /\ sWork (pop G s) = W /\ sChanged (pop G s) = sChanged s) \/
  (length (sLive (pop G s)) < length (sLive s) /\ sChanged (pop G s) = true).
Proof.
  intros K E. unfold pop. rewrite E. destruct (hasUses G (sLive s) x).
  - left. repeat split.
  - right. destruct (pushOps G (ops G x) (W, without x (sVisited s))) as [W' V'].
    cbn [sLive sChanged]. split; [|reflexivity]. apply without_length; [apply (k_live s K)|].
    apply (k_workLive s K). rewrite E. now left.
Qed.
Lemma pop_size s x W : ok s -> sWork s = x :: W -> size (pop G s) < size s.
Proof.
  intros K E. pose proof (work_le _ (pop_ok s x W K E)) as WL. unfold size.
  destruct (pop_live s x W K E) as [(L & WW & _)|(L & _)].
  - rewrite L, WW, E. cbn [length]. lia.
  - set (a := length (sLive (pop G s))) in *. set (b := length (sLive s)) in *.
    set (w := length (sWork (pop G s))) in *.
    assert (H : a * S a + w <= a * S a + a) by lia.
    assert (H2 : a * S a + a < S a * S (S a)) by (cbn; lia).
    assert (H3 : S a * S (S a) <= b * S b) by (apply Nat.mul_le_mono; lia).
    lia.
Qed.
Lemma inner_total fuel : forall s, ok s -> size s <= fuel -> exists s', inner fuel G s = Some s'.
Proof.
  induction fuel as [|fuel IH]; intros s K H.
  - unfold size in H. cbn [inner]. destruct (sWork s); [eauto|cbn in H; lia].
  - cbn [inner]. destruct (sWork s) as [|x W] eqn:E; [eauto|].
    apply IH; [exact (pop_ok s x W K E)|]. pose proof (pop_size s x W K E). lia.
Qed.
Lemma inner_ok fuel : forall s s', ok s -> inner fuel G s = Some s' ->
  ok s' /\ sWork s' = [] /\ length (sLive s') <= length (sLive s) /\
  (sChanged s' = true -> sChanged s = true \/ length (sLive s') < length (sLive s)).
Proof.
  induction fuel as [|fuel IH]; intros s s' K H; cbn [inner] in H;
    destruct (sWork s) as [|x W] eqn:E; try discriminate H.
  - injection H as <-. auto.
  - injection H as <-. auto.
  - destruct (IH _ _ (pop_ok s x W K E) H) as (K' & W' & L & C). split; [exact K'|].
    split; [exact W'|]. destruct (pop_live s x W K E) as [(PL & _ & PC)|(PL & PC)].
    + rewrite PL in L, C. split; [exact L|]. intro Q. destruct (C Q); [left; congruence|now right].
    + split; [lia|]. intros _. right. lia.
Qed.
Lemma restart order s : someOrder order -> ok s -> sWork s = [] ->
  ok (State (sLive s) (rev (order (sUses s))) (sUses s) (sUses s) false).
Proof.
  intros O [K1 K2 K3 K4 K5 K6 K7 K8 K9 K10 K11] E.
  assert (P : forall y, In y (rev (order (sUses s))) <-> In y (sUses s)).
  { intro y. rewrite <- in_rev. split; apply Permutation_in; [apply O|symmetry; apply O]. }
  constructor; cbn [sLive sWork sVisited sUses sChanged]; auto.
  - apply NoDup_rev. apply (Permutation_NoDup (l := sUses s)); [symmetry; apply O|exact K6].
  - intros y IY. apply K7. now apply P.
  - intro y. symmetry. apply P.
  - intros y z IY NY IZ M LZ. destruct (K10 y z IY NY IZ M LZ) as [Q|Q]; [|auto].
    rewrite E in Q. destruct Q.
  - intros _ y IY NY. exfalso. apply NY. now apply P.
Qed.
Lemma reset s : ok s -> (forall y, In y (sUses s) -> In y (sWork s)) ->
  ok (State (sLive s) (sWork s) (sVisited s) (sUses s) false).
Proof.
  intros [K1 K2 K3 K4 K5 K6 K7 K8 K9 K10 K11] U.
  constructor; cbn [sLive sWork sVisited sUses sChanged]; auto.
Qed.
Lemma size_le s N : ok s -> length (sLive s) <= N -> size s <= N * S N + N.
Proof.
  intros K L. pose proof (work_le s K). unfold size.
  assert (length (sLive s) * S (length (sLive s)) <= N * S N) by (apply Nat.mul_le_mono; lia). lia.
Qed.
Lemma outer_total order N : someOrder order -> forall fuel s, ok s ->
  (forall y, In y (sUses s) -> In y (sWork s)) ->
  length (sLive s) <= N -> N * S N + N + S (length (sLive s)) <= fuel ->
  exists s', outer fuel G order s = Some s'.
Proof.
  intro O. induction fuel as [|fuel IH]; intros s K U L H; [lia|]. cbn [outer].
  pose proof (reset s K U) as K0.
  destruct (inner_total (S fuel) _ K0) as [s1 E].
  { pose proof (size_le _ N K0 L). lia. }
  rewrite E. destruct (inner_ok _ _ _ K0 E) as (K1 & W1 & L1 & C1).
  destruct (sChanged s1) eqn:C; cbn [negb]; [|eauto].
  destruct (C1 eq_refl) as [Q|Q]; [discriminate Q|]. cbn [sLive] in *.
  apply IH; cbn [sLive sWork sUses].
  - now apply restart.
  - intros y IY. rewrite <- in_rev. apply Permutation_in with (2 := IY). symmetry. apply O.
  - lia.
  - lia.
Qed.
Lemma outer_ok order : someOrder order -> forall fuel s s', ok s ->
  (forall y, In y (sUses s) -> In y (sWork s)) -> outer fuel G order s = Some s' ->
  ok s' /\ sWork s' = [] /\ sChanged s' = false.
Proof.
  intro O. induction fuel as [|fuel IH]; intros s s' K U H; [discriminate|]. cbn [outer] in H.
  pose proof (reset s K U) as K0.
  destruct (inner (S fuel) G (State (sLive s) (sWork s) (sVisited s) (sUses s) false))
    as [s1|] eqn:E; [|discriminate].
  destruct (inner_ok _ _ _ K0 E) as (K1 & W1 & L1 & C1).
  destruct (sChanged s1) eqn:C; cbn [negb] in H.
  - apply (IH _ _ (restart order s1 O K1 W1)) in H; [exact H|]. cbn [sUses sWork].
    intros y IY. rewrite <- in_rev. apply Permutation_in with (2 := IY). symmetry. apply O.
  - injection H as <-. auto.
Qed.
End Operands.

Lemma start_ok G live x W V : storeIn G live x -> pushOps G (ops G x) ([], []) = (W, V) ->
  ok G live x (State (without x live) W V [] false).
Proof.
  intros (ND & CL & IX & MX & NU) P.
  destruct (pushOps_ok _ _ _ _ _ _ P (NoDup_nil _) (fun y => iff_refl _))
    as (P1 & P2 & P3 & P4 & P5).
  constructor; cbn [sLive sWork sVisited sUses sChanged]; auto.
  - now apply without_NoDup.
  - intros y z IY IZ. apply without_In in IY. destruct IY as [IY NY]. apply without_In.
    split; [exact (CL y z IY IZ)|]. intros ->. exact (NU y IY IZ).
  - intros y IY. destruct (P5 y IY) as [[]|[Q1 Q2]]. split; [|exact Q2]. apply without_In.
    split; [exact (CL x y IX Q1)|]. intros ->. exact (NU x IX Q1).
  - constructor.
  - intros y [].
  - intros y IY. apply without_In in IY. exact IY.
  - intros y IY NY. left. destruct (Nat.eq_dec y x) as [E|N]; [exact E|].
    exfalso. apply NY. apply without_In. auto.
  - intros y z IY NY IZ M LZ. destruct (Nat.eq_dec y x) as [->|N].
    + left. exact (P4 z IZ M).
    + exfalso. apply NY. apply without_In. auto.
Qed.

(** Stores which are found. *)
Definition onlyStored (A : analysis) (is : list instr) (s : nat) : Prop :=
  forall i, In i is ->
    match i with
    | Load a _ => setOf A a <> s
    | Store _ a _ => setOf A a = s -> isPlainAlloca A a = true
    | Unknown c => ~ In s (touches A c)
    | _ => True
    end.
Lemma visitAll_found A s is : onlyStored A is s -> forall pc os L, In (s, L) os ->
  exists L', In (s, L') (visitAll A pc is os) /\
    (forall q, In q L -> In q L') /\
    forall k vol a v, nth_error is k = Some (Store vol a v) -> setOf A a = s -> In (pc + k) L'.
Proof.
  induction is as [|i is IH]; intros O pc os L IL; cbn [visitAll].
  - exists L. repeat split; auto. intros k vol a v E. destruct k; discriminate E.
  - assert (O' : onlyStored A is s) by (intros j J; apply O; now right).
    pose proof (O i (or_introl eq_refl)) as OI.
    assert (K : exists L1, In (s, L1) (visitInstr A pc i os) /\ (forall q, In q L -> In q L1) /\
      forall vol a v, i = Store vol a v -> setOf A a = s -> In pc L1).
    { destruct i as [vol a v|a r|c|c| |]; cbn [visitInstr];
        try (exists L; repeat split; auto; discriminate).
      - destruct (Nat.eq_dec (setOf A a) s) as [ES|NS].
        + rewrite (OI ES). cbn [negb]. exists (pc :: L). repeat split.
          * unfold pushStore. apply in_map_iff. exists (s, L). cbn [fst snd].
            rewrite ES, Nat.eqb_refl. auto.
          * intros q Q. now right.
          * intros. now left.
        + exists L. repeat split; auto.
          * destruct (negb (isPlainAlloca A a)).
            -- apply eraseSet_In. cbn [fst]. auto.
            -- unfold pushStore. apply in_map_iff. exists (s, L). cbn [fst snd].
               destruct (Nat.eqb_spec s (setOf A a)); [congruence|auto].
          * intros vol0 a0 v0 E ES. congruence.
      - exists L. repeat split; auto; [|discriminate]. apply eraseSet_In. cbn [fst]. auto.
      - exists L. repeat split; auto; [|discriminate]. apply eraseAll_In. cbn [fst]. auto. }
    destruct K as (L1 & I1 & Q1 & S1). destruct (IH O' (S pc) _ L1 I1) as (L' & I' & Q' & S').
    exists L'. repeat split; auto. intros k vol a v E ES. destruct k as [|k].
    + injection E as ->. rewrite Nat.add_0_r. apply Q'. exact (S1 vol a v eq_refl ES).
    + replace (pc + S k) with (S pc + k) by lia. exact (S' k vol a v E ES).
Qed.
