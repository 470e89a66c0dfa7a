(** Proofs about canonical loops (C58). *)
From Coq Require Import ZArith List Bool Lia.
From Verif Require Import CanonModel CanonSpec.
Import ListNotations.
Local Open Scope Z_scope.

Lemma valueEq_eq a b : valueEq a b = true <-> a = b.
Proof.
  destruct a, b; cbn [valueEq]; split; intros H; try discriminate; try (injection H as ->);
    try (apply Nat.eqb_eq in H; now subst); try (apply Z.eqb_eq in H; now subst);
    try apply Nat.eqb_refl; try apply Z.eqb_refl.
Qed.
Lemma valueEq_refl a : valueEq a a = true.
Proof. now apply valueEq_eq. Qed.
Lemma find_rev_last {A} (f : A -> bool) pre x post :
  f x = true -> (forall y, In y post -> f y = false) -> find f (rev (pre ++ x :: post)) = Some x.
Proof.
  intros Hx Hp. rewrite rev_app_distr. cbn [rev]. rewrite <- app_assoc.
  assert (G : forall l r, (forall y, In y l -> f y = false) -> find f (l ++ r) = find f r).
  { induction l as [|y l IH]; intros r Hl; [reflexivity|]. cbn [app find]. rewrite (Hl y (or_introl eq_refl)).
    apply IH. intros; apply Hl; now right. }
  rewrite G by (intros y Hy; apply Hp; now apply in_rev). cbn [app find]. now rewrite Hx.
Qed.

Section Static.
Variable C : ctx.
Notation ilm := (isLoopInvariantMemory C).

(** ** More fuel *)
Lemma opsLoop_mono id idxs (sub sub' : nat -> invResult) os : (forall y t, sub y = ITuple t -> sub' y = ITuple t) ->
  forall k t n, (forall t' n', opsLoop id idxs sub k os t n = OpNext t' n' -> opsLoop id idxs sub' k os t n = OpNext t' n') /\
                (opsLoop id idxs sub k os t n = OpFalse -> opsLoop id idxs sub' k os t n = OpFalse).
Proof.
  intros Hs. induction os as [|o os IH]; intros k t n; cbn [opsLoop].
  - split; [tauto|discriminate].
  - destruct o as [x|c|g|a]; cbn [opStep].
    + destruct (sub x) as [| |T] eqn:Ex; [split; discriminate..|].
      rewrite (Hs _ _ Ex). destruct (tRes T); [apply IH|split; [discriminate|reflexivity]].
    + destruct (negb (existsb (Nat.eqb k) idxs)); apply IH.
    + destruct (negb (existsb (Nat.eqb k) idxs)); apply IH.
    + split; [discriminate|reflexivity].
Qed.
Lemma ilm_mono traits f : forall f' x t, (f <= f')%nat -> ilm traits f x = ITuple t -> ilm traits f' x = ITuple t.
Proof.
  induction f as [|f IH]; intros f' x t Hle H; [discriminate|].
  destruct f' as [|f']; [lia|]. cbn [isLoopInvariantMemory] in H |- *.
  destruct (fold_left _ _ _) as [| |u d idxs]; [exact H|discriminate|].
  destruct (opsLoop_mono x idxs (ilm traits f) (ilm traits f') (iArgs (cInst C x))
    (fun y t Hy => IH f' y t ltac:(lia) Hy) 0%nat (mkTuple true u d None None) true) as [M1 M2].
  destruct (opsLoop _ _ (ilm traits f) _ _ _ _) as [| | |t' n'] eqn:E; try discriminate.
  - now rewrite (M2 eq_refl).
  - now rewrite (M1 _ _ eq_refl).
Qed.
Lemma ilm_det traits f f' x t t' : ilm traits f x = ITuple t -> ilm traits f' x = ITuple t' -> t = t'.
Proof.
  intros H H'. apply (ilm_mono _ _ (Nat.max f f')) in H, H'; try lia. rewrite H in H'. now injection H'.
Qed.

(** ** What is known if the answer is positive *)
Definition accepted traits (v : value) : Prop :=
  match v with
  | VUser y => exists f t, ilm traits f y = ITuple t /\ tRes t = true /\ tUse t = 0%nat /\ tDef t = 0%nat
  | VConst _ | VGlobal _ => True
  | VArg _ => False
  end.
Lemma fold_AFalse traits id l : fold_left (accStep C traits id) l AFalse = AFalse.
Proof. induction l; [reflexivity|]. exact IHl. Qed.
Lemma fold_ACrash traits id l : fold_left (accStep C traits id) l ACrash = ACrash.
Proof. induction l; [reflexivity|]. exact IHl. Qed.
Lemma unchanged_kept traits n : unchanged traits n = true -> keptNode traits n.
Proof. unfold unchanged, keptNode. destruct (traits n) as [b|]; [intros ->; now right|now left]. Qed.
Lemma fold_acc traits id l : forall u d idxs u' d' idxs',
  fold_left (accStep C traits id) l (AOk u d idxs) = AOk u' d' idxs' ->
  (u <= u')%nat /\ (d <= d')%nat /\
  (forall a, In a l -> match a with
     | ALoc i r w => exists n, cDim C id i = Some n /\
         (keptNode traits n \/ cUnreach C n (cInduct C) = false /\ (r = true -> (u < u')%nat) /\ (w = true -> (d < d')%nat))
     | AUnk r w => cOnlyReads C id = true /\ exists n, cDimU C id = Some n /\ keptNode traits n
     end).
Proof.
  induction l as [|a l IH]; intros u d idxs u' d' idxs' H; cbn [fold_left] in H.
  - injection H as -> -> _. repeat split; try lia. intros a [].
  - destruct (accStep C traits id (AOk u d idxs) a) as [| |u1 d1 i1] eqn:E.
    + now rewrite fold_AFalse in H.
    + now rewrite fold_ACrash in H.
    + destruct (IH _ _ _ _ _ _ H) as (Hu & Hd & Ha).
      destruct a as [i r w|r w]; cbn [accStep] in E.
      * destruct (cDim C id i) as [n|] eqn:En; [|discriminate].
        destruct (cUnreach C n (cInduct C)) eqn:Eu; cbn [negb] in E.
        -- destruct (unchanged traits n) eqn:Ek; [|discriminate]. injection E as <- <- <-.
           repeat split; try lia. intros b [<-|Hb]; [|now apply Ha].
           exists n. split; [exact En|]. left. now apply unchanged_kept.
        -- injection E as <- <- <-.
           assert (Hu1 : (u <= u')%nat /\ (r = true -> (u < u')%nat)) by (destruct r; split; intros; try discriminate; lia).
           assert (Hd1 : (d <= d')%nat /\ (w = true -> (d < d')%nat)) by (destruct w; split; intros; try discriminate; lia).
           split; [apply Hu1|]. split; [apply Hd1|]. intros b [<-|Hb].
           ++ exists n. split; [exact En|]. right. split; [exact Eu|]. split; [apply Hu1|apply Hd1].
           ++ specialize (Ha b Hb). destruct b as [i' r' w'|r' w']; [|exact Ha].
              destruct Ha as (n' & H1 & H2). exists n'. split; [exact H1|]. destruct H2 as [H2|(H2 & H3 & H4)]; [now left|].
              right. split; [exact H2|]. split; intros Ht; [specialize (H3 Ht); destruct r|specialize (H4 Ht); destruct w]; lia.
      * destruct (isCall (cInst C id) && cOnlyReads C id) eqn:Er; [|discriminate].
        destruct (cDimU C id) as [n|] eqn:En; [|discriminate].
        destruct (unchanged traits n) eqn:Ek; [|discriminate]. injection E as <- <- <-.
        split; [lia|]. split; [lia|]. intros b [<-|Hb]; [|now apply Ha].
        apply andb_true_iff in Er. destruct Er as [_ Er]. split; [exact Er|]. exists n. split; [reflexivity|]. now apply unchanged_kept.
Qed.
(** Numbers only grow over operands; each operand which is a user is accepted if numbers are the same *)
Lemma opsLoop_grows id idxs sub os : forall k t n t' n',
  opsLoop id idxs sub k os t n = OpNext t' n' -> tRes t = true ->
  tRes t' = true /\ (tUse t <= tUse t')%nat /\ (tDef t <= tDef t')%nat /\
  (n' = true -> n = true) /\
  (forall o, In o os -> match o with
    | VUser y => exists T, sub y = ITuple T /\ tRes T = true /\ (tUse t + tUse T <= tUse t')%nat /\ (tDef t + tDef T <= tDef t')%nat
    | VArg _ => False
    | _ => True
    end) /\
  (n = true -> tUse t' = tUse t -> tDef t' = tDef t -> n' = true).
Proof.
  induction os as [|o os IH]; intros k t n t' n' H Ht; cbn [opsLoop] in H.
  - injection H as <- <-. repeat split; try lia; auto. intros o [].
  - destruct (opStep id idxs sub k o t n) as [| | |t1 n1] eqn:E; try discriminate.
    assert (K : tRes t1 = true /\ (tUse t <= tUse t1)%nat /\ (tDef t <= tDef t1)%nat /\ (n1 = true -> n = true) /\
      match o with
      | VUser y => exists T, sub y = ITuple T /\ tRes T = true /\ (tUse t + tUse T = tUse t1)%nat /\ (tDef t + tDef T = tDef t1)%nat
      | VArg _ => False
      | _ => True
      end /\ (n = true -> tUse t1 = tUse t -> tDef t1 = tDef t -> n1 = true)).
    { destruct o as [x|c|g|a]; cbn [opStep] in E; [|destruct (negb (existsb (Nat.eqb k) idxs)); injection E as <- <-; cbn [tRes tUse tDef]; repeat split; auto..|discriminate].
      destruct (sub x) as [| |T] eqn:Ex; try discriminate. destruct (tRes T) eqn:ET; [|discriminate].
      injection E as <- <-.
      set (self := match tExpr T with Some e => valueEq e (VUser x) | None => false end) in *.
      assert (Q : forall t2, t2 = match tExpr T with
                  | Some e => if negb self then mkTuple true (tUse t + tUse T) (tDef t + tDef T) (Some e) (tInst T) else mkTuple true (tUse t + tUse T) (tDef t + tDef T) (tExpr t) (tInst t)
                  | None => mkTuple true (tUse t + tUse T) (tDef t + tDef T) (tExpr t) (tInst t)
                  end -> tRes t2 = true /\ tUse t2 = (tUse t + tUse T)%nat /\ tDef t2 = (tDef t + tDef T)%nat).
      { intros t2 ->. destruct (tExpr T); [destruct (negb self)|]; cbn [tRes tUse tDef]; auto. }
      destruct (Q _ eq_refl) as (Q1 & Q2 & Q3). cbn [tUse tDef tExpr tInst] in *.
      match goal with |- tRes ?a = true /\ _ => assert (Q' : tRes a = true /\ tUse a = (tUse t + tUse T)%nat /\ tDef a = (tDef t + tDef T)%nat) end.
      { destruct (self && negb (existsb (Nat.eqb k) idxs)); cbn [tRes tUse tDef]; auto. }
      destruct Q' as (R1 & R2 & R3). rewrite R2, R3. split; [exact R1|]. split; [lia|]. split; [lia|].
      split; [intros Hn; apply andb_true_iff in Hn; tauto|]. split; [exists T; auto|].
      intros Hn Hu Hd. rewrite Hn. cbn [andb]. apply andb_true_iff. split; apply Nat.eqb_eq; lia. }
    destruct K as (K1 & K2 & K3 & K4 & K5 & K6). destruct (IH _ _ _ _ _ H K1) as (H1 & H2 & H3 & H4 & H5 & H6).
    split; [exact H1|]. split; [lia|]. split; [lia|]. split; [auto|]. split.
    + intros o' [<-|Ho]; [|specialize (H5 o' Ho)].
      * destruct o; auto. destruct K5 as (T & U1 & U2 & U3 & U4). exists T. repeat split; auto; lia.
      * destruct o'; auto. destruct H5 as (T & U1 & U2 & U3 & U4). exists T. repeat split; auto; lia.
    + intros Hn Hu Hd. apply H6; [apply K6; [exact Hn|lia|lia]|lia|lia].
Qed.
(** Operands, accesses and the expression of an accepted user *)
Lemma ilm_shape traits f x t : ilm traits f x = ITuple t -> tRes t = true ->
  exists f' u d idxs t' n', f = S f' /\
    fold_left (accStep C traits x) (accesses C x) (AOk 0 0 []) = AOk u d idxs /\
    opsLoop x idxs (ilm traits f') 0 (iArgs (cInst C x)) (mkTuple true u d None None) true = OpNext t' n' /\
    t = (if n' && Nat.eqb u 0 && Nat.eqb d 0 then mkTuple (tRes t') (tUse t') (tDef t') (Some (VUser x)) (tInst t') else t').
Proof.
  destruct f as [|f']; [discriminate|]. cbn [isLoopInvariantMemory]. intros H Ht.
  destruct (fold_left _ _ _) as [| |u d idxs] eqn:E; [injection H as <-; discriminate|discriminate|].
  destruct (opsLoop _ _ _ _ _ _ _) as [| | |t' n'] eqn:Eo; try discriminate; [injection H as <-; discriminate|].
  injection H as <-. exists f', u, d, idxs, t', n'. auto.
Qed.
Lemma accepted_inv traits x : accepted traits (VUser x) ->
  (forall o, In o (iArgs (cInst C x)) -> accepted traits o) /\
  (forall a, In a (accesses C x) -> match a with
     | ALoc i r w => (r = true \/ w = true) -> exists n, cDim C x i = Some n /\ keptNode traits n
     | AUnk r w => cOnlyReads C x = true /\ exists n, cDimU C x = Some n /\ keptNode traits n
     end).
Proof.
  intros (f & t & H & Ht & Hu & Hd). destruct (ilm_shape _ _ _ _ H Ht) as (f' & u & d & idxs & t' & n' & -> & E1 & E2 & E3).
  destruct (opsLoop_grows _ _ _ _ _ _ _ _ _ E2 eq_refl) as (G1 & G2 & G3 & G4 & G5 & G6). cbn [tUse tDef] in *.
  assert (Hut : tUse t' = 0%nat /\ tDef t' = 0%nat) by (subst t; destruct (n' && _ && _); cbn [tUse tDef] in *; auto).
  destruct Hut as [Hu' Hd'].
  split.
  - intros o Ho. specialize (G5 o Ho). destruct o; cbn [accepted]; auto.
    destruct G5 as (T & U1 & U2 & U3 & U4). exists f', T. repeat split; auto; lia.
  - intros a Ha. destruct (fold_acc _ _ _ _ _ _ _ _ _ E1) as (_ & _ & K). specialize (K a Ha).
    destruct a as [i r w|r w]; [|exact K]. intros Hrw. destruct K as (n & N1 & [N2|(N2 & N3 & N4)]); [eauto|].
    destruct Hrw as [Hr|Hw]; [specialize (N3 Hr)|specialize (N4 Hw)]; lia.
Qed.
Lemma accepted_expr traits f x t : ilm traits f x = ITuple t -> tRes t = true -> tUse t = 0%nat -> tDef t = 0%nat -> tExpr t = Some (VUser x).
Proof.
  intros H Ht Hu Hd. destruct (ilm_shape _ _ _ _ H Ht) as (f' & u & d & idxs & t' & n' & -> & E1 & E2 & E3).
  destruct (opsLoop_grows _ _ _ _ _ _ _ _ _ E2 eq_refl) as (G1 & G2 & G3 & G4 & G5 & G6). cbn [tUse tDef] in *.
  assert (Hut : tUse t' = 0%nat /\ tDef t' = 0%nat) by (subst t; destruct (n' && _ && _); cbn [tUse tDef] in *; auto).
  assert (u = 0%nat) by lia. assert (d = 0%nat) by lia. subst u d.
  rewrite (G6 eq_refl) in E3 by lia. now subst t.
Qed.

(** ** Heads of for-loops *)
Section Head.
Variable L : loop.
Variable ivar : value.
Hypothesis HV : match ivar with
            | VUser x => op C x = OAlloca /\ (forall y, In (VUser y) (args C x) -> False)
            | VGlobal _ => True
            | _ => False
            end.
Hypothesis HN : forall x idx, op C x = OLoad /\ args C x = [ivar] /\ idx = 0%nat \/
      op C x = OStore /\ (exists v, args C x = [v; ivar]) /\ idx = 1%nat ->
    exists n, cDim C x idx = Some n /\ cUnreach C n (cInduct C) = false /\ cUnreach C (cInduct C) n = false.

(** The variable itself as an operand whose number is in the list *)
Lemma opStep_ivar traits f id idxs k t n : existsb (Nat.eqb k) idxs = true -> tRes t = true ->
  forall t' n', opStep id idxs (ilm traits f) k ivar t n = OpNext t' n' -> t' = t /\ n' = n.
Proof.
  intros Hk Ht t' n' H. destruct ivar as [a|c|g|a] eqn:EI; cbn [opStep] in H; try contradiction.
  - destruct (ilm traits f a) as [| |T] eqn:Ea; try discriminate. destruct (tRes T) eqn:ET; [|discriminate].
    destruct (ilm_shape _ _ _ _ Ea ET) as (f' & u & d & idxs' & t1 & n1 & Ef & E1 & E2 & E3).
    destruct HV as [Ho Ha]. unfold accesses in E1. unfold op in Ho. rewrite Ho in E1. cbn [fold_left] in E1. injection E1 as <- <- <-.
    assert (Z : forall os k t n t' n', (forall y, In (VUser y) os -> False) -> opsLoop a [] (ilm traits f') k os t n = OpNext t' n' ->
      tRes t' = tRes t /\ tUse t' = tUse t /\ tDef t' = tDef t /\ n' = n).
    { induction os as [|o os IH]; intros k0 t0 n0 t0' n0' Hos E; cbn [opsLoop] in E.
      - injection E as <- <-. auto.
      - destruct o as [y|c|g|b]; [elim (Hos y); now left| | |discriminate]; cbn [opStep existsb negb] in E;
          (apply IH in E; [cbn [tRes tUse tDef] in E; exact E|intros y Hy; apply (Hos y); now right]). }
    destruct (Z _ _ _ _ _ _ Ha E2) as (Z1 & Z2 & Z3 & ->). cbn [tRes tUse tDef] in *.
    cbn [andb Nat.eqb] in E3. rewrite Z1, Z2, Z3 in E3. subst T. cbn [tExpr tUse tDef tInst tRes] in H.
    rewrite valueEq_refl in H. rewrite Hk in H. cbn [andb negb] in H. injection H as <- <-.
    rewrite andb_true_r. split; [|reflexivity]. rewrite !Nat.add_0_r. destruct t; cbn in *; now subst.
  - rewrite Hk in H. cbn [negb] in H. injection H as <- <-. auto.
Qed.
(** A value of the induction variable *)
Lemma ilm_reads traits f v : readsInduction C L ivar v -> forall x t, v = VUser x -> ilm traits f x = ITuple t -> tRes t = true ->
  tUse t = 1%nat /\ tDef t = 0%nat /\ tExpr t = None.
Proof.
  intros R. revert f. induction R as [x Ho Ha Hl|x v Ho Ha R IH Hl]; intros f y t Hy H Ht; injection Hy as <-;
    destruct (ilm_shape _ _ _ _ H Ht) as (f' & u & d & idxs & t1 & n1 & Ef & E1 & E2 & E3);
    unfold op in Ho; unfold args in Ha; unfold accesses in E1; rewrite Ho in E1; rewrite Ha in E2; cbn [fold_left] in E1.
  - cbn [accStep] in E1. destruct (HN x 0) as (n & N1 & N2 & N3); [left; auto|]. rewrite N1, N2 in E1. cbn [negb orb] in E1.
    injection E1 as <- <- <-. cbn [opsLoop] in E2.
    destruct (opStep x [0%nat] (ilm traits f') 0 ivar (mkTuple true 1 0 None None) true) as [| | |t2 n2] eqn:E; try discriminate.
    apply opStep_ivar in E; [|reflexivity..]. destruct E as [-> ->]. injection E2 as <- <-. cbn [andb Nat.eqb] in E3. subst t. cbn. auto.
  - injection E1 as <- <- <-.
    assert (exists z, v = VUser z) as [z ->] by (inversion R; eauto). cbn [opsLoop opStep] in E2.
    destruct (ilm traits f' z) as [| |T] eqn:Ez; try discriminate. destruct (tRes T) eqn:ET; [|discriminate].
    destruct (IH f' z T eq_refl Ez ET) as (I1 & I2 & I3). rewrite I1, I2, I3 in E2. cbn [andb negb Nat.eqb] in E2.
    injection E2 as <- <-. cbn [andb] in E3. subst t. cbn. auto.
Qed.
Lemma reads_not_accepted traits v : readsInduction C L ivar v -> accepted traits v -> False.
Proof.
  intros R A. assert (exists z, v = VUser z) as [z ->] by (inversion R; eauto).
  destruct A as (f & t & H & Ht & Hu & _). destruct (ilm_reads _ _ _ R z t eq_refl H Ht) as [E _]. congruence.
Qed.
(** An operand which has to be accepted since numbers are limited *)
Lemma opStep_other traits f id idxs k o t n t' n' : opStep id idxs (ilm traits f) k o t n = OpNext t' n' ->
  tRes t = true -> existsb (Nat.eqb k) idxs = false -> tUse t' = tUse t -> tDef t' = tDef t ->
  accepted traits o /\ t' = mkTuple true (tUse t) (tDef t) (Some o) (Some id) /\ n' = n.
Proof.
  intros H Ht Hk Hu Hd. destruct o as [y|c|g|a]; cbn [opStep] in H; [| | |discriminate].
  - destruct (ilm traits f y) as [| |T] eqn:Ey; try discriminate. destruct (tRes T) eqn:ET; [|discriminate].
    assert (tUse T = 0%nat /\ tDef T = 0%nat) as [U D].
    { injection H as <- <-. rewrite Hk in Hu, Hd. cbn [negb] in Hu, Hd.
      destruct (match tExpr T with Some e => valueEq e (VUser y) | None => false end), (tExpr T); cbn [negb andb tUse tDef] in Hu, Hd; lia. }
    rewrite (accepted_expr _ _ _ _ Ey ET U D), valueEq_refl, Hk in H. cbn [andb negb] in H. rewrite U, D in H. cbn [tUse tDef Nat.eqb andb] in H.
    injection H as <- <-. split; [exists f, T; auto|]. rewrite !Nat.add_0_r, andb_true_r. auto.
  - rewrite Hk in H. cbn [negb] in H. injection H as <- <-. rewrite Ht. cbn [accepted]. auto.
  - rewrite Hk in H. cbn [negb] in H. injection H as <- <-. rewrite Ht. cbn [accepted]. auto.
Qed.
Lemma opStep_reads traits f id idxs k v t n t' n' : readsInduction C L ivar v ->
  opStep id idxs (ilm traits f) k v t n = OpNext t' n' -> tRes t = true ->
  t' = mkTuple true (S (tUse t)) (tDef t) (tExpr t) (tInst t) /\ n' = false.
Proof.
  intros R H Ht. assert (exists z, v = VUser z) as [z ->] by (inversion R; eauto). cbn [opStep] in H.
  destruct (ilm traits f z) as [| |T] eqn:Ez; try discriminate. destruct (tRes T) eqn:ET; [|discriminate].
  destruct (ilm_reads _ _ _ R z T eq_refl Ez ET) as (I1 & I2 & I3). rewrite I1, I2, I3 in H. cbn [andb negb Nat.eqb tUse tDef tExpr tInst] in H.
  injection H as <- <-. rewrite Nat.add_1_r, Nat.add_0_r, andb_false_r. auto.
Qed.
(** i + e, e + i, i - e *)
Inductive advBy : value -> value -> bool -> nat -> Prop :=
| ab_left_add x v e : op C x = OBin BAdd -> args C x = [v; e] -> readsInduction C L ivar v -> inLoop L x -> advBy (VUser x) e false x
| ab_left_sub x v e : op C x = OBin BSub -> args C x = [v; e] -> readsInduction C L ivar v -> inLoop L x -> advBy (VUser x) e true x
| ab_right x v e : op C x = OBin BAdd -> args C x = [e; v] -> readsInduction C L ivar v -> inLoop L x -> advBy (VUser x) e false x
| ab_cast x v e ng b : op C x = OCast -> args C x = [v] -> advBy v e ng b -> inLoop L x -> advBy (VUser x) e ng b.
Lemma advances_advBy v : advances C L ivar v -> exists e ng b, advBy v e ng b.
Proof.
  induction 1 as [x v e [Ho|Ho] Ha R Hl|x v e Ho Ha R Hl|x v Ho Ha A (e & ng & b & IH) Hl].
  - exists e, false, x. eapply ab_left_add; eauto.
  - exists e, true, x. eapply ab_left_sub; eauto.
  - exists e, false, x. eapply ab_right; eauto.
  - exists e, ng, b. eapply ab_cast; eauto.
Qed.
Lemma advBy_op v e ng b : advBy v e ng b -> op C b = OBin (if ng then BSub else BAdd) /\ In e (args C b) /\ inLoop L b.
Proof. induction 1 as [x v e Ho Ha|x v e Ho Ha|x v e Ho Ha|]; auto; (split; [exact Ho|split; [rewrite Ha; cbn; auto|assumption]]). Qed.
Lemma ilm_adv traits f v e ng b : advBy v e ng b -> forall x t, v = VUser x -> ilm traits f x = ITuple t -> tRes t = true ->
  (tUse t <= 1)%nat -> tDef t = 0%nat ->
  accepted traits e /\ tUse t = 1%nat /\ tExpr t = Some e /\ tInst t = Some b.
Proof.
  intros A. revert f. induction A as [x v e Ho Ha R Hl|x v e Ho Ha R Hl|x v e Ho Ha R Hl|x v e ng b Ho Ha A IH Hl];
    intros f y t Hy H Ht Hu Hd; injection Hy as <-;
    destruct (ilm_shape _ _ _ _ H Ht) as (f' & u & d & idxs & t1 & n1 & Ef & E1 & E2 & E3);
    unfold op in Ho; unfold args in Ha; unfold accesses in E1; rewrite Ho in E1; rewrite Ha in E2; cbn [fold_left] in E1;
    injection E1 as <- <- <-; pose proof E2 as EG; cbn [opsLoop] in E2.
  1,2: (destruct (opStep x [] (ilm traits f') 0 v (mkTuple true 0 0 None None) true) as [| | |t2 n2] eqn:Ea; try discriminate;
    destruct (opStep_reads _ _ _ _ _ _ _ _ _ _ R Ea eq_refl) as [-> ->]; cbn [tUse tDef tExpr tInst] in E2;
    destruct (opStep x [] (ilm traits f') 1 e _ _) as [| | |t3 n3] eqn:Eb; try discriminate;
    injection E2 as <- <-;
    (assert (G : opsLoop x [] (ilm traits f') 1 [e] (mkTuple true 1 0 None None) false = OpNext t3 n3) by (cbn [opsLoop]; now rewrite Eb));
    destruct (opsLoop_grows _ _ _ _ _ _ _ _ _ G eq_refl) as (_ & G2 & _ & G4 & _); cbn [tUse] in G2;
    (assert (n3 = false) by (destruct n3; [now specialize (G4 eq_refl)|reflexivity])); subst n3; cbn [andb] in E3; subst t;
    destruct (opStep_other _ _ _ _ _ _ _ _ _ _ Eb eq_refl eq_refl ltac:(cbn [tUse]; lia) ltac:(cbn [tDef]; lia)) as (X1 & X2 & _);
    subst t3; cbn; auto).
  - destruct (opStep x [] (ilm traits f') 0 e (mkTuple true 0 0 None None) true) as [| | |t2 n2] eqn:Ea; try discriminate.
    assert (G : opsLoop x [] (ilm traits f') 0 [e] (mkTuple true 0 0 None None) true = OpNext t2 n2) by (cbn [opsLoop]; now rewrite Ea).
    destruct (opsLoop_grows _ _ _ _ _ _ _ _ _ G eq_refl) as (G1 & G2 & _ & G4 & _); cbn [tUse] in G2.
    destruct (opStep x [] (ilm traits f') 1 v _ _) as [| | |t3 n3] eqn:Eb; try discriminate.
    injection E2 as <- <-. destruct (opStep_reads _ _ _ _ _ _ _ _ _ _ R Eb G1) as [-> ->]. cbn [andb] in E3. subst t. cbn [tUse tDef tExpr tInst] in *.
    destruct (opStep_other _ _ _ _ _ _ _ _ _ _ Ea eq_refl eq_refl ltac:(cbn [tUse]; lia) ltac:(cbn [tDef]; lia)) as (X1 & X2 & _).
    subst t2. cbn in *. auto.
  - assert (exists z, v = VUser z) as [z ->] by (inversion A; eauto). cbn [opStep] in E2.
    destruct (ilm traits f' z) as [| |T] eqn:Ez; try discriminate. destruct (tRes T) eqn:ET; [|discriminate].
    cbn [tUse tDef tExpr tInst] in E2.
    assert (tUse T <= 1 /\ tDef T = 0)%nat as [U D].
    { destruct (opsLoop_grows _ _ _ _ _ _ _ _ _ EG eq_refl) as (_ & _ & _ & _ & G5 & _).
      destruct (G5 (VUser z) (or_introl eq_refl)) as (T' & T1 & T2 & T3 & T4). rewrite Ez in T1. injection T1 as <-. cbn [tUse tDef] in *.
      assert (Q : tUse t = tUse t1 /\ tDef t = tDef t1) by (subst t; destruct (n1 && _ && _); auto). lia. }
    destruct (IH f' z T eq_refl Ez ET U D) as (X1 & X2 & X3 & X4).
    rewrite X2, X3, D in E2.
    assert (valueEq e (VUser z) = false) as Ne.
    { destruct (valueEq e (VUser z)) eqn:EE; [|reflexivity]. apply valueEq_eq in EE. subst e.
      destruct X1 as (f2 & T2 & Y1 & Y2 & Y3 & _). rewrite (ilm_det _ _ _ _ _ _ Ez Y1) in X2. congruence. }
    rewrite Ne in E2. cbn [negb andb Nat.eqb tUse tDef tExpr tInst] in E2. injection E2 as <- <-. cbn [andb] in E3. subst t. cbn. rewrite X4. auto.
Qed.
(** The initialization *)
Lemma ilm_init traits f x v t : op C x = OStore -> args C x = [v; ivar] -> ilm traits f x = ITuple t -> tRes t = true ->
  tUse t = 0%nat -> tDef t = 1%nat -> accepted traits v /\ tExpr t = Some v.
Proof.
  intros Ho Ha H Ht Hu Hd. destruct (ilm_shape _ _ _ _ H Ht) as (f' & u & d & idxs & t1 & n1 & Ef & E1 & E2 & E3).
  destruct (HN x 1) as (n & N1 & N2 & N3); [right; eauto|].
  unfold op in Ho. unfold args in Ha. unfold accesses in E1. rewrite Ho in E1. rewrite Ha in E2. cbn [fold_left accStep] in E1.
  rewrite N1, N2 in E1. cbn [negb orb] in E1. injection E1 as <- <- <-. rewrite andb_false_r in E3. subst t1. cbn [opsLoop] in E2.
  destruct (opStep x [1%nat] (ilm traits f') 0 v (mkTuple true 0 1 None None) true) as [| | |t2 n2] eqn:Ea; try discriminate.
  assert (G : opsLoop x [1%nat] (ilm traits f') 0 [v] (mkTuple true 0 1 None None) true = OpNext t2 n2) by (cbn [opsLoop]; now rewrite Ea).
  destruct (opsLoop_grows _ _ _ _ _ _ _ _ _ G eq_refl) as (G1 & _).
  destruct (opStep x [1%nat] (ilm traits f') 1 ivar t2 n2) as [| | |t3 n3] eqn:Eb; try discriminate. injection E2 as <- <-.
  apply opStep_ivar in Eb; [|reflexivity|exact G1]. destruct Eb as [-> ->].
  destruct (opStep_other _ _ _ _ _ _ _ _ _ _ Ea eq_refl eq_refl Hu Hd) as (X1 & -> & _). auto.
Qed.
(** The increment *)
Lemma ilm_incr traits f x v t e ng b : op C x = OStore -> args C x = [v; ivar] -> advBy v e ng b -> ilm traits f x = ITuple t -> tRes t = true ->
  (tUse t <= 1)%nat -> tDef t = 1%nat -> accepted traits e /\ tExpr t = Some e /\ tInst t = Some b.
Proof.
  intros Ho Ha A H Ht Hu Hd. destruct (ilm_shape _ _ _ _ H Ht) as (f' & u & d & idxs & t1 & n1 & Ef & E1 & E2 & E3).
  destruct (HN x 1) as (n & N1 & N2 & N3); [right; eauto|].
  unfold op in Ho. unfold args in Ha. unfold accesses in E1. rewrite Ho in E1. rewrite Ha in E2. cbn [fold_left accStep] in E1.
  rewrite N1, N2 in E1. cbn [negb orb] in E1. injection E1 as <- <- <-. rewrite andb_false_r in E3. subst t1. cbn [opsLoop] in E2.
  destruct (opStep x [1%nat] (ilm traits f') 0 v (mkTuple true 0 1 None None) true) as [| | |t2 n2] eqn:Ea; try discriminate.
  assert (G : opsLoop x [1%nat] (ilm traits f') 0 [v] (mkTuple true 0 1 None None) true = OpNext t2 n2) by (cbn [opsLoop]; now rewrite Ea).
  destruct (opsLoop_grows _ _ _ _ _ _ _ _ _ G eq_refl) as (G1 & G2 & G3 & _ & G5 & _).
  destruct (opStep x [1%nat] (ilm traits f') 1 ivar t2 n2) as [| | |t3 n3] eqn:Eb; try discriminate. injection E2 as <- <-.
  apply opStep_ivar in Eb; [|reflexivity|exact G1]. destruct Eb as [-> ->].
  assert (exists z, v = VUser z) as [z ->] by (inversion A; eauto).
  destruct (G5 (VUser z) (or_introl eq_refl)) as (T & T1 & T2 & T3 & T4). cbn [tUse tDef] in *.
  destruct (ilm_adv _ _ _ _ _ _ A z T eq_refl T1 T2 ltac:(lia) ltac:(lia)) as (X1 & X2 & X3 & X4).
  cbn [opStep] in Ea. rewrite T1, T2, X3 in Ea.
  assert (valueEq e (VUser z) = false) as Ne.
  { destruct (valueEq e (VUser z)) eqn:EE; [|reflexivity]. apply valueEq_eq in EE. subst e.
    destruct X1 as (f2 & T2' & Y1 & Y2 & Y3 & _). rewrite (ilm_det _ _ _ _ _ _ T1 Y1) in X2. congruence. }
  rewrite Ne in Ea. cbn [negb andb] in Ea. injection Ea as <- <-. cbn [tExpr tInst]. auto.
Qed.
(** The condition *)
Lemma ilm_cond traits f x a b p t : op C x = OCmp p -> args C x = [a; b] -> readsInduction C L ivar a \/ readsInduction C L ivar b ->
  ilm traits f x = ITuple t -> tRes t = true -> (tUse t <= 1)%nat -> tDef t = 0%nat ->
  readsInduction C L ivar a /\ accepted traits b /\ tExpr t = Some b \/
  readsInduction C L ivar b /\ accepted traits a /\ tExpr t = Some a.
Proof.
  intros Ho Ha R H Ht Hu Hd. destruct (ilm_shape _ _ _ _ H Ht) as (f' & u & d & idxs & t1 & n1 & Ef & E1 & E2 & E3).
  unfold op in Ho. unfold args in Ha. unfold accesses in E1. rewrite Ho in E1. rewrite Ha in E2. cbn [fold_left] in E1.
  injection E1 as <- <- <-. cbn [opsLoop] in E2.
  destruct (opStep x [] (ilm traits f') 0 a (mkTuple true 0 0 None None) true) as [| | |t2 n2] eqn:Ea; try discriminate.
  assert (G : opsLoop x [] (ilm traits f') 0 [a] (mkTuple true 0 0 None None) true = OpNext t2 n2) by (cbn [opsLoop]; now rewrite Ea).
  destruct (opsLoop_grows _ _ _ _ _ _ _ _ _ G eq_refl) as (G1 & G2 & G3 & _).
  destruct (opStep x [] (ilm traits f') 1 b t2 n2) as [| | |t3 n3] eqn:Eb; try discriminate. injection E2 as <- <-.
  assert (G' : opsLoop x [] (ilm traits f') 1 [b] t2 n2 = OpNext t3 n3) by (cbn [opsLoop]; now rewrite Eb).
  destruct (opsLoop_grows _ _ _ _ _ _ _ _ _ G' G1) as (G1' & G2' & G3' & G4' & _).
  cbn [tUse tDef] in *.
  assert (Q : tUse t = tUse t3 /\ tDef t = tDef t3) by (subst t; destruct (n3 && _ && _); auto). destruct Q as [Q1 Q2].
  destruct R as [R|R].
  - left. destruct (opStep_reads _ _ _ _ _ _ _ _ _ _ R Ea eq_refl) as [-> ->]. cbn [tUse tDef tExpr tInst] in *.
    destruct n3; [now specialize (G4' eq_refl)|].
    destruct (opStep_other _ _ _ _ _ _ _ _ _ _ Eb eq_refl eq_refl) as (X1 & X2 & _); [cbn [tUse]; lia|cbn [tDef]; lia|].
    subst t3. cbn [andb] in E3. subst t. auto.
  - right. destruct (opStep_reads _ _ _ _ _ _ _ _ _ _ R Eb G1) as [-> ->]. cbn [tUse tDef tExpr tInst] in *.
    destruct (opStep_other _ _ _ _ _ _ _ _ _ _ Ea eq_refl eq_refl) as (X1 & X2 & _); [cbn [tUse]; lia|cbn [tDef]; lia|].
    subst t2. cbn [andb] in E3. subst t. auto.
Qed.
End Head.
End Static.

Section Run.
Variable w : Z.
Variable otherOp : nat -> Z -> Z -> Z.
Variable pureOp : nat -> list Z -> Z.
Variable globalAddr : nat -> Z.
Variable argVal : nat -> Z.
Variable callSem : nat -> list Z -> (Z -> Z) -> (Z -> Z) -> Z -> Prop.
Variable C : ctx.
Variable covers : nat -> Z -> Prop.
Notation ev := (ev globalAddr argVal).
Notation lstep := (lstep w otherOp pureOp globalAddr argVal callSem C covers).
Notation exec := (exec w otherOp pureOp globalAddr argVal callSem C covers).
Notation ready := (ready C).
Notation reach := (reach w otherOp pureOp globalAddr argVal callSem C covers).
Notation op := (op C).
Notation args := (args C).
Hypothesis tree : treeRight C covers.
Hypothesis calls : callsRight callSem C covers.

Lemma step_regs traits s x s' y : lstep traits s x s' -> y <> x -> regs s' y = regs s y.
Proof.
  intros [S _] Hy. inversion S;
    match goal with
    | H : result _ _ _ _ |- _ => now apply (proj2 H)
    | H : forall y, regs s' y = regs s y |- _ => apply H
    end.
Qed.

Section Set_.
Variable inS : nat -> Prop.
Variable traits : nat -> option bool.
Variable s0 : state.
Hypothesis inS_dec : forall x, inS x \/ ~ inS x.
Hypothesis opsR : operandsRight C inS.

Definition produced (x : nat) (z : Z) : Prop :=
  exists done s s', reach inS traits s0 done s /\ inS x /\ ready inS done x /\ lstep traits s x s' /\ regs s' x = z.
Lemma reach_regs done s : reach inS traits s0 done s -> forall x, In x done -> produced x (regs s x).
Proof.
  induction 1 as [|done s x s' R IH Hx Hr St|]; intros y Hy; [destruct Hy| |destruct Hy].
  destruct (Nat.eq_dec y x) as [->|N].
  - exists done, s, s'. auto.
  - destruct Hy as [<-|Hy]; [now elim N|]. rewrite (step_regs _ _ _ _ _ St N). now apply IH.
Qed.
Lemma reach_out done s : reach inS traits s0 done s -> forall x, ~ inS x -> regs s x = regs s0 x.
Proof.
  induction 1 as [|done s x s' R IH Hx Hr St|]; intros y Hy; auto.
  rewrite (step_regs _ _ _ _ y St); [now apply IH|]. intros ->. contradiction.
Qed.
Lemma reach_mem done s : reach inS traits s0 done s -> forall n a, keptNode traits n -> covers n a -> mem s a = mem s0 a.
Proof.
  induction 1 as [|done s x s' R IH Hx Hr St|]; intros n a Hn Ha; [reflexivity| |eauto].
  destruct St as (_ & _ & T). rewrite (T n a Hn Ha). now apply (IH n).
Qed.
(** Value of an operand *)
Definition fixedVal (v : value) (z : Z) : Prop :=
  match v with
  | VUser y => (inS y /\ produced y z) \/ (~ inS y /\ z = regs s0 y)
  | VConst c => z = c
  | VGlobal g => z = globalAddr g
  | VArg a => z = argVal a
  end.
Lemma fixed_ev done s v : reach inS traits s0 done s -> evaluated inS done v -> fixedVal v (ev s v).
Proof.
  intros R E. destruct v as [y|c|g|a]; cbn [fixedVal CanonSpec.ev evaluated] in *; auto.
  destruct (inS_dec y) as [Hy|Hy].
  - left. split; [exact Hy|]. apply (reach_regs done); auto.
  - right. split; [exact Hy|]. now apply (reach_out done).
Qed.
Lemma uniq f : forall x t, isLoopInvariantMemory C traits f x = ITuple t -> tRes t = true -> tUse t = 0%nat -> tDef t = 0%nat ->
  noPhi C x -> op x <> OStore -> op x <> OBranch -> forall z1 z2, produced x z1 -> produced x z2 -> z1 = z2.
Proof.
  induction f as [|f IH]; intros x t H Ht Hu Hd NP NS NB z1 z2 P1 P2; [discriminate|].
  assert (A : accepted C traits (VUser x)) by (exists (S f), t; auto).
  destruct (accepted_inv _ _ _ A) as [_ Acc].
  destruct (ilm_shape _ _ _ _ _ H Ht) as (f' & u & d & idxs & t' & n' & Ef & E1 & E2 & E3). injection Ef as <-.
  destruct (opsLoop_grows _ _ _ _ _ _ _ _ _ E2 eq_refl) as (G1 & G2 & G3 & G4 & G5 & G6). cbn [tUse tDef] in *.
  assert (Hut : tUse t' = 0%nat /\ tDef t' = 0%nat) by (subst t; destruct (n' && _ && _); cbn [tUse tDef] in *; auto).
  destruct P1 as (done1 & s1 & s1' & R1 & I1 & Rd1 & St1 & <-), P2 as (done2 & s2 & s2' & R2 & _ & Rd2 & St2 & <-).
  assert (NPx : op x <> OPhi) by (apply NP; constructor).
  assert (AV : forall v, In v (args x) -> ev s1 v = ev s2 v).
  { intros v Hv. pose proof (G5 v Hv) as G. destruct v as [y|c|g|a]; cbn [CanonSpec.ev]; auto.
    destruct G as (T & U1 & U2 & U3 & U4).
    destruct (inS_dec y) as [Hy|Hy].
    - destruct (proj2 (proj2 opsR) x y Hv) as [Ns Nb].
      apply (IH y T U1 U2); try lia; auto.
      + intros q Hq. apply NP. eapply n_arg; eauto.
      + apply (reach_regs done1); [exact R1|now apply Rd1].
      + apply (reach_regs done2); [exact R2|now apply Rd2].
    - rewrite (reach_out _ _ R1 y Hy), (reach_out _ _ R2 y Hy). reflexivity. }
  assert (AM : map (ev s1) (args x) = map (ev s2) (args x)) by (apply map_ext_in; exact AV).
  destruct St1 as (St1 & Al1 & _), St2 as (St2 & Al2 & _).
  pose proof (proj1 opsR x I1) as NA.
  inversion St1 as [p1 O1 A1 Re1 M1|v1 p1 O1|q1 Cp1 Re1 M1|v1 O1|q1 O1|O1|f1 q1 O1 Cs1 Re1]; try congruence;
  inversion St2 as [p2 O2 A2 Re2 M2|v2 p2 O2|q2 Cp2 Re2 M2|v2 O2|q2 O2|O2|f2 q2 O2 Cs2 Re2]; try congruence;
  try (rewrite O1 in Cp2; cbn [compute] in Cp2; discriminate);
  try (rewrite O2 in Cp1; cbn [compute] in Cp1; discriminate).
  - (* loads *)
    rewrite A1 in A2. injection A2 as <-. rewrite (proj1 Re1), (proj1 Re2).
    assert (EV : ev s1 p1 = ev s2 p1) by (apply AV; rewrite A1; now left).
    specialize (Acc (ALoc 0 true false)). unfold accesses in Acc. unfold CanonSpec.op in O1. rewrite O1 in Acc.
    destruct (Acc (or_introl eq_refl) (or_introl eq_refl)) as (n & N1 & N2).
    unfold aliasRight, CanonSpec.op in Al1, Al2. rewrite O1, A1, N1 in Al1, Al2.
    rewrite (reach_mem _ _ R1 n _ N2 Al1), (reach_mem _ _ R2 n _ N2 Al2), EV. reflexivity.
  - rewrite AM in Cp1. rewrite Cp1 in Cp2. injection Cp2 as <-. now rewrite (proj1 Re1), (proj1 Re2).
  - rewrite (proj1 Re1), (proj1 Re2). rewrite AM in Cs1.
    unfold accesses in Acc. unfold CanonSpec.op in O1. rewrite O1 in Acc.
    apply (proj2 calls x f1 (map (ev s2) (args x)) (mem s1) (mem s1') q1 (mem s2) (mem s2') q2 O1); auto.
    + intros r wr Hin. exact (proj1 (Acc _ Hin)).
    + intros c a Hc Hr Hm. specialize (Acc c Hc). destruct c as [i r wr|r wr]; cbn [mayTouch reads] in *.
      * destruct (Acc (or_introl Hr)) as (n & N1 & N2). rewrite N1 in Hm.
        now rewrite (reach_mem _ _ R1 n _ N2 Hm), (reach_mem _ _ R2 n _ N2 Hm).
      * destruct Acc as (_ & n & N1 & N2). rewrite N1 in Hm.
        now rewrite (reach_mem _ _ R1 n _ N2 Hm), (reach_mem _ _ R2 n _ N2 Hm).
Qed.
Definition noPhiV (v : value) : Prop := match v with VUser y => noPhi C y /\ op y <> OStore /\ op y <> OBranch | _ => True end.
Lemma fixed_uniq v z1 z2 : accepted C traits v -> noPhiV v -> fixedVal v z1 -> fixedVal v z2 -> z1 = z2.
Proof.
  destruct v as [y|c|g|a]; cbn [accepted noPhiV fixedVal]; [|congruence..].
  intros (f & t & H & Ht & Hu & Hd) (N1 & N2 & N3) [[I1 P1]|[I1 P1]] [[I2 P2]|[I2 P2]]; try contradiction; [|congruence].
  now apply (uniq f y t H Ht Hu Hd N1 N2 N3).
Qed.
Lemma reach_uniq v done1 s1 done2 s2 : accepted C traits v -> noPhiV v ->
  reach inS traits s0 done1 s1 -> evaluated inS done1 v -> reach inS traits s0 done2 s2 -> evaluated inS done2 v -> ev s1 v = ev s2 v.
Proof. intros A N R1 E1 R2 E2. apply (fixed_uniq v); auto; eapply fixed_ev; eauto. Qed.
(** Execution of a list of instructions *)
Lemma exec_reach xs : forall done s s', exec traits xs s s' -> reach inS traits s0 done s -> (forall x, In x xs -> inS x) ->
  (forall pre x post, xs = pre ++ x :: post -> ready inS (rev pre ++ done) x) -> reach inS traits s0 (rev xs ++ done) s'.
Proof.
  induction xs as [|x xs IH]; intros done s s' E R Hin Hr; inversion E as [|x' xs' a b c St Ex]; subst; [exact R|].
  cbn [rev]. rewrite <- app_assoc. apply (IH (x :: done) b); auto.
  - econstructor; eauto; [apply Hin; now left|]. apply (Hr [] x xs eq_refl).
  - intros y Hy. apply Hin. now right.
  - intros pre y post ->. specialize (Hr (x :: pre) y post eq_refl). cbn [rev] in Hr. now rewrite <- app_assoc in Hr.
Qed.
End Set_.
End Run.

(** * The whole check *)
Section Check_.
Variable C : ctx.
Definition noWrite (x : nat) : Prop := forall c, In c (accesses C x) -> writes c = true ->
  match c with
  | ALoc i _ _ => exists n, cDim C x i = Some n /\ cUnreach C (cInduct C) n = true
  | AUnk _ _ => exists n, cDimU C x = Some n /\ cUnreach C (cInduct C) n = true
  end.
Lemma fold_write x l : forall s, (fst s <= fst (fold_left (writeStep C x) l s))%nat /\
  (fst (fold_left (writeStep C x) l s) = fst s -> fold_left (writeStep C x) l s = s /\
     forall c, In c l -> writes c = true ->
       match c with
       | ALoc i _ _ => exists n, cDim C x i = Some n /\ cUnreach C (cInduct C) n = true
       | AUnk _ _ => exists n, cDimU C x = Some n /\ cUnreach C (cInduct C) n = true
       end).
Proof.
  induction l as [|c l IH]; intros s; cbn [fold_left].
  - split; [lia|]. intros _. split; [reflexivity|]. intros c [].
  - destruct (IH (writeStep C x s c)) as [H1 H2].
    assert (K : writeStep C x s c = s /\ (writes c = true -> match c with
       | ALoc i _ _ => exists n, cDim C x i = Some n /\ cUnreach C (cInduct C) n = true
       | AUnk _ _ => exists n, cDimU C x = Some n /\ cUnreach C (cInduct C) n = true
       end) \/ fst (writeStep C x s c) = S (fst s)).
    { destruct c as [i r [|]|r [|]]; cbn [writeStep writes].
      - destruct (cDim C x i) as [n|]; [|now right]. destruct (cUnreach C (cInduct C) n) eqn:E; cbn [negb]; [left; eauto|now right].
      - left. split; [reflexivity|discriminate].
      - destruct (cDimU C x) as [n|]; [|now right]. destruct (cUnreach C (cInduct C) n) eqn:E; cbn [negb]; [left; eauto|now right].
      - left. split; [reflexivity|discriminate]. }
    destruct K as [[K1 K2]|K].
    + rewrite K1 in *. split; [exact H1|]. intros E. destruct (H2 E) as [E1 E2]. split; [exact E1|]. intros c' [<-|Hc]; [exact K2|exact (E2 c' Hc)].
    + split; [lia|]. intros E. lia.
Qed.
Lemma fold_writes code : forall s, (fst s <= fst (fold_left (instWrites C) code s))%nat /\
  (fst (fold_left (instWrites C) code s) = fst s -> fold_left (instWrites C) code s = s /\ forall x, In x code -> noWrite x).
Proof.
  induction code as [|x code IH]; intros s; cbn [fold_left].
  - split; [lia|]. intros _. split; [reflexivity|]. intros x [].
  - destruct (IH (instWrites C s x)) as [H1 H2]. destruct (fold_write x (accesses C x) s) as [K1 K2]. fold (instWrites C s x) in K1, K2.
    split; [lia|]. intros E. destruct (K2 ltac:(lia)) as [K3 K4]. rewrite K3 in *. destruct (H2 E) as [E1 E2].
    split; [exact E1|]. intros y [<-|Hy]; [exact K4|auto].
Qed.
Section Incr.
Variable L : loop.
Variable latch incr : nat.
Hypothesis Hl : lLatch L = Some latch.
Hypothesis Hin : In incr (lCode L latch).
Hypothesis Hnd : NoDup (lCode L latch).
Hypothesis Hw : forall s, instWrites C s incr = (S (fst s), Some incr).
Lemma latch_writes o : forall s, s = fold_left (instWrites C) (lCode L latch) (O, o) ->
  (1 <= fst s)%nat /\ (fst s = 1%nat -> snd s = Some incr /\ forall x, In x (lCode L latch) -> x <> incr -> noWrite x).
Proof.
  intros s ->. destruct (in_split _ _ Hin) as (A & B & E). rewrite E. rewrite fold_left_app. cbn [fold_left]. rewrite Hw.
  destruct (fold_writes A (O, o)) as [A1 A2]. set (sa := fold_left _ A _) in *.
  destruct (fold_writes B (S (fst sa), Some incr)) as [B1 B2]. cbn [fst] in *. split; [lia|].
  intros H1. destruct (A2 ltac:(lia)) as [_ A4]. destruct (B2 ltac:(lia)) as [B3 B4]. rewrite B3. split; [reflexivity|].
  intros x Hx Nx. apply in_app_or in Hx. destruct Hx as [Hx|[Hx|Hx]]; [auto|congruence|auto].
Qed.
Lemma findIncrement_right bs : forall o r, findIncrement C L bs o = Some r ->
  (forall b x, In b bs -> In x (lCode L b) -> x <> incr -> noWrite x) /\
  (In latch bs -> r = Some incr) /\ (o = Some incr -> r = Some incr).
Proof.
  induction bs as [|b bs IH]; intros o r H; cbn [findIncrement] in H.
  - injection H as <-. split; [intros b x []|]. split; [intros []|auto].
  - set (s := fold_left (instWrites C) (lCode L b) (O, o)) in *.
    destruct (Nat.eqb (fst s) 0) eqn:E0.
    + apply Nat.eqb_eq in E0. destruct (fold_writes (lCode L b) (O, o)) as [_ F]. fold s in F. cbn [fst] in F.
      destruct (F E0) as [F1 F2]. rewrite F1 in H. cbn [snd] in H. destruct (IH _ _ H) as (I1 & I2 & I3).
      split; [intros b' x [<-|Hb] Hx Nx; [now apply F2|eapply I1; eauto]|]. split; [|exact I3].
      intros [Eb|Hb]; [|auto]. subst b. destruct (latch_writes o s eq_refl) as [W _]. lia.
    + destruct (negb _ || _ || _) eqn:EE in H; [discriminate|]. apply orb_false_iff in EE. destruct EE as [EE E1]. apply orb_false_iff in EE. destruct EE as [EL E2].
      rewrite Hl in EL. apply negb_false_iff, Nat.eqb_eq in EL. subst b. apply negb_false_iff, Nat.eqb_eq in E1.
      destruct (latch_writes o s eq_refl) as [_ W]. destruct (W E1) as [W1 W2]. rewrite W1 in H. destruct (IH _ _ H) as (I1 & I2 & I3).
      split; [intros b' x [<-|Hb] Hx Nx; [now apply W2|eapply I1; eauto]|]. split; auto.
Qed.
End Incr.
Lemma checkLoop_canonical fuel L r : checkLoop C fuel L = Info r -> rCanonical r = true ->
  exists ph Init Cond Incr traits t1 t2 t3 st,
    lPreheader L = Some ph /\ findLastWrite C (lCode L ph) = Some Init /\ findLastCmp C (lCode L (lHeader L)) = Some Cond /\
    findIncrement C L (lBlocks L) None = Some (Some Incr) /\ lTraits L = Some traits /\
    isLoopInvariantMemory C traits fuel Init = ITuple t1 /\ tRes t1 = true /\ tDef t1 = 1%nat /\ tUse t1 = 0%nat /\
    isLoopInvariantMemory C traits fuel Incr = ITuple t2 /\ tRes t2 = true /\ tDef t2 = 1%nat /\ (tUse t2 <= 1)%nat /\
    stepOf C t2 = Some st /\
    isLoopInvariantMemory C traits fuel Cond = ITuple t3 /\ tRes t3 = true /\ tDef t3 = 0%nat /\ (tUse t3 <= 1)%nat /\
    rStart r = tExpr t1 /\ rEnd r = tExpr t3 /\ rStep r = st /\ rPred r = predOf C Cond (tExpr t3) /\
    (rRectangular r = true -> exists ptraits t, lParent L = Some (Some ptraits) /\
       rectangular C ptraits fuel Init Incr Cond = ITuple t /\ tRes t = true).
Proof.
  unfold checkLoop. intros H Hr.
  destruct (lPreheader L) as [ph|] eqn:E1; [|discriminate].
  destruct (findLastWrite C (lCode L ph)) as [Init|] eqn:E2; [|discriminate].
  destruct (findLastCmp C (lCode L (lHeader L))) as [Cond|] eqn:E3; [|discriminate].
  destruct (findIncrement C L (lBlocks L) None) as [Increment|] eqn:E4; [|injection H as <-; discriminate].
  destruct (lTraits L) as [traits|] eqn:E5; [|injection H as <-; discriminate].
  destruct (isLoopInvariantMemory C traits fuel Init) as [| |t1] eqn:E6; [discriminate..|].
  destruct (negb (tRes t1) || _ || _) eqn:E7; [injection H as <-; discriminate|].
  destruct Increment as [Incr|]; [|discriminate].
  destruct (isLoopInvariantMemory C traits fuel Incr) as [| |t2] eqn:E8; [discriminate..|].
  destruct (negb (tRes t2) || _ || _) eqn:E9; [injection H as <-; discriminate|].
  destruct (stepOf C t2) as [st|] eqn:E10; [|discriminate].
  destruct (isLoopInvariantMemory C traits fuel Cond) as [| |t3] eqn:E11; [discriminate..|].
  destruct (negb (tRes t3) || _ || _) eqn:E12; [injection H as <-; discriminate|].
  apply orb_false_iff in E7, E9, E12. destruct E7 as [E7 E7c], E9 as [E9 E9c], E12 as [E12 E12c].
  apply orb_false_iff in E7, E9, E12. destruct E7 as [E7 E7b], E9 as [E9 E9b], E12 as [E12 E12b].
  apply negb_false_iff in E7, E7b, E7c, E9, E9b, E9c, E12, E12b, E12c.
  apply Nat.eqb_eq in E7b, E7c, E9b, E12b. apply Nat.leb_le in E9c, E12c.
  exists ph, Init, Cond, Incr, traits, t1, t2, t3, st.
  assert (K : rStart r = tExpr t1 /\ rEnd r = tExpr t3 /\ rStep r = st /\ rPred r = predOf C Cond (tExpr t3) /\
    (rRectangular r = true -> exists ptraits t, lParent L = Some (Some ptraits) /\
       rectangular C ptraits fuel Init Incr Cond = ITuple t /\ tRes t = true)).
  { destruct (lParent L) as [[ptraits|]|] eqn:E13; [|injection H as <-; cbn; repeat split; auto; discriminate..].
    destruct (rectangular C ptraits fuel Init Incr Cond) as [| |t] eqn:E14; [discriminate..|].
    injection H as <-. cbn. repeat split; auto. intros Ht. exists ptraits, t. auto. }
  destruct K as (K1 & K2 & K3 & K4 & K5).
  repeat (split; [first [assumption|reflexivity]|]). exact K5.
Qed.
End Check_.

(** * Executions of the loop *)
Section Loop_.
Variable w : Z.
Variable otherOp : nat -> Z -> Z -> Z.
Variable pureOp : nat -> list Z -> Z.
Variable globalAddr : nat -> Z.
Variable argVal : nat -> Z.
Variable callSem : nat -> list Z -> (Z -> Z) -> (Z -> Z) -> Z -> Prop.
Variable C : ctx.
Variable covers : nat -> Z -> Prop.
Notation ev := (ev globalAddr argVal).
Notation lstep := (lstep w otherOp pureOp globalAddr argVal callSem C covers).
Notation exec := (exec w otherOp pureOp globalAddr argVal callSem C covers).
Notation ready := (ready C).
Notation reach := (reach w otherOp pureOp globalAddr argVal callSem C covers).
Notation fixedVal := (fixedVal w otherOp pureOp globalAddr argVal callSem C covers).
Notation op := (op C).
Notation args := (args C).
Hypothesis tree : treeRight C covers.
Hypothesis calls : callsRight callSem C covers.

Lemma noWrite_mem traits s x s' a : lstep traits s x s' -> noWrite C x -> covers (cInduct C) a -> mem s' a = mem s a.
Proof.
  intros (St & Al & _) NW Ha. inversion St as [p O A Re M|v p O A Re Mw M|q Cp Re M|v O|q O|O|f q O Cs Re]; auto.
  - apply M. intros ->. unfold noWrite, accesses in NW. unfold CanonSpec.op in O. rewrite O in NW.
    destruct (NW _ (or_introl eq_refl) eq_refl) as (n & N1 & N2).
    unfold aliasRight, CanonSpec.op in Al. rewrite O, A, N1 in Al. exact (tree _ _ _ N2 Ha Al).
  - destruct (Z.eq_dec (mem s' a) (mem s a)) as [E|N]; [exact E|exfalso].
    destruct (proj1 calls _ _ _ _ _ _ _ O Cs N) as (c & C1 & C2 & C3).
    unfold noWrite, accesses in NW. unfold CanonSpec.op in O. rewrite O in NW. specialize (NW c C1 C2).
    destruct c; cbn [mayTouch] in C3; destruct NW as (n & N1 & N2); rewrite N1 in C3; exact (tree _ _ _ N2 Ha C3).
Qed.
Lemma noAccess_mem traits s x s' a : lstep traits s x s' -> accesses C x = [] -> mem s' a = mem s a.
Proof.
  intros (St & Al & _) NA. inversion St as [p O A Re M|v p O A Re Mw M|q Cp Re M|v O|q O|O|f q O Cs Re]; auto;
    unfold accesses in NA; unfold CanonSpec.op in O; rewrite O in NA; try discriminate.
  destruct (Z.eq_dec (mem s' a) (mem s a)) as [E|N]; [exact E|exfalso].
  destruct (proj1 calls _ _ _ _ _ _ _ O Cs N) as (c & C1 & _). rewrite NA in C1. destruct C1.
Qed.
Lemma exec_app traits xs ys s s' : exec traits (xs ++ ys) s s' -> exists m, exec traits xs s m /\ exec traits ys m s'.
Proof.
  revert s. induction xs as [|x xs IH]; intros s E; cbn [app] in E.
  - exists s. split; [constructor|exact E].
  - inversion E as [|x' xs' a b c St Ex]; subst. destruct (IH _ Ex) as (m & M1 & M2). exists m. split; [econstructor; eauto|exact M2].
Qed.
Lemma exec_app_inv traits xs ys s m s' : exec traits xs s m -> exec traits ys m s' -> exec traits (xs ++ ys) s s'.
Proof. intros E1 E2. induction E1; cbn [app]; [exact E2|]. econstructor; eauto. Qed.

Variable L : loop.
Variable ivar : value.
Variables ph latch init cmp incr : nat.
Hypothesis HS : ssa C L.
Hypothesis HF : forLoop C L ivar ph latch init cmp incr.
Variable traits : nat -> option bool.
Variable s0 : state.
Notation inS := (inLoop L).
Notation ai := (ev s0 ivar).
Hypothesis Hai : covers (cInduct C) ai.
Hypothesis NW : forall x, inLoop L x -> x <> incr -> noWrite C x.

Lemma inS_dec x : inLoop L x \/ ~ inLoop L x.
Proof.
  destruct (in_dec Nat.eq_dec x (along L (lBlocks L))) as [H|H]; unfold along in H; rewrite in_flat_map in H; [left|right]; exact H.
Qed.
Lemma ivar_ev done s : reach inS traits s0 done s -> ev s ivar = ai.
Proof.
  intros R. pose proof (fl_ivar _ _ _ _ _ _ _ _ HF) as HV. destruct HS as (_ & _ & (NA & _) & _). destruct ivar as [x|c|g|a]; cbn [CanonSpec.ev]; auto.
  eapply reach_out; eauto. intros Hx. now apply (NA x Hx).
Qed.
(** e is a step, bnd is a bound *)
Variables (e bnd : value) (ng : bool) (p : pred) (cv : value).
Hypothesis Hcmp : op cmp = OCmp p /\ args cmp = [cv; bnd] /\ readsInduction C L ivar cv.
Record K (m : Z) (done : list nat) (s : state) : Prop := {
  k_reach : reach inS traits s0 done s;
  k_mem : mem s ai = m;
  k_reads : forall x, readsInduction C L ivar (VUser x) -> In x done -> regs s x = m;
  k_adv : forall x b, advBy C L ivar (VUser x) e ng b -> In x done ->
    exists z, fixedVal inS traits s0 e z /\ regs s x = wrap w (if ng then m - z else m + z);
  k_cmp : In cmp done -> exists z, fixedVal inS traits s0 bnd z /\ regs s cmp = if holds w p m z then 1 else 0 }.
Lemma compute_step s x s' z : step w otherOp pureOp globalAddr argVal callSem C s x s' -> compute w otherOp pureOp (op x) (map (ev s) (args x)) = Some z ->
  regs s' x = z.
Proof.
  intros St Hc. inversion St as [q O A Re M|v q O A Re Mw M|q Cp Re M|v O|q O|O|f q O Cs Re];
    try (rewrite O in Hc; cbn [compute] in Hc; discriminate).
  rewrite Cp in Hc. injection Hc as <-. apply Re.
Qed.
Lemma K_step m done s x s' : K m done s -> inLoop L x -> ready inS done x -> x <> incr -> lstep traits s x s' -> K m (x :: done) s'.
Proof.
  intros HK Hx Hr Nx St. pose proof (k_reach _ _ _ HK) as R.
  assert (RD : forall v, readsInduction C L ivar v -> op x <> OPhi -> In v (args x) -> ev s v = m).
  { intros v Rv Np Hv. assert (exists z, v = VUser z /\ inLoop L z) as (z & -> & Hz) by (inversion Rv; eauto).
    cbn [CanonSpec.ev]. apply (k_reads _ _ _ HK z Rv). now apply Hr. }
  assert (FV : forall v, op x <> OPhi -> In v (args x) -> fixedVal inS traits s0 v (ev s v)).
  { intros v Np Hv. eapply fixed_ev; eauto; [apply inS_dec|]. destruct v; cbn [evaluated]; auto. }
  constructor.
  - econstructor; eauto.
  - rewrite (noWrite_mem _ _ _ _ _ St); [apply (k_mem _ _ _ HK)|now apply NW|exact Hai].
  - intros y Ry Hy. destruct (Nat.eq_dec y x) as [->|Ny].
    + inversion Ry as [x' Ho Ha Hl E|x' v Ho Ha Rv Hl E]; subst x'.
      * destruct St as [St _]. inversion St as [q O A Re M|v q O A Re Mw M|q Cp Re M|v O|q O|O|f q O Cs Re]; try congruence.
        -- rewrite Ha in A. injection A as <-. rewrite (proj1 Re), (ivar_ev _ _ R). apply (k_mem _ _ _ HK).
        -- rewrite Ho in Cp. discriminate.
      * apply (compute_step s x s'); [apply St|]. rewrite Ho, Ha. cbn [map compute]. f_equal. apply RD; [exact Rv|congruence|rewrite Ha; now left].
    + destruct Hy as [Hy|Hy]; [congruence|]. rewrite (step_regs _ _ _ _ _ _ _ _ _ _ _ _ _ St Ny). now apply (k_reads _ _ _ HK).
  - intros y b Ay Hy. destruct (Nat.eq_dec y x) as [->|Ny].
    + inversion Ay as [x' v e' Ho Ha Rv Hl E1 E2 E3|x' v e' Ho Ha Rv Hl E1 E2 E3|x' v e' Ho Ha Rv Hl E1 E2 E3|x' v e' ng' b' Ho Ha Av Hl E1 E2 E3]; subst x' e'; try subst ng; try subst ng'; try subst b'; try subst b.
      * exists (ev s e). split; [apply FV; [congruence|rewrite Ha; cbn; auto]|].
        apply (compute_step s x s'); [apply St|]. rewrite Ho, Ha. cbn [map compute]. rewrite (RD v Rv); [reflexivity|congruence|rewrite Ha; cbn; auto].
      * exists (ev s e). split; [apply FV; [congruence|rewrite Ha; cbn; auto]|].
        apply (compute_step s x s'); [apply St|]. rewrite Ho, Ha. cbn [map compute]. rewrite (RD v Rv); [reflexivity|congruence|rewrite Ha; cbn; auto].
      * exists (ev s e). split; [apply FV; [congruence|rewrite Ha; cbn; auto]|].
        apply (compute_step s x s'); [apply St|]. rewrite Ho, Ha. cbn [map compute]. rewrite (RD v Rv); [f_equal; f_equal; lia|congruence|rewrite Ha; cbn; auto].
      * assert (exists z, v = VUser z /\ inLoop L z) as (z & -> & Hz) by (inversion Av; eauto).
        destruct (k_adv _ _ _ HK z b Av) as (q & Q1 & Q2); [apply Hr; [congruence|rewrite Ha; now left|exact Hz]|].
        exists q. split; [exact Q1|]. rewrite <- Q2. apply (compute_step s x s'); [apply St|]. rewrite Ho, Ha. reflexivity.
    + destruct Hy as [Hy|Hy]; [congruence|]. rewrite (step_regs _ _ _ _ _ _ _ _ _ _ _ _ _ St Ny). now apply (k_adv _ _ _ HK y b).
  - intros Hy. destruct (Nat.eq_dec cmp x) as [<-|Ny].
    + destruct Hcmp as (Ho & Ha & Rc). exists (ev s bnd). split; [apply FV; [congruence|rewrite Ha; cbn; auto]|].
      apply (compute_step s cmp s'); [apply St|]. rewrite Ho, Ha. cbn [map compute]. rewrite (RD cv Rc); [reflexivity|congruence|rewrite Ha; cbn; auto].
    + destruct Hy as [Hy|Hy]; [congruence|]. rewrite (step_regs _ _ _ _ _ _ _ _ _ _ _ _ _ St Ny). now apply (k_cmp _ _ _ HK).
Qed.
Lemma K_exec m xs : forall done s s', exec traits xs s s' -> K m done s -> (forall x, In x xs -> inLoop L x /\ x <> incr) ->
  (forall pre x post, xs = pre ++ x :: post -> ready inS (rev pre ++ done) x) -> K m (rev xs ++ done) s'.
Proof.
  induction xs as [|x xs IH]; intros done s s' E HK Hin Hr; inversion E as [|x' xs' a b c St Ex]; subst; [exact HK|].
  cbn [rev]. rewrite <- app_assoc. apply (IH (x :: done) b); auto.
  - apply (K_step m done s); auto; [apply Hin; now left|apply (Hr [] x xs eq_refl)|apply Hin; now left].
  - intros y Hy. apply Hin. now right.
  - intros pre y post ->. specialize (Hr (x :: pre) y post eq_refl). cbn [rev] in Hr. now rewrite <- app_assoc in Hr.
Qed.
Lemma K_start s done : reach inS traits s0 done s -> K (mem s ai) [] s.
Proof.
  intros R. constructor; [econstructor; eauto|reflexivity|intros x _ []|intros x b _ []|intros []].
Qed.
Lemma defined_ready xs : definedBefore C L xs -> forall pre x post, xs = pre ++ x :: post -> ready inS (rev pre ++ []) x.
Proof. intros D pre x post E Np y Hy Hl. rewrite app_nil_r, <- in_rev. eapply D; eauto. Qed.
Lemma header_in x : In x (lCode L (lHeader L)) -> inLoop L x /\ x <> incr.
Proof.
  intros Hx. split; [exists (lHeader L); split; [apply (fl_header _ _ _ _ _ _ _ _ HF)|exact Hx]|]. intros ->.
  destruct HS as (_ & _ & _ & _ & DJ). apply (fl_differ _ _ _ _ _ _ _ _ HF).
  destruct (fl_incr _ _ _ _ _ _ _ _ HF) as (_ & I2 & _).
  eapply DJ; eauto; [apply (fl_header _ _ _ _ _ _ _ _ HF)|apply (fl_latch_in _ _ _ _ _ _ _ _ HF)].
Qed.
Lemma header_K s h done : reach inS traits s0 done s -> exec traits (lCode L (lHeader L)) s h -> K (mem s ai) (rev (lCode L (lHeader L)) ++ []) h.
Proof.
  intros R E. apply (K_exec _ _ _ s); auto; [eapply K_start; eauto|apply header_in|].
  apply defined_ready. apply HS.
Qed.
Lemma header_eval s h done : reach inS traits s0 done s -> exec traits (lCode L (lHeader L)) s h ->
  (exists z, fixedVal inS traits s0 bnd z /\ regs h cmp = if holds w p (mem s ai) z then 1 else 0) /\
  fixedVal inS traits s0 bnd (ev h bnd).
Proof.
  intros R E. pose proof (header_K s h done R E) as HK.
  destruct (fl_cmp_last _ _ _ _ _ _ _ _ HF) as (pre & post & Ec & _).
  split.
  - apply (k_cmp _ _ _ HK). rewrite app_nil_r, <- in_rev, Ec. apply in_or_app. right. now left.
  - eapply fixed_ev; [apply inS_dec|apply (k_reach _ _ _ HK)|]. destruct bnd as [y|c|g|a] eqn:Eb; cbn [evaluated]; auto.
    intros Hy. rewrite app_nil_r, <- in_rev, Ec. apply in_or_app. left.
    destruct HS as (_ & D & _). destruct Hcmp as (Ho & Ha & _). eapply D; eauto; [congruence|]. rewrite Ha. cbn; auto.
Qed.
Lemma iteration s h s' bs done v b : reach inS traits s0 done s -> exec traits (lCode L (lHeader L)) s h ->
  iterationBlocks L latch bs -> exec traits (along L bs) h s' ->
  args incr = [v; ivar] -> advBy C L ivar v e ng b ->
  (exists done', reach inS traits s0 done' s') /\
  fixedVal inS traits s0 e (ev s' e) /\
  exists z, fixedVal inS traits s0 e z /\ mem s' ai = wrap w (if ng then mem s ai - z else mem s ai + z).
Proof.
  intros R Eh Hbs Eb Ha Av. pose proof Hbs as (bs' & -> & Hb').
  destruct HS as (DF & _ & _ & ND & DJ).
  specialize (DF latch _ (fl_latch _ _ _ _ _ _ _ _ HF) Hbs).
  destruct (fl_incr _ _ _ _ _ _ _ _ HF) as (Io & Iin & _).
  destruct (in_split _ _ Iin) as (A & B & EL).
  pose proof (fl_latch_in _ _ _ _ _ _ _ _ HF) as Hlin.
  pose proof (ND latch Hlin) as NDl. rewrite EL in NDl.
  assert (NAB : ~ In incr A /\ ~ In incr B).
  { pose proof (NoDup_remove_2 _ _ _ NDl) as N. split; intros H; apply N; apply in_or_app; auto. }
  set (pre := lCode L (lHeader L) ++ along L bs' ++ A).
  assert (EX : along L (lHeader L :: bs' ++ [latch]) = pre ++ incr :: B).
  { unfold along, pre. cbn [flat_map]. rewrite flat_map_app. cbn [flat_map]. rewrite app_nil_r, EL.
    change (flat_map (lCode L) bs') with (along L bs'). now rewrite <- !app_assoc. }
  assert (EE : exec traits (pre ++ incr :: B) s s').
  { rewrite <- EX. unfold along. cbn [flat_map]. eapply exec_app_inv; eauto. }
  destruct (exec_app _ _ _ _ _ EE) as (m1 & M1 & M2).
  inversion M2 as [|x' xs' q1 m2 q2 St M3]; subst.
  assert (INL : forall x, In x (pre ++ incr :: B) -> inLoop L x).
  { intros x Hx. rewrite <- EX in Hx. unfold along in Hx. apply in_flat_map in Hx. destruct Hx as (b' & B1 & B2). exists b'. split; [|exact B2].
    destruct B1 as [<-|B1]; [apply (fl_header _ _ _ _ _ _ _ _ HF)|]. apply in_app_or in B1. destruct B1 as [B1|[<-|[]]]; [now apply Hb'|exact Hlin]. }
  assert (PRE : forall x, In x pre -> inLoop L x /\ x <> incr).
  { intros x Hx. split; [apply INL; apply in_or_app; now left|]. unfold pre in Hx. apply in_app_or in Hx. destruct Hx as [Hx|Hx]; [now apply header_in|].
    apply in_app_or in Hx. destruct Hx as [Hx|Hx]; [|intros ->; now apply (proj1 NAB)].
    intros ->. unfold along in Hx. apply in_flat_map in Hx. destruct Hx as (b' & B1 & B2). destruct (Hb' b' B1) as (B3 & B4 & _).
    apply B4. eapply DJ; eauto. }
  rewrite EX in DF. pose proof (defined_ready _ DF) as RDY.
  assert (HK : K (mem s ai) (rev pre ++ []) m1).
  { apply (K_exec _ _ _ s); auto; [eapply K_start; eauto|]. intros pr x po E. apply (RDY pr x (po ++ incr :: B)). now rewrite E, <- app_assoc. }
  pose proof (k_reach _ _ _ HK) as R1.
  assert (Rdi : ready inS (rev pre ++ []) incr) by (apply (RDY pre incr B eq_refl)).
  assert (exists z, v = VUser z /\ inLoop L z) as (z & -> & Hz) by (inversion Av; eauto).
  assert (Hzd : In z (rev pre ++ [])) by (apply Rdi; [congruence|rewrite Ha; now left|exact Hz]).
  destruct (k_adv _ _ _ HK z b Av Hzd) as (q & Q1 & Q2).
  assert (R2 : reach inS traits s0 (incr :: rev pre ++ []) m2).
  { econstructor; eauto. apply INL. apply in_or_app. right. now left. }
  assert (R3 : reach inS traits s0 (rev B ++ incr :: rev pre ++ []) s').
  { eapply exec_reach; eauto; [intros x Hx; apply INL; apply in_or_app; right; now right|].
    intros pr x po E. specialize (RDY (pre ++ incr :: pr) x po). rewrite E, <- app_assoc in RDY. specialize (RDY eq_refl).
    rewrite rev_app_distr in RDY. cbn [rev] in RDY. rewrite <- !app_assoc in RDY. exact RDY. }
  split; [eauto|]. split.
  - eapply fixed_ev; [apply inS_dec|exact R3|]. destruct (advBy_op _ _ _ _ _ _ _ Av) as (Bo & Bin & Bl).
    assert (BIN : In b pre).
    { assert (G : forall vv ee nn bb, advBy C L ivar vv ee nn bb -> forall zz, vv = VUser zz -> In zz pre -> In bb pre).
      { clear - RDY. intros vv ee nn bb AA. induction AA as [| | |x v e ng b Ho Hargs AA IH Hl]; intros zz Hzz Hin; injection Hzz as <-; auto.
        assert (exists z, v = VUser z /\ inLoop L z) as (z & -> & Hz) by (inversion AA; eauto).
        apply (IH z eq_refl). destruct (in_split _ _ Hin) as (P & Q & EP).
        specialize (RDY P x (Q ++ incr :: B)). rewrite EP, <- app_assoc in RDY. specialize (RDY eq_refl).
        rewrite EP. apply in_or_app. left. apply in_rev. rewrite <- (app_nil_r (rev P)). apply RDY; [congruence|rewrite Hargs; now left|exact Hz]. }
      eapply G; eauto. rewrite app_nil_r, <- in_rev in Hzd. exact Hzd. }
    destruct e as [y|c|g|a] eqn:Ee; cbn [evaluated]; auto. intros Hy.
    destruct (in_split _ _ BIN) as (P & Q & EP). specialize (RDY P b (Q ++ incr :: B)). rewrite EP, <- app_assoc in RDY. specialize (RDY eq_refl).
    apply in_or_app. right. right. rewrite app_nil_r, <- in_rev, EP. apply in_or_app. left. apply in_rev. rewrite <- (app_nil_r (rev P)).
    apply RDY; [destruct ng; congruence|exact Bin|exact Hy].
  - exists q. split; [exact Q1|]. rewrite <- Q2.
    assert (MB : mem s' ai = mem m2 ai).
    { assert (BN : forall x, In x B -> noWrite C x) by (intros x Hx; apply NW; [apply INL; apply in_or_app; right; now right|intros ->; now apply (proj2 NAB)]).
      clear - M3 BN Hai tree calls. induction M3 as [|x xs a b c St M IH]; [reflexivity|].
      rewrite IH by (intros y Hy; apply BN; now right). eapply noWrite_mem; eauto. apply BN. now left. }
    rewrite MB. destruct St as [St _]. inversion St as [y O A' Re M|v y O A' Re Mw M|y Cp Re M|v O|y O|O|f y O Cs Re]; try congruence.
    + rewrite Ha in A'. injection A' as <- <-. rewrite (ivar_ev _ _ R1) in Mw. exact Mw.
    + rewrite Io in Cp. discriminate.
Qed.
Lemma iterations_reach v b n s : args incr = [v; ivar] -> advBy C L ivar v e ng b ->
  iterations w otherOp pureOp globalAddr argVal callSem C covers L traits latch cmp s0 n s -> exists done, reach inS traits s0 done s.
Proof.
  intros Ha Av It. induction It as [|n s h s' bs It (done & R) Eh Ec Hbs Eb]; [exists []; constructor|].
  destruct (iteration s h s' bs done v b R Eh Hbs Eb Ha Av) as (X & _). exact X.
Qed.
End Loop_.

(** * Results *)
Section Final.
Variable w : Z.
Variable otherOp : nat -> Z -> Z -> Z.
Variable pureOp : nat -> list Z -> Z.
Variable globalAddr : nat -> Z.
Variable argVal : nat -> Z.
Variable callSem : nat -> list Z -> (Z -> Z) -> (Z -> Z) -> Z -> Prop.
Variable C : ctx.
Variable covers : nat -> Z -> Prop.
Notation ev := (ev globalAddr argVal).
Notation exec := (exec w otherOp pureOp globalAddr argVal callSem C covers).
Hypothesis tree : treeRight C covers.
Hypothesis calls : callsRight callSem C covers.
Variable L : loop.
Variable ivar : value.
Variables ph latch init cmp incr : nat.
Hypothesis HS : ssa C L.
Hypothesis HF : forLoop C L ivar ph latch init cmp incr.

Lemma init_found : findLastWrite C (lCode L ph) = Some init.
Proof.
  destruct (fl_init_last _ _ _ _ _ _ _ _ HF) as (pre & post & E & Hp). unfold findLastWrite. rewrite E. apply find_rev_last.
  - destruct (fl_init _ _ _ _ _ _ _ _ HF) as (Ho & v & Ha).
    destruct (fl_node _ _ _ _ _ _ _ _ HF init 1) as (n & N1 & N2 & N3); [right; eauto|].
    unfold isLastWrite, accesses. unfold op in Ho. rewrite Ho. cbn [fold_left lastWriteStep orb]. now rewrite N1, N3.
  - intros y Hy. unfold isLastWrite. now rewrite (proj1 (Hp y Hy)).
Qed.
Lemma cmp_found : findLastCmp C (lCode L (lHeader L)) = Some cmp.
Proof.
  destruct (fl_cmp_last _ _ _ _ _ _ _ _ HF) as (pre & post & E & Hp). unfold findLastCmp. rewrite E. apply find_rev_last.
  - destruct (fl_cmp _ _ _ _ _ _ _ _ HF) as (p & a & b & Ho & _). unfold isCmp. unfold op in Ho. now rewrite Ho.
  - intros y Hy. unfold isCmp. destruct (iOp (cInst C y)) eqn:E'; auto. now elim (Hp y p Hy).
Qed.
Lemma incr_found r : findIncrement C L (lBlocks L) None = Some r ->
  r = Some incr /\ forall x, inLoop L x -> x <> incr -> noWrite C x.
Proof.
  intros H. destruct (fl_incr _ _ _ _ _ _ _ _ HF) as (Ho & Hin & v & Ha & _).
  destruct (findIncrement_right C L latch incr (fl_latch _ _ _ _ _ _ _ _ HF) Hin) with (bs := lBlocks L) (o := @None nat) (r := r) as (R1 & R2 & _).
  - intros s. destruct (fl_node _ _ _ _ _ _ _ _ HF incr 1) as (n & N1 & N2 & N3); [right; eauto|].
    unfold instWrites, accesses. unfold op in Ho. rewrite Ho. cbn [fold_left writeStep]. now rewrite N1, N3.
  - exact H.
  - split; [apply R2, (fl_latch_in _ _ _ _ _ _ _ _ HF)|]. intros x (b & B1 & B2) N. eapply R1; eauto.
Qed.
Lemma advBy_needs v e ng b : advBy C L ivar v e ng b -> forall x, v = VUser x -> needs C x b.
Proof.
  induction 1 as [| | |x v e ng b Ho Ha A IH Hl]; intros y Hy; injection Hy as <-; try constructor.
  assert (exists z, v = VUser z) as [z ->] by (inversion A; eauto).
  eapply n_arg; [rewrite Ha; now left|]. now apply IH.
Qed.
Lemma needs_trans x y z : needs C x y -> needs C y z -> needs C x z.
Proof. induction 1; auto. intros. eapply n_arg; eauto. Qed.
Lemma noPhiV_arg x v : noPhi C x -> In v (args C x) -> noPhiV C v.
Proof.
  intros N Hv. destruct v as [y|c|g|a]; cbn [noPhiV]; auto. destruct HS as (_ & _ & (_ & _ & O) & _).
  destruct (O x y Hv). split; auto. intros z Hz. apply N. eapply n_arg; eauto.
Qed.
(** What is reported *)
Lemma reported fuel r : checkLoop C fuel L = Info r -> rCanonical r = true ->
  exists traits start end_ e ng b v, lTraits L = Some traits /\ rStart r = Some start /\ rEnd r = Some end_ /\ rStep r = Some (e, ng) /\
    args C init = [start; ivar] /\ args C incr = [v; ivar] /\ advBy C L ivar v e ng b /\
    accepted C traits start /\ accepted C traits e /\ accepted C traits end_ /\
    (forall x, inLoop L x -> x <> incr -> noWrite C x) /\
    (exists p c d, op C cmp = OCmp p /\ args C cmp = [c; d] /\
       (readsInduction C L ivar c /\ end_ = d /\ rPred r = Some p \/ readsInduction C L ivar d /\ end_ = c /\ rPred r = Some (inversePredicate p))) /\
    (rRectangular r = true -> exists ptraits, lParent L = Some (Some ptraits) /\ accepted C ptraits start /\ accepted C ptraits e /\ accepted C ptraits end_).
Proof.
  intros H Hr. destruct (checkLoop_canonical _ _ _ _ H Hr) as (ph' & Init & Cond & Incr & traits & t1 & t2 & t3 & st & H1 & H2 & H3 & H4 & H5 & A1 & A2 & A3 & A4 & B1 & B2 & B3 & B4 & B5 & C1 & C2 & C3 & C4 & R1 & R2 & R3 & R4 & R5).
  rewrite (fl_ph _ _ _ _ _ _ _ _ HF) in H1. injection H1 as <-.
  rewrite init_found in H2. injection H2 as <-. rewrite cmp_found in H3. injection H3 as <-.
  destruct (incr_found _ H4) as [E4 NW]. injection E4 as ->.
  destruct (fl_init _ _ _ _ _ _ _ _ HF) as (Io & start & Ia).
  destruct (fl_incr _ _ _ _ _ _ _ _ HF) as (Jo & Jin & v & Ja & Jadv). destruct (advances_advBy _ _ _ _ Jadv) as (e & ng & b & AB).
  destruct (fl_cmp _ _ _ _ _ _ _ _ HF) as (p & c & d & Co & Ca & Crd).
  pose proof (fl_ivar _ _ _ _ _ _ _ _ HF) as HV. pose proof (fl_node _ _ _ _ _ _ _ _ HF) as HN.
  assert (S : forall tr f u1 u2 u3, isLoopInvariantMemory C tr f init = ITuple u1 -> tRes u1 = true -> tUse u1 = 0%nat -> tDef u1 = 1%nat ->
     isLoopInvariantMemory C tr f incr = ITuple u2 -> tRes u2 = true -> (tUse u2 <= 1)%nat -> tDef u2 = 1%nat ->
     isLoopInvariantMemory C tr f cmp = ITuple u3 -> tRes u3 = true -> (tUse u3 <= 1)%nat -> tDef u3 = 0%nat ->
     (accepted C tr start /\ tExpr u1 = Some start) /\ (accepted C tr e /\ tExpr u2 = Some e /\ tInst u2 = Some b) /\
     (readsInduction C L ivar c /\ accepted C tr d /\ tExpr u3 = Some d \/ readsInduction C L ivar d /\ accepted C tr c /\ tExpr u3 = Some c)).
  { intros tr f u1 u2 u3 X1 X2 X3 X4 Y1 Y2 Y3 Y4 Z1 Z2 Z3 Z4. split; [|split].
    - apply (ilm_init C ivar HV HN tr f init start u1); assumption.
    - apply (ilm_incr C L ivar HV HN tr f incr v u2 e ng b); assumption.
    - apply (ilm_cond C L ivar HV HN tr f cmp c d p u3); assumption. }
  destruct (S traits fuel t1 t2 t3 A1 A2 A4 A3 B1 B2 B4 B3 C1 C2 C4 C3) as ((S1 & S2) & (S3 & S4 & S5) & S6).
  assert (Es : st = Some (e, ng)).
  { unfold stepOf in B5. rewrite S4, S5 in B5. destruct (advBy_op _ _ _ _ _ _ _ AB) as (Bo & _). unfold op in Bo. rewrite Bo in B5.
    destruct ng; congruence. }
  assert (SS : exists end_, accepted C traits end_ /\ tExpr t3 = Some end_ /\
      (readsInduction C L ivar c /\ end_ = d /\ rPred r = Some p \/ readsInduction C L ivar d /\ end_ = c /\ rPred r = Some (inversePredicate p))).
  { destruct S6 as [(Q1 & Q2 & Q3)|(Q1 & Q2 & Q3)].
    - exists d. split; [exact Q2|]. split; [exact Q3|]. left. split; [exact Q1|]. split; [reflexivity|].
      rewrite R4. unfold predOf. rewrite Q3. unfold op in Co. unfold args in Ca. rewrite Co, Ca.
      destruct (valueEq c d) eqn:Ecd; [|reflexivity]. apply valueEq_eq in Ecd. subst d. exfalso. eapply reads_not_accepted; eauto.
    - exists c. split; [exact Q2|]. split; [exact Q3|]. right. split; [exact Q1|]. split; [reflexivity|].
      rewrite R4. unfold predOf. rewrite Q3. unfold op in Co. unfold args in Ca. rewrite Co, Ca. now rewrite valueEq_refl. }
  destruct SS as (end_ & Q1 & Q2 & Q3).
  exists traits, start, end_, e, ng, b, v. rewrite R1, R2, R3, S2, Q2, Es.
  repeat (split; [first [assumption|reflexivity]|]). split; [exists p, c, d; auto|].
  intros Hrect. destruct (R5 Hrect) as (ptr & t & P1 & P2 & P3). exists ptr. split; [exact P1|].
  unfold rectangular in P2.
  destruct (isLoopInvariantMemory C ptr fuel init) as [| |u1] eqn:U1; [discriminate..|].
  destruct (tRes u1) eqn:U1r; [|injection P2 as <-; congruence].
  destruct (isLoopInvariantMemory C ptr fuel incr) as [| |u2] eqn:U2; [discriminate..|].
  destruct (tRes u2) eqn:U2r; [|injection P2 as <-; congruence].
  (* numbers do not depend on traits *)
  assert (FA : forall x l a u1 d1 i1 u2 d2 i2, fold_left (accStep C traits x) l a = AOk u1 d1 i1 -> fold_left (accStep C ptr x) l a = AOk u2 d2 i2 -> AOk u1 d1 i1 = AOk u2 d2 i2).
  { intros x l. induction l as [|q l IH]; intros a w1 d1 i1 w2 d2 i2 F1 F2; cbn [fold_left] in F1, F2; [congruence|].
    destruct (accStep C traits x a q) as [| |wa da ia] eqn:Ea; [now rewrite fold_AFalse in F1|now rewrite fold_ACrash in F1|].
    destruct (accStep C ptr x a q) as [| |wb db ib] eqn:Eb; [now rewrite fold_AFalse in F2|now rewrite fold_ACrash in F2|].
    assert (AOk wa da ia = AOk wb db ib) as EQ.
    { unfold accStep in Ea, Eb. destruct a as [| |wc dc ic]; try discriminate. destruct q as [i rr ww|rr ww].
      - destruct (cDim C x i) as [n|]; [|discriminate]. destruct (negb (cUnreach C n (cInduct C))); [congruence|].
        destruct (unchanged traits n), (unchanged ptr n); congruence.
      - destruct (isCall (cInst C x) && cOnlyReads C x); [|discriminate]. destruct (cDimU C x) as [n|]; [|discriminate].
        destruct (unchanged traits n), (unchanged ptr n); congruence. }
    injection EQ as -> -> ->. eapply IH; eauto. }
  assert (FI : forall f x u u', isLoopInvariantMemory C traits f x = ITuple u -> tRes u = true -> isLoopInvariantMemory C ptr f x = ITuple u' -> tRes u' = true -> u = u').
  { induction f as [|f IH]; intros x u u' X1 X2 X3 X4; [discriminate|].
    destruct (ilm_shape _ _ _ _ _ X1 X2) as (f1 & a1 & d1 & i1 & k1 & n1 & Ef1 & F1 & G1 & K1). injection Ef1 as <-.
    destruct (ilm_shape _ _ _ _ _ X3 X4) as (f2 & a2 & d2 & i2 & k2 & n2 & Ef2 & F2 & G2 & K2). injection Ef2 as <-.
    pose proof (FA _ _ _ _ _ _ _ _ _ F1 F2) as EQ. injection EQ as -> -> ->.
    assert (OL : forall os k t n ta na tb nb, opsLoop x i2 (isLoopInvariantMemory C traits f) k os t n = OpNext ta na ->
        opsLoop x i2 (isLoopInvariantMemory C ptr f) k os t n = OpNext tb nb -> ta = tb /\ na = nb).
    { induction os as [|o os IHo]; intros k t' n ta na tb nb O1 O2; cbn [opsLoop] in O1, O2; [split; congruence|].
      destruct o as [y|z|g|a]; cbn [opStep] in O1, O2; [| | |discriminate].
      - destruct (isLoopInvariantMemory C traits f y) as [| |T1] eqn:T1e; [discriminate..|].
        destruct (isLoopInvariantMemory C ptr f y) as [| |T2] eqn:T2e; [discriminate..|].
        destruct (tRes T1) eqn:T1r; [|discriminate]. destruct (tRes T2) eqn:T2r; [|discriminate].
        pose proof (IH y T1 T2 T1e T1r T2e T2r) as ->. eapply IHo; eauto.
      - destruct (negb (existsb (Nat.eqb k) i2)); eapply IHo; eauto.
      - destruct (negb (existsb (Nat.eqb k) i2)); eapply IHo; eauto. }
    destruct (OL _ _ _ _ _ _ _ _ G1 G2) as [-> ->]. congruence. }
  pose proof (FI _ _ _ _ A1 A2 U1 U1r) as <-. pose proof (FI _ _ _ _ B1 B2 U2 U2r) as <-. pose proof (FI _ _ _ _ C1 C2 P2 P3) as <-.
  destruct (S ptr fuel t1 t2 t3 U1 A2 A4 A3 U2 B2 B4 B3 P2 C2 C4 C3) as ((T1 & T2) & (T3 & T4 & T5) & T6).
  split; [exact T1|]. split; [exact T3|]. destruct T6 as [(_ & T6 & T7)|(_ & T6 & T7)]; congruence.
Qed.
Lemma runs_as fuel r traits : checkLoop C fuel L = Info r -> rCanonical r = true -> lTraits L = Some traits ->
  noPhi C incr -> noPhi C cmp ->
  (exists c d, args C cmp = [c; d] /\ readsInduction C L ivar c) ->
  runsAs w otherOp pureOp globalAddr argVal callSem C covers L ivar ph latch cmp traits r.
Proof.
  intros H Hr HT NP1 NP2 (c0 & d0 & Ca0 & Rc0).
  destruct (reported fuel r H Hr) as (traits' & start & end_ & e & ng & b & v & H1 & H2 & H3 & H4 & Ia & Ja & AB & S1 & S2 & S3 & NW & (p & c & d & Co & Ca & Cr) & _).
  rewrite HT in H1. injection H1 as <-. rewrite Ca in Ca0. injection Ca0 as <- <-.
  assert (end_ = d /\ rPred r = Some p) as [-> Ep].
  { destruct Cr as [(_ & E1 & E2)|(_ & -> & _)]; [auto|]. exfalso. eapply reads_not_accepted; eauto; [apply (fl_ivar _ _ _ _ _ _ _ _ HF)|apply (fl_node _ _ _ _ _ _ _ _ HF)]. }
  exists start, d, e, ng, p. repeat (split; [assumption|]).
  intros before s0 Epre Hai i step its header.
  assert (Hcmp : op C cmp = OCmp p /\ args C cmp = [c; d] /\ readsInduction C L ivar c) by auto.
  assert (NVd : noPhiV C d) by (apply (noPhiV_arg cmp); [exact NP2|rewrite Ca; cbn; auto]).
  assert (NVe : noPhiV C e).
  { destruct (advBy_op _ _ _ _ _ _ _ AB) as (_ & Bin & _). apply (noPhiV_arg b); [|exact Bin].
    assert (exists z, v = VUser z) as [z ->] by (inversion AB; eauto).
    intros q Hq. apply NP1. eapply n_arg; [rewrite Ja; now left|]. eapply needs_trans; [eapply advBy_needs; eauto|exact Hq]. }
  assert (OR : operandsRight C (inLoop L)) by apply HS.
  assert (DEC : forall x, inLoop L x \/ ~ inLoop L x) by apply inS_dec.
  assert (RCH : forall n s, its n s -> exists done, reach w otherOp pureOp globalAddr argVal callSem C covers (inLoop L) traits s0 done s).
  { intros n s It. exact (iterations_reach w otherOp pureOp globalAddr argVal callSem C covers tree calls L ivar ph latch init cmp incr HS HF traits s0 Hai NW e d ng p c Hcmp v b n s Ja AB It). }
  set (FX := fixedVal w otherOp pureOp globalAddr argVal callSem C covers (inLoop L) traits s0) in *.
  assert (Ue : forall z1 z2, FX e z1 -> FX e z2 -> z1 = z2) by (intros z1 z2 F1 F2; exact (fixed_uniq _ _ _ _ _ _ _ _ calls _ _ _ DEC OR e z1 z2 S2 NVe F1 F2)).
  assert (Ud : forall z1 z2, FX d z1 -> FX d z2 -> z1 = z2) by (intros z1 z2 F1 F2; exact (fixed_uniq _ _ _ _ _ _ _ _ calls _ _ _ DEC OR d z1 z2 S3 NVd F1 F2)).
  assert (FE : forall n s, its n s -> (n > 0)%nat -> FX e (ev s e) /\ exists s1, its (Nat.pred n) s1 /\ i s = wrap w (if ng then i s1 - ev s e else i s1 + ev s e)).
  { intros n s It Hn. inversion It as [|n' s1 h s' bs It' Eh Ec Hbs Eb]; subst; [lia|].
    destruct (RCH _ _ It') as (done & R).
    destruct (iteration w otherOp pureOp globalAddr argVal callSem C covers tree calls L ivar ph latch init cmp incr HS HF traits s0 Hai NW e d ng p c Hcmp s1 h s bs done v b R Eh Hbs Eb Ja AB) as (_ & F1 & z & F2 & F3).
    split; [exact F1|]. exists s1. split; [exact It'|]. unfold i. rewrite F3. now rewrite (Ue _ _ F2 F1). }
  assert (I0 : i s0 = ev s0 start).
  { destruct (fl_init_last _ _ _ _ _ _ _ _ HF) as (pre & post & E & Hp). rewrite E in Epre.
    destruct (exec_app _ _ _ _ _ _ _ _ _ _ _ _ _ Epre) as (m & M1 & M2). inversion M2 as [|x xs q1 m2 q2 St M3]; subst x xs q1 q2.
    destruct (fl_init _ _ _ _ _ _ _ _ HF) as (Io & _).
    assert (P : forall a, mem s0 a = mem m2 a).
    { clear - M3 Hp calls. revert Hp. induction M3 as [|x xs q1 q2 q3 St M IH]; intros Hp a; [reflexivity|].
      rewrite IH by (intros y Hy; apply Hp; now right). eapply noAccess_mem; eauto. apply Hp. now left. }
    assert (Pr : forall u, In u (args C init) -> ev s0 u = ev m2 u).
    { clear - M3 Hp. revert Hp. induction M3 as [|x xs q1 q2 q3 St M IH]; intros Hp u Hu; [reflexivity|].
      rewrite (IH (fun y Hy => Hp y (or_intror Hy)) u Hu).
      destruct u as [y|z|g|a]; cbn [CanonSpec.ev]; auto. eapply step_regs; eauto. intros ->. now apply (proj2 (Hp x (or_introl eq_refl))). }
    destruct St as [St _]. inversion St as [q O A Re M|v' q O A Re Mw M|q Cp Re M|v' O|q O|O|f q O Cs Re]; try congruence.
    - rewrite Ia in A. injection A as <- <-. unfold i. rewrite P.
      assert (Ev : forall u, ev m2 u = ev m u) by (intros u; destruct u; cbn [CanonSpec.ev]; auto).
      rewrite (Pr ivar), (Pr start) by (rewrite Ia; cbn; auto). rewrite !Ev. exact Mw.
    - rewrite Io in Cp. discriminate. }
  split; [exact I0|]. split; [|split; [|split]].
  - assert (G : forall n s, its n s -> forall st, (n > 0 -> step s = st)%nat -> wrap w (i s) = wrap w (ev s0 start + Z.of_nat n * st)).
    { intros n. induction n as [|n IH]; intros s It st Hst.
      - inversion It; subst. rewrite I0. f_equal. lia.
      - destruct (FE _ _ It ltac:(lia)) as (F1 & s1 & It1 & E1). cbn [Nat.pred] in It1.
        assert (Hst1 : (n > 0 -> step s1 = st)%nat).
        { intros Hn. destruct (FE _ _ It1 Hn) as (F1' & _). rewrite <- (Hst ltac:(lia)). unfold step. now rewrite (Ue _ _ F1 F1'). }
        specialize (IH s1 It1 st Hst1). rewrite E1.
        assert (Es : (if ng then i s1 - ev s e else i s1 + ev s e) = i s1 + st).
        { rewrite <- (Hst ltac:(lia)). unfold step. destruct ng; lia. }
        rewrite Es. unfold wrap in *. rewrite Zmod_mod, Zplus_mod, IH, <- Zplus_mod. f_equal. lia. }
    intros n s It Hn. apply (G n s It). auto.
  - intros n s h It Eh. destruct (RCH _ _ It) as (done & R).
    destruct (header_eval w otherOp pureOp globalAddr argVal callSem C covers tree calls L ivar ph latch init cmp incr HS HF traits s0 Hai NW e d ng p c Hcmp s h done R Eh) as ((z & F1 & F2) & F3).
    rewrite F2. now rewrite (Ud _ _ F1 F3).
  - intros n s h n' s' h' It Eh It' Eh'. destruct (RCH _ _ It) as (done & R). destruct (RCH _ _ It') as (done' & R').
    apply Ud.
    + apply (header_eval w otherOp pureOp globalAddr argVal callSem C covers tree calls L ivar ph latch init cmp incr HS HF traits s0 Hai NW e d ng p c Hcmp s h done R Eh).
    + apply (header_eval w otherOp pureOp globalAddr argVal callSem C covers tree calls L ivar ph latch init cmp incr HS HF traits s0 Hai NW e d ng p c Hcmp s' h' done' R' Eh').
  - intros n s n' s' It Hn It' Hn'. destruct (FE _ _ It Hn) as (F1 & _). destruct (FE _ _ It' Hn') as (F2 & _).
    unfold step. now rewrite (Ue _ _ F1 F2).
Qed.
End Final.
