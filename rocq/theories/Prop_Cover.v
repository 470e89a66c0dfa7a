(** C20: coverage of a location by other locations. *)
From Coq Require Import ZArith Bool List Arith Lia Relations.
From Verif Require Import TreeModel TreeSpec TreeProof Prop_Tree.
From Verif Require Import EMForestModel EMForestSpec Prop_EMForest CoverModel CoverSpec.
Import ListNotations.
Local Open Scope Z_scope.

(** ** Disjoint intervals which fill an interval *)
Definition zrange (a s : Z) : list Z := map (fun k => a + Z.of_nat k) (seq 0 (Z.to_nat s)).
Lemma zrange_in a s b : In b (zrange a s) <-> a <= b < a + s.
Proof.
  unfold zrange. rewrite in_map_iff. split.
  - intros (k & <- & K). apply in_seq in K. lia.
  - intro B. exists (Z.to_nat (b - a)). split; [lia|]. apply in_seq. lia.
Qed.
Lemma zrange_nodup a s : NoDup (zrange a s).
Proof.
  unfold zrange. apply FinFun.Injective_map_NoDup; [|apply seq_NoDup].
  intros x y E. lia.
Qed.
Lemma zrange_len a s : 0 <= s -> Z.of_nat (length (zrange a s)) = s.
Proof. intro H. unfold zrange. rewrite map_length, seq_length. lia. Qed.
Fixpoint sum (l : list (Z * Z)) : Z := match l with [] => 0 | x :: l => snd x + sum l end.
Definition inside (x : Z * Z) (b : Z) : Prop := fst x <= b < fst x + snd x.
Inductive disjoint : list (Z * Z) -> Prop :=
| disjointNil : disjoint []
| disjointCons x l : (forall y b, In y l -> inside x b -> ~ inside y b) -> disjoint l -> disjoint (x :: l).
Lemma flat_range l b : In b (flat_map (fun x => zrange (fst x) (snd x)) l) <->
  exists x, In x l /\ inside x b.
Proof.
  rewrite in_flat_map. split; intros (x & I & B); exists x; (split; [exact I|]); now apply zrange_in.
Qed.
Lemma flat_nodup l : disjoint l -> NoDup (flat_map (fun x => zrange (fst x) (snd x)) l).
Proof.
  induction 1 as [|x l D _ IH]; cbn; [constructor|].
  assert (APP : forall l1 l2 : list Z, NoDup l1 -> NoDup l2 -> (forall b, In b l1 -> ~ In b l2) ->
    NoDup (l1 ++ l2)).
  { induction 1 as [|z l1 Z1 _ IH1]; cbn; intros N2 DD; [exact N2|]. constructor.
    - rewrite in_app_iff. intros [Q|Q]; [tauto|]. exact (DD z (or_introl eq_refl) Q).
    - apply IH1; auto. }
  apply APP; [apply zrange_nodup|exact IH|]. intros b B C. apply flat_range in C as (y & Y & C).
  apply zrange_in in B. exact (D y b Y B C).
Qed.
Lemma flat_len l : (forall x, In x l -> 0 <= snd x) ->
  Z.of_nat (length (flat_map (fun x => zrange (fst x) (snd x)) l)) = sum l.
Proof.
  induction l as [|x l IH]; cbn; intro P; [reflexivity|].
  rewrite app_length, Nat2Z.inj_add, zrange_len, IH by auto. reflexivity.
Qed.
Lemma filled A S l : (forall x, In x l -> 0 <= snd x) ->
  (forall x b, In x l -> inside x b -> A <= b < A + S) -> disjoint l -> 0 <= S <= sum l ->
  forall b, A <= b < A + S -> exists x, In x l /\ inside x b.
Proof.
  intros P I D L b B. apply flat_range.
  assert (IN : incl (zrange A S) (flat_map (fun x => zrange (fst x) (snd x)) l));
    [|apply IN; now apply zrange_in].
  apply (NoDup_length_incl (flat_nodup l D)).
  - apply Nat2Z.inj_le. rewrite zrange_len, flat_len by (auto; lia). lia.
  - intros c C. apply flat_range in C as (x & X & C). apply zrange_in. eauto.
Qed.

(** ** Sorted entries *)
Fixpoint sorted (l : list entry) : Prop :=
  match l with
  | [] => True
  | e :: l => (forall x, In x l -> enPre e < enPre x) /\ sorted l
  end.
Lemma emplace_in l e x : In x (emplace l e) -> x = e \/ In x l.
Proof.
  induction l as [|y l IH]; cbn; [intuition|].
  destruct (enPre e <? enPre y); [cbn; intuition|]. destruct (enPre e =? enPre y); [auto|].
  cbn. intuition.
Qed.
Lemma emplace_sorted l e : sorted l -> sorted (emplace l e).
Proof.
  induction l as [|y l IH]; cbn; [intuition|]. intros (A & B).
  destruct (Z.ltb_spec (enPre e) (enPre y)).
  - cbn. split; [|auto]. intros x [->|X]; [lia|]. specialize (A x X). lia.
  - destruct (Z.eqb_spec (enPre e) (enPre y)); [cbn; auto|]. cbn. split; [|auto].
    intros x X. apply emplace_in in X as [->|X]; [lia|auto].
Qed.
Lemma emplace_keeps l e : (forall x, In x l -> In x (emplace l e)) /\
  exists x, In x (emplace l e) /\ enPre x = enPre e.
Proof.
  induction l as [|y l (I1 & x & I2 & I3)]; cbn.
  - split; [easy|]. exists e. auto.
  - destruct (Z.ltb_spec (enPre e) (enPre y)); [|destruct (Z.eqb_spec (enPre e) (enPre y))].
    + split; [intros z Z1; right; exact Z1|]. exists e. cbn; auto.
    + split; [auto|]. exists y. cbn; auto.
    + split; [intros z [->|Z1]; cbn; auto|]. exists x. cbn; auto.
Qed.
Lemma emplace_not_nil l e : emplace l e <> [].
Proof. destruct l as [|y l]; cbn; [discriminate|]. now destruct (enPre e <? enPre y), (enPre e =? enPre y). Qed.

Section Sound.
Variable f : forest.
Variable t : tree.
Variables children parents : nat -> list nat.
Variable nfuel : nat.
Variable gsize : Z.
Variable m : numbering.
Variable node : em -> nat.
Variable size : em -> option Z.
Hypothesis TR : trees f.
Hypothesis IT : isTree t children parents.
Hypothesis NF : (length (nodes t) <= nfuel)%nat.
Hypothesis RUN : numberGraph children nfuel (label t) gsize = Some m.
Variable E : em.

(* an entry describes the node and the size of a listed part of E *)
Definition describes (l : list em) (e : entry) (x : em) : Prop :=
  In x l /\ above f x E /\ size x = Some (enSize e) /\
  exists v, findNumbers m (node x) = Some v /\ enPre e = numPre v /\ enRpo e = numRevPost v.

Definition keyOf (e : entry) (x : em) : Prop :=
  exists v, findNumbers m (node x) = Some v /\ enPre e = numPre v.
Lemma collect_ok fuel : forall all, (forall x, In x all -> exists b, isDescendantOf fuel f E x = Some b /\ (b = true <-> above f E x)) ->
  (forall x, In x all -> exists b, isUnreachable fuel f E x = Some b /\ (b = true <-> ~ above f E x /\ ~ above f x E)) ->
  forall l acc r, (forall x, In x l -> In x all) ->
  sorted acc -> (forall e, In e acc -> exists x, describes all e x) ->
  collect fuel f m node size E l acc = Some r ->
  match r with
  | inl b => b = true /\ ((exists x, In x all /\ above f E x) \/
                          (exists x, In x all /\ above f x E /\ size x = None))
  | inr es => sorted es /\ (forall e, In e es -> exists x, describes all e x) /\
      (forall e, In e acc -> exists e', In e' es /\ enPre e' = enPre e) /\
      (forall x, In x l -> above f x E -> exists e, In e es /\ keyOf e x)
  end.
Proof.
  intros all HD HU l. induction l as [|i l IH]; intros acc r SUB SO DE C; cbn [collect] in C.
  - injection C as <-. split; [exact SO|]. split; [exact DE|]. split; [eauto|]. intros x [].
  - destruct (HD i (SUB i (or_introl eq_refl))) as (b & DB & BS). rewrite DB in C. destruct b.
    + injection C as <-. split; [reflexivity|]. left. exists i. split; [apply SUB; now left|tauto].
    + destruct (HU i (SUB i (or_introl eq_refl))) as (u & UB & US). rewrite UB in C. destruct u.
      * assert (NA : ~ above f i E) by tauto.
        apply (IH acc r) in C; auto; [|intros x X; apply SUB; now right].
        destruct r as [b|es]; [exact C|]. destruct C as (C1 & C2 & C3 & C4).
        split; [exact C1|]. split; [exact C2|]. split; [exact C3|].
        intros x [<-|X] A; [tauto|auto].
      * assert (AI : above f i E).
        { destruct (C40_queries f i E TR) as (n & Q). destruct (Q n (le_n n)) as (_ & (b & _ & QB) & _).
          destruct b; [tauto|]. exfalso. assert (false = true); [|discriminate]. apply US.
          split; [intro A; now apply BS in A|intro A; now apply QB in A]. }
        destruct (size i) as [s|] eqn:SI.
        -- destruct (findNumbers m (node i)) as [v|] eqn:FV; [|discriminate].
           apply (IH _ r) in C.
           ++ destruct r as [b|es]; [exact C|]. destruct C as (C1 & C2 & C3 & C4).
              split; [exact C1|]. split; [exact C2|]. split.
              ** intros e I. destruct (emplace_keeps acc (Entry (numPre v) (numRevPost v) s)) as (K1 & _).
                 exact (C3 e (K1 e I)).
              ** intros x [<-|X] A; [|auto].
                 destruct (emplace_keeps acc (Entry (numPre v) (numRevPost v) s)) as (_ & e & I & P).
                 destruct (C3 e I) as (e' & I' & P'). exists e'. split; [exact I'|].
                 exists v. split; [exact FV|]. cbn in P. congruence.
           ++ intros x X. apply SUB. now right.
           ++ now apply emplace_sorted.
           ++ intros e I. apply emplace_in in I as [->|I]; [|auto]. exists i.
              split; [apply SUB; now left|]. split; [exact AI|]. split; [exact SI|]. eauto.
        -- injection C as <-. split; [reflexivity|]. right. exists i.
           split; [apply SUB; now left|auto].
Qed.

Definition apart (x y : em) : Prop := node x <> node y /\
  ~ properAncestor t (node x) (node y) /\ ~ properAncestor t (node y) (node x).
Inductive allApart : list em -> Prop :=
| apartNil : allApart []
| apartCons x l : (forall y, In y l -> apart x y) -> allApart l -> allApart (x :: l).
Definition sizeOf (x : em) : Z := match size x with Some s => s | None => 0 end.
Fixpoint sizes (l : list em) : Z := match l with [] => 0 | x :: l => sizeOf x + sizes l end.

Hypothesis SZ : forall x s, size x = Some s -> 0 <= s < 2 ^ 64.
Lemma size_pos x : 0 <= sizeOf x.
Proof. unfold sizeOf. destruct (size x) eqn:Q; [|lia]. apply SZ in Q. lia. Qed.
Lemma sizes_pos l : 0 <= sizes l.
Proof. induction l as [|x l IH]; cbn; [lia|]. pose proof (size_pos x). lia. Qed.
Lemma wrap_le x : 0 <= x -> 0 <= wrap64 x <= x.
Proof. intro H. unfold wrap64. split; [apply Z.mod_pos_bound; lia|]. apply Z.mod_le; lia. Qed.

Variable all : list em.
Hypothesis INT : forall x, In x all -> In (node x) (nodes t).
Variable e0 : entry.
Variable x0 : em.
Hypothesis D0 : describes all e0 x0.
Definition insub (x : em) : Prop := node x = node x0 \/ properAncestor t (node x0) (node x).
(* the branch of x0 is the only one with nested nodes *)
Hypothesis BR : forall x y, In x all -> In y all -> above f x E -> above f y E ->
  properAncestor t (node x) (node y) -> insub x.

Let ND : NoDup (nodes t) := proj1 IT.
Lemma describes_at e x : describes all e x ->
  enPre e = 1 + zidx (node x) (preorder t) /\ enRpo e = gsize - zidx (node x) (postorder t).
Proof.
  intros (I & _ & _ & v & V & P & R).
  rewrite (numbers_at t ND children parents IT nfuel NF gsize m RUN (node x) (INT x I)) in V.
  injection V as <-. cbn in P, R. auto.
Qed.
Lemma before_apart e x e' y : describes all e x -> describes all e' y -> enPre e < enPre e' ->
  node x <> node y /\ ~ properAncestor t (node y) (node x) /\
  (properAncestor t (node x) (node y) <-> enRpo e < enRpo e').
Proof.
  intros D D' L. destruct (describes_at e x D) as (P & R), (describes_at e' y D') as (P' & R').
  pose proof (anc_idx t ND (node x) (node y) (INT _ (proj1 D)) (INT _ (proj1 D'))) as A1.
  pose proof (anc_idx t ND (node y) (node x) (INT _ (proj1 D')) (INT _ (proj1 D))) as A2.
  unfold zidx in *. split; [|split].
  - intro Q. rewrite Q in P. lia.
  - rewrite A2. lia.
  - rewrite A1. lia.
Qed.
Lemma total_ok rest : forall c e cur tot sel,
  describes all e c -> cur <= sizeOf c -> 0 <= cur -> 0 <= tot -> tot <= sizes sel ->
  enPre e0 <= enPre e ->
  (forall y, In y sel -> exists e', describes all e' y /\ enPre e' < enPre e) ->
  allApart (c :: sel) -> ((sel = [] /\ insub c) \/ ~ insub c) ->
  sorted (e :: rest) ->
  (forall x, In x rest -> exists y, describes all x y) ->
  exists sel', total (enRpo e0) rest cur tot <= sizes sel' /\ allApart sel' /\
    forall y, In y sel' -> exists e', describes all e' y.
Proof.
  induction rest as [|e1 rest IH]; intros c e cur tot sel DC LC PC PT LT LE DS AP SUB SO DR;
    cbn [total].
  - exists (c :: sel). split; [|split; [exact AP|]].
    + cbn. pose proof (wrap_le (tot + cur) ltac:(lia)). lia.
    + intros y [<-|Y]; [eauto|]. destruct (DS y Y) as (e' & D & _). eauto.
  - destruct (DR e1 (or_introl eq_refl)) as (y1 & D1).
    destruct SO as (S1 & SO). pose proof (S1 e1 (or_introl eq_refl)) as L1.
    destruct (before_apart e0 x0 e1 y1 D0 D1 ltac:(lia)) as (N01 & NA01 & A01).
    assert (SZ1 : sizeOf y1 = enSize e1).
    { unfold sizeOf. destruct D1 as (_ & _ & Q & _). now rewrite Q. }
    assert (P1 : 0 <= enSize e1) by (rewrite <- SZ1; apply size_pos).
    assert (DR' : forall x, In x rest -> exists y, describes all x y) by (intros x X; apply DR; now right).
    destruct (Z.ltb_spec (enRpo e0) (enRpo e1)) as [LT1|GE1].
    + assert (AN : properAncestor t (node x0) (node y1)) by tauto.
      assert (CS : ~ ~ insub c).
      { intro NS. destruct (before_apart e c e1 y1 DC D1 L1) as (M1 & M2 & M3).
        destruct (Z.eq_dec (enPre e0) (enPre e)) as [Q|Q].
        - apply NS. left. destruct (describes_at e c DC) as (P & _), (describes_at e0 x0 D0) as (P' & _).
          apply (idx_inj _ _ (preorder t)); [exact (INT _ (proj1 DC))|]. unfold zidx in *. lia.
        - destruct (before_apart e0 x0 e c D0 DC ltac:(lia)) as (K1 & K2 & K3).
          assert (RL : enRpo e <= enRpo e0).
          { destruct (Z_le_gt_dec (enRpo e) (enRpo e0)); [assumption|]. exfalso. apply NS. right.
            apply K3. lia. }
          assert (CY : properAncestor t (node c) (node y1)) by (apply M3; lia).
          destruct (anc_linear t ND _ _ _ AN CY) as [B|[B|B]].
          + exact (K1 B).
          + apply NS. now right.
          + exact (K2 B). }
      destruct SUB as [(-> & CI)|NS]; [|tauto]. cbn [sizes] in LT.
      destruct (Z_le_gt_dec (enSize e1) cur) as [LE1|GT1].
      * rewrite Z.max_l by exact LE1.
        apply (IH c e cur tot []); auto. split; [|exact (proj2 SO)].
        intros x X. apply S1. now right.
      * rewrite Z.max_r by lia.
        apply (IH y1 e1 (enSize e1) tot []); auto; try lia.
        -- intros y [].
        -- constructor; [intros y []|constructor].
        -- left. split; [reflexivity|]. now right.
    + assert (NA : ~ properAncestor t (node x0) (node y1)) by (rewrite A01; lia).
      assert (PW : 0 <= wrap64 (tot + cur) <= tot + cur) by (apply wrap_le; lia).
      apply (IH y1 e1 (enSize e1) (wrap64 (tot + cur)) (c :: sel)); auto; try lia.
      * cbn [sizes]. lia.
      * intros y [<-|Y]; [exists e; auto|]. destruct (DS y Y) as (e' & D & L). exists e'. split; [exact D|lia].
      * constructor; [|exact AP]. intros y Y.
        assert (DY : exists e', describes all e' y /\ enPre e' < enPre e1).
        { destruct Y as [<-|Y]; [exists e; auto|]. destruct (DS y Y) as (e' & D & L). exists e'. split; [exact D|lia]. }
        destruct DY as (e' & DY & L'). destruct (before_apart e' y e1 y1 DY D1 L') as (M1 & M2 & M3).
        split; [congruence|]. split; [exact M2|]. intro YA.
        destruct (BR y y1 (proj1 DY) (proj1 D1) (proj1 (proj2 DY)) (proj1 (proj2 D1)) YA) as [Q|Q].
        -- rewrite Q in YA. tauto.
        -- apply NA. exact (t_trans _ _ _ _ _ Q YA).
      * right. intros [Q|Q]; [congruence|tauto].
Qed.
End Sound.

Lemma cover_fuel f E l : trees f -> exists n, forall fuel, (n <= fuel)%nat -> forall x, In x l ->
  (exists b, isDescendantOf fuel f E x = Some b /\ (b = true <-> above f E x)) /\
  (exists b, isUnreachable fuel f E x = Some b /\ (b = true <-> ~ above f E x /\ ~ above f x E)).
Proof.
  intro TR. induction l as [|y l (n & IH)]; [exists O; intros ? ? ? []|].
  destruct (C40_queries f E y TR) as (k & Q). exists (n + k)%nat. intros fuel FU x [<-|X].
  - destruct (Q fuel ltac:(lia)) as (_ & Q1 & Q2 & _). auto.
  - apply IH; [lia|exact X].
Qed.

(** If the test succeeds, sizes of listed parts are known and only the first
    branch has nested nodes then all bytes are covered. *)
Theorem C20_partial : forall f t children parents nfuel gsize m node size bytes E l,
  trees f -> isTree t children parents -> (length (nodes t) <= nfuel)%nat ->
  numberGraph children nfuel (label t) gsize = Some m ->
  memory f t node size bytes ->
  (forall x, In x l -> In (node x) (nodes t)) ->
  (forall x, In x l -> above f x E -> size x <> None) ->
  branches f t node E l ->
  exists n, forall fuel, (n <= fuel)%nat ->
    cover fuel f m node size E l = Some true -> covered bytes E l.
Proof.
  intros f t children parents nfuel gsize m node size bytes E l TR IT NF RUN ME INT KN BR.
  destruct (cover_fuel f E l TR) as (n & Q). exists n. intros fuel FU C. specialize (Q fuel FU).
  unfold cover in C. destruct l as [|i l0] eqn:EL; [discriminate|]. rewrite <- EL in *. clear EL i l0.
  destruct (collect fuel f m node size E l []) as [r|] eqn:CO; [|discriminate].
  pose proof (collect_ok f m node size TR E fuel l (fun x X => proj1 (Q x X)) (fun x X => proj2 (Q x X))
    l [] r (fun x X => X) I (fun e I0 => match I0 with end) CO) as R.
  destruct r as [b|es].
  - destruct R as (_ & [(x & X & A)|(x & X & A & S)]).
    + intros c B. exists x. split; [exact X|]. exact (memTree _ _ _ _ _ ME E x A c B).
    + exfalso. exact (KN x X A S).
  - destruct (size E) as [s|] eqn:SE; [|discriminate]. destruct es as [|e0 es]; [discriminate|].
    injection C as C. apply Z.leb_le in C. destruct R as (SO & DE & _ & KE).
    destruct (DE e0 (or_introl eq_refl)) as (x0 & D0).
    assert (ND : NoDup (nodes t)) by exact (proj1 IT).
    assert (SZ : forall x s, size x = Some s -> 0 <= s < 2 ^ 64).
    { intros x z Z1. exact (proj1 (memSize _ _ _ _ _ ME x z Z1)). }
    (* the entry of the smallest number describes the first visited node *)
    assert (BR' : forall x y, In x l -> In y l -> above f x E -> above f y E ->
              properAncestor t (node x) (node y) -> insub t node x0 x).
    { intros x y X Y AX AY A. destruct (BR x y X Y AX AY A) as (r & parts & PA & (RI & p & q & PQ & FI) & RX).
      unfold insub. assert (RE : node r = node x0); [|rewrite <- RE; destruct RX; auto].
      apply PA in RI as (RL & RA). destruct (KE r RL RA) as (er & ER & v & V & PV).
      rewrite (numbers_at t ND children parents IT nfuel NF gsize m RUN (node r) (INT r RL)) in V.
      apply (f_equal (fun o => match o with Some v => numPre v | None => 0 end)) in V.
      cbn [numPre] in V. rewrite <- V in PV.
      pose proof (describes_at f t children parents nfuel gsize m node size IT NF RUN E l INT e0 x0 D0) as (P0 & _).
      assert (LE : enPre e0 <= enPre er).
      { destruct ER as [->|ER]; [lia|]. destruct SO as (SO & _). specialize (SO er ER). lia. }
      assert (NP : ~ In (node x0) p).
      { apply FI. apply PA. split; [exact (proj1 D0)|exact (proj1 (proj2 D0))]. }
      apply (idx_inj _ _ (preorder t)); [exact (INT r RL)|].
      assert (NR : ~ In (node r) p).
      { apply FI. apply PA. auto. }
      assert (IR : idx (node r) (preorder t) = length p).
      { rewrite PQ, idx_app_r by exact NR. cbn. rewrite Nat.eqb_refl. lia. }
      assert (IX : (length p <= idx (node x0) (preorder t))%nat).
      { rewrite PQ, idx_app_r by exact NP. lia. }
      unfold zidx in *. lia. }
    destruct (total_ok f t children parents nfuel gsize m node size IT NF RUN E SZ l INT e0 x0 D0 BR'
                es x0 e0 (enSize e0) 0 []) as (sel & TS & AP & DS); auto; try lia.
    + unfold sizeOf. destruct D0 as (_ & _ & S0 & _). rewrite S0. apply Z.le_refl.
    + destruct D0 as (_ & _ & S0 & _). apply SZ in S0. lia.
    + cbn. lia.
    + intros y [].
    + constructor; [intros y []|constructor].
    + left. split; [reflexivity|]. now left.
    + intros x X. apply DE. now right.
    + (* intervals of chosen locations *)
      destruct (memSize _ _ _ _ _ ME E s SE) as (SP & A & BA).
      assert (IV : exists ivs, sum ivs = sizes size sel /\ disjoint ivs /\
        forall z, In z ivs -> 0 <= snd z /\ exists x, In x sel /\ forall b, bytes x b <-> inside z b).
      { clear TS. induction AP as [|x sel AX AP IH].
        - exists []. split; [reflexivity|]. split; [constructor|]. intros z [].
        - destruct IH as (ivs & S1 & D1 & I1). { intros y Y. apply DS. now right. }
          destruct (DS x (or_introl eq_refl)) as (e & DX). pose proof DX as (_ & _ & SX & _).
          destruct (memSize _ _ _ _ _ ME x _ SX) as (SXP & a & BX).
          exists ((a, enSize e) :: ivs). split; [|split].
          + cbn. unfold sizeOf. rewrite SX, S1. reflexivity.
          + constructor; [|exact D1]. intros y b Y B1 B2.
            destruct (I1 y Y) as (_ & x' & X' & BX'). destruct (AX x' X') as (N1 & N2 & N3).
            apply (memAlias _ _ _ _ _ ME x x' N1 N2 N3 b); [now apply BX|now apply BX'].
          + intros z [<-|Z1].
            * split; [cbn; lia|]. exists x. split; [now left|]. exact BX.
            * destruct (I1 z Z1) as (P1 & x' & X' & BX'). split; [exact P1|]. exists x'.
              split; [now right|exact BX']. }
      destruct IV as (ivs & S1 & D1 & I1).
      intros b B. apply BA in B.
      destruct (filled A s ivs) with (b := b) as (z & Z1 & Z2); auto.
      * intros z Z1. exact (proj1 (I1 z Z1)).
      * intros z c Z1 Z2. destruct (I1 z Z1) as (_ & x & X & BX). apply BA.
        destruct (DS x X) as (e & DX). apply (memTree _ _ _ _ _ ME x E (proj1 (proj2 DX))). now apply BX.
      * lia.
      * destruct (I1 z Z1) as (_ & x & X & BX). exists x. destruct (DS x X) as (e & DX).
        split; [exact (proj1 DX)|]. now apply BX.
Qed.
Print Assumptions C20_partial.


(** ** Cases.  Location 0 is a structure with parts 1 and 2, location 3 overlaps
    2; 4 is in another tree of locations.  Bytes of the structure are [0, s),
    bytes of 1 are [0, 4), bytes of 2 and 3 are [4, 8). *)
Definition cParent (x : em) : option em :=
  match x with 1%nat => Some 0%nat | 2%nat => Some 0%nat | 3%nat => Some 2%nat | _ => None end.
Definition cKids (x : em) : list em :=
  match x with 0%nat => [1%nat; 2%nat] | 2%nat => [3%nat] | _ => [] end.
Definition cForest : forest := Forest cParent cKids (fun x => x).
Definition cNode (x : em) : nat :=
  match x with 1%nat => 1%nat | 2%nat => 2%nat | 3%nat => 3%nat | _ => 0%nat end.
Definition cSize (s : option Z) (x : em) : option Z :=
  match x with
  | 0%nat => s | 1%nat => Some 4 | 2%nat => Some 4 | 3%nat => Some 4 | _ => Some 0
  end.
Definition cBytes (s : Z) (x : em) (b : Z) : Prop :=
  match x with
  | 0%nat => 0 <= b < s | 1%nat => 0 <= b < 4 | 2%nat | 3%nat => 4 <= b < 8
  | _ => 0 <= b < 0
  end.
Definition lateTree : tree := Tree 0 [Tree 1 []; Tree 2 [Tree 3 []]].
Definition earlyTree : tree := Tree 0 [Tree 2 [Tree 3 []]; Tree 1 []].
Definition lateChildren (n : nat) : list nat :=
  match n with 0%nat => [1%nat; 2%nat] | 2%nat => [3%nat] | _ => [] end.
Definition earlyChildren (n : nat) : list nat :=
  match n with 0%nat => [2%nat; 1%nat] | 2%nat => [3%nat] | _ => [] end.
Definition bothParents (n : nat) : list nat :=
  match n with 1%nat => [0%nat] | 2%nat => [0%nat] | 3%nat => [2%nat] | _ => [] end.
Lemma c_trees : trees cForest.
Proof.
  split; [split|].
  - intros x p. cbn. split.
    + intro H. do 4 (destruct x as [|x]; [cbn in H; try discriminate; injection H as <-; cbn; tauto|]).
      cbn in H. discriminate.
    + do 3 (destruct p as [|p]; [cbn; intro I; repeat destruct I as [<-|I]; try reflexivity; tauto|]).
      cbn. tauto.
  - intro p. do 3 (destruct p as [|p]; [cbn; repeat constructor; cbn; intuition discriminate|]).
    cbn. constructor.
  - assert (R : forall x, fParent cForest x = None -> rooted cForest x) by (intros; now apply rootedRoot).
    assert (Z0 : rooted cForest 0%nat) by (apply R; reflexivity).
    assert (Z2 : rooted cForest 2%nat) by (apply rootedStep with 0%nat; [reflexivity|assumption]).
    intro x.
    do 4 (destruct x as [|x]; [first [assumption | eapply rootedStep; [reflexivity|assumption]]|]).
    apply R. reflexivity.
Qed.
Lemma c_parents t ch : (t = lateTree /\ ch = lateChildren) \/ (t = earlyTree /\ ch = earlyChildren) ->
  isTree t ch bothParents /\ properAncestor t 0 1 /\ properAncestor t 0 2 /\
  properAncestor t 0 3 /\ properAncestor t 2 3.
Proof.
  intro H.
  assert (S : forall s, subtree s t -> s = t \/ s = Tree 2 [Tree 3 []] \/ s = Tree 3 [] \/ s = Tree 1 []).
  { intros s Q. destruct H as [(-> & ->)|(-> & ->)]; unfold lateTree, earlyTree in *;
    repeat match goal with
    | H : subtree _ (Tree _ _) |- _ => inversion H; subst; clear H; [tauto|]
    | H : In _ (kids _) |- _ => cbn in H
    | H : _ \/ _ |- _ => destruct H as [H|H]; subst
    | H : False |- _ => destruct H
    end. }
  assert (P : forall p n, parentOf t p n <->
    (p = 0%nat /\ (n = 1%nat \/ n = 2%nat)) \/ (p = 2%nat /\ n = 3%nat)).
  { intros p n. split.
    - intros (s & Q & L & K). apply S in Q. destruct H as [(-> & ->)|(-> & ->)];
        (destruct Q as [Q|[Q|[Q|Q]]]; subst s; cbn in *; intuition).
    - intro Q.
      assert (S2 : subtree (Tree 2 [Tree 3 []]) t).
      { destruct H as [(-> & ->)|(-> & ->)]; apply subKid with (Tree 2 [Tree 3 []]);
          try apply subSelf; cbn; auto. }
      destruct Q as [(-> & Q)|(-> & ->)].
      + exists t. split; [constructor|]. destruct H as [(-> & ->)|(-> & ->)]; cbn; intuition.
      + exists (Tree 2 [Tree 3 []]). split; [exact S2|]. cbn. auto. }
  assert (A02 : properAncestor t 0 2) by (apply t_step, P; auto).
  assert (A23 : properAncestor t 2 3) by (apply t_step, P; auto).
  split; [|repeat split; auto].
  - split; [|split].
    + destruct H as [(-> & ->)|(-> & ->)]; repeat constructor; cbn; intuition discriminate.
    + intros s Q. apply S in Q. destruct H as [(-> & ->)|(-> & ->)];
        destruct Q as [Q|[Q|[Q|Q]]]; subst; reflexivity.
    + intros n I p. rewrite P.
      assert (J : In n [0%nat; 1%nat; 2%nat; 3%nat]).
      { destruct H as [(-> & ->)|(-> & ->)]; cbn in *; tauto. }
      cbn in J. destruct J as [<-|[<-|[<-|[<-|[]]]]]; cbn; intuition; try discriminate.
  - apply t_step, P. auto.
  - exact (t_trans _ _ _ _ _ A02 A23).
Qed.
Lemma c_above x y : above cForest x y -> x = y \/ y = 0%nat /\ (x = 1%nat \/ x = 2%nat \/ x = 3%nat) \/
  y = 2%nat /\ x = 3%nat.
Proof.
  induction 1 as [x|x p y P A IH]; [auto|]. cbn in P.
  do 4 (destruct x as [|x]; [cbn in P; try discriminate; injection P as <-; intuition|]).
  discriminate.
Qed.
Lemma c_memory t ch s : (t = lateTree /\ ch = lateChildren) \/ (t = earlyTree /\ ch = earlyChildren) ->
  8 <= s < 2 ^ 64 -> memory cForest t cNode (cSize (Some s)) (cBytes s).
Proof.
  intros H S. destruct (c_parents t ch H) as (IT & A01 & A02 & A03 & A23). constructor.
  - intros x z Q. do 4 (destruct x as [|x]; [cbn in Q; injection Q as <-; cbn; split; [lia|];
      first [exists 0; intro; lia | exists 4; intro; lia]|]).
    cbn in Q. injection Q as <-. cbn. split; [lia|]. exists 0. intro; lia.
  - intros x y A b B. apply c_above in A as [<-|[(-> & [->|[->| ->]])|(-> & ->)]]; cbn in *; auto; lia.
  - intros x y N N1 N2 b B1 B2.
    do 4 (destruct x as [|x]; [do 4 (destruct y as [|y]; [cbn in *; try congruence; try tauto; lia|]); cbn in *; lia|]).
    cbn in B1. lia.
Qed.

(** The second branch of an alias tree has nested nodes 2 and 3: their bytes are
    counted twice and the structure of 12 bytes is reported to be covered. *)
Theorem C20_nested_refuted : exists f t children parents nfuel gsize m node size bytes E l,
  trees f /\ isTree t children parents /\ (length (nodes t) <= nfuel)%nat /\
  numberGraph children nfuel (label t) gsize = Some m /\
  memory f t node size bytes /\
  (forall x, In x l -> In (node x) (nodes t) /\ size x <> None) /\
  (forall fuel, (5 <= fuel)%nat -> cover fuel f m node size E l = Some true) /\
  ~ covered bytes E l.
Proof.
  destruct (c_parents lateTree lateChildren (or_introl (conj eq_refl eq_refl))) as (IT & _).
  eexists cForest, lateTree, lateChildren, bothParents, 4%nat, 4, _, cNode, (cSize (Some 12)),
    (cBytes 12), 0%nat, [1%nat; 2%nat; 3%nat].
  split; [exact c_trees|]. split; [exact IT|]. split; [cbn; lia|].
  split; [vm_compute; reflexivity|].
  split; [apply (c_memory _ lateChildren); [left; auto|lia]|]. split; [|split].
  - intros x I. cbn in I. destruct I as [<-|[<-|[<-|[]]]]; cbn; (split; [auto|discriminate]).
  - intros fuel F. do 5 (destruct fuel as [|fuel]; [lia|]). reflexivity.
  - intro C. destruct (C 9) as (x & I & B); [cbn; lia|].
    cbn in I. destruct I as [<-|[<-|[<-|[]]]]; cbn in B; lia.
Qed.
Print Assumptions C20_nested_refuted.

(** A part of an unknown size is reported to cover the whole. *)
Theorem C20_unknown_size_refuted : exists f t children parents nfuel gsize m node size bytes E l,
  trees f /\ isTree t children parents /\ (length (nodes t) <= nfuel)%nat /\
  numberGraph children nfuel (label t) gsize = Some m /\
  memory f t node size bytes /\
  (forall x, In x l -> In (node x) (nodes t)) /\ branches f t node E l /\
  (forall fuel, (5 <= fuel)%nat -> cover fuel f m node size E l = Some true) /\
  ~ covered bytes E l.
Proof.
  destruct (c_parents lateTree lateChildren (or_introl (conj eq_refl eq_refl))) as (IT & A01 & A02 & A03 & A23).
  eexists cForest, lateTree, lateChildren, bothParents, 4%nat, 4, _, cNode, (fun _ => None),
    (cBytes 12), 0%nat, [1%nat].
  split; [exact c_trees|]. split; [exact IT|]. split; [cbn; lia|].
  split; [vm_compute; reflexivity|]. split.
  { constructor; [discriminate| |]; apply (c_memory lateTree lateChildren 12); auto; lia. }
  split; [|split; [|split]].
  - intros x I. cbn in I. destruct I as [<-|[]]; cbn; auto.
  - intros x y [<-|[]] [<-|[]] _ _ A. exfalso. exact (anc_irrefl lateTree (proj1 IT) _ A).
  - intros fuel F. do 5 (destruct fuel as [|fuel]; [lia|]). reflexivity.
  - intro C. destruct (C 9) as (x & I & B); [cbn; lia|]. cbn in I. destruct I as [<-|[]]; cbn in B; lia.
Qed.
Print Assumptions C20_unknown_size_refuted.

(** If no listed location is in the tree of a location of a known size then the
    first element of an empty map is used. *)
Theorem C20_other_trees_refuted : forall fuel f m node size E l s,
  l <> [] -> size E = Some s ->
  (forall x, In x l -> isDescendantOf fuel f E x = Some false /\ isUnreachable fuel f E x = Some true) ->
  cover fuel f m node size E l = None.
Proof.
  intros fuel f m node size E l s NE SE H. unfold cover. destruct l as [|i l0] eqn:EL; [congruence|].
  rewrite <- EL in *. clear EL i l0 NE.
  assert (C : collect fuel f m node size E l [] = Some (inr [])).
  { induction l as [|i l IH]; [reflexivity|]. cbn.
    destruct (H i (or_introl eq_refl)) as (-> & ->). apply IH. intros x X. apply H. now right. }
  now rewrite C, SE.
Qed.
Print Assumptions C20_other_trees_refuted.
Example C20_other_trees_nonvacuous :
  forall fuel, (5 <= fuel)%nat -> isDescendantOf fuel cForest 0%nat 4%nat = Some false /\
    isUnreachable fuel cForest 0%nat 4%nat = Some true /\
    cover fuel cForest [] cNode (cSize (Some 8)) 0%nat [4%nat] = None.
Proof. intros fuel F. do 5 (destruct fuel as [|fuel]; [lia|]). repeat split. Qed.

(** The first branch has nested nodes 2 and 3, the structure of 8 bytes is
    covered. *)
Example C20_nonvacuous :
  trees cForest /\ isTree earlyTree earlyChildren bothParents /\
  memory cForest earlyTree cNode (cSize (Some 8)) (cBytes 8) /\
  branches cForest earlyTree cNode 0%nat [3%nat; 1%nat; 2%nat] /\
  properAncestor earlyTree (cNode 2%nat) (cNode 3%nat) /\
  exists m, numberGraph earlyChildren 4 0 4 = Some m /\
    cover 5 cForest m cNode (cSize (Some 8)) 0%nat [3%nat; 1%nat; 2%nat] = Some true /\
    cover 5 cForest m cNode (cSize (Some 9)) 0%nat [3%nat; 1%nat; 2%nat] = Some false.
Proof.
  assert (O : (earlyTree = lateTree /\ earlyChildren = lateChildren) \/
              (earlyTree = earlyTree /\ earlyChildren = earlyChildren)) by (right; auto).
  destruct (c_parents earlyTree earlyChildren O) as (IT & A01 & A02 & A03 & A23).
  split; [exact c_trees|]. split; [exact IT|]. split; [apply (c_memory _ _ 8 O); lia|].
  split; [|split; [exact A23|]].
  - intros x y X Y AX AY A. exists 2%nat, [3%nat; 1%nat; 2%nat].
    assert (AB : forall z, In z [3%nat; 1%nat; 2%nat] -> above cForest z 0%nat).
    { assert (A2 : above cForest 2%nat 0%nat) by (apply aboveStep with 0%nat; [reflexivity|constructor]).
      intros z [<-|[<-|[<-|[]]]]; [|apply aboveStep with 0%nat; [reflexivity|constructor]|exact A2].
      apply aboveStep with 2%nat; [reflexivity|exact A2]. }
    split; [intro z; split; [intro Z1; split; [exact Z1|auto]|tauto]|].
    split.
    + split; [cbn; auto|]. exists [0%nat], [3%nat; 1%nat]. split; [reflexivity|].
      intros z Z1. cbn in Z1. destruct Z1 as [<-|[<-|[<-|[]]]]; cbn; intuition discriminate.
    + pose proof (anc_pos earlyTree (proj1 IT) _ _ A) as P.
      cbn in X, Y. destruct X as [<-|[<-|[<-|[]]]]; cbn in *; auto.
      exfalso. destruct Y as [<-|[<-|[<-|[]]]]; cbn in P; lia.
  - eexists. split; [vm_compute; reflexivity|]. split; vm_compute; reflexivity.
Qed.
