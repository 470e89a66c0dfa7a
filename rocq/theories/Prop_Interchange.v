(** C60: an accepted interchange of loops does not change results of a program.
    C61: perfectly nested loops are found exactly. *)
From Coq Require Import ZArith List Bool Lia Permutation.
From Verif Require Import CanonModel CanonSpec InterchangeModel InterchangeSpec InterchangeProof InterchangeExec InterchangeNest InterchangeFinal.
Import ListNotations.
Local Open Scope Z_scope.

(** ** C61 *)
(** A for-loop is reported as a perfect one if and only if its body contains no loops or
    contains nothing but a single for-loop and braces. *)
Theorem C61_perfect : forall s f, In f (perfectLoops s) <->
  exists b, inside f b s /\ (loops b = [] \/ exists g c, flatten b = [SFor g c]).
Proof. exact perfect_spec. Qed.
Print Assumptions C61_perfect.
(** for (0) { { for (1) x; } } while (c) for (2) { for (3) x; x; } *)
Definition exProg : stmt :=
  SBlock [SFor 0 (SBlock [SBlock [SFor 1 (SOther [])]]); SOther [SOther []; SFor 2 (SBlock [SFor 3 (SOther []); SOther []])]].
Example C61_ex : perfectLoops exProg = [1; 0; 3]%nat /\
  (exists b, inside 0 b exProg /\ exists g c, flatten b = [SFor g c]) /\ ~ In 2%nat (perfectLoops exProg).
Proof.
  split; [reflexivity|]. split.
  - exists (SBlock [SBlock [SFor 1 (SOther [])]]). split; [eapply in_block; [now left|constructor]|]. cbn. eauto.
  - cbn. intros [H|[H|[H|[]]]]; discriminate.
Qed.

(** ** C60 *)
(** Loops which are interchanged form a perfect nest and are only permuted. *)
Theorem C60_nest : forall C info perfect name keyword fuel names prog f body hs,
  (forall g, perfect g = true -> In g (perfectLoops prog)) -> NoDup (loops prog) -> inside f body prog ->
  interchange C info perfect name keyword true fuel names (SFor f body) = Done hs ->
  exists fs b, nest (SFor f body) fs b /\ (forall g, In g hs -> In g fs) /\
    (NoDup (map (fun g => fVar (info g)) fs) -> Permutation fs hs).
Proof.
  intros C info perfect name keyword fuel names prog f body hs HP ND Hi H.
  destruct (accepted _ _ _ _ _ _ _ _ _ H) as (L & _ & A2 & A3 & A4); [cbn; discriminate|]. cbv zeta in *.
  exists (firstn (length hs) (loops (SFor f body))). destruct (length hs) as [|n] eqn:El; [lia|].
  destruct (perfect_nest prog n f body ND Hi ltac:(lia)) as (b & Hb).
  { intros J g HJ Hg. apply HP. apply (A2 J); [lia|]. rewrite nth_firstn by lia. exact Hg. }
  exists b. split; [exact Hb|]. split; [exact A4|]. intros Nv. apply Permutation_sym. apply NoDup_Permutation_bis.
  - eapply NoDup_map_inv. eapply Permutation_NoDup; [exact A3|exact Nv].
  - rewrite firstn_length, El. lia.
  - exact A4.
Qed.
Print Assumptions C60_nest.

(** An interchanged nest gives the same memory, apart from private variables and from
    induction variables if there are no iterations.  Missing: calls in heads of loops, heads
    which cannot be evaluated before the nest, see below. *)
Theorem C60_same_result_partial : forall C info perfect name keyword fuel names s hs fs
    globalAddr argVal allocAddr constVal compute callSem nary varAddr goOn norm B covers R W red st st',
  interchange C info perfect name keyword true fuel names s = Done hs -> loops s <> [] -> fs = firstn (length hs) (loops s) ->
  let m0 := mem st in let k0 := cnt st in
  treeRight C covers ->
  bodyRight C info globalAddr argVal allocAddr constVal compute callSem nary varAddr goOn norm B fs m0 k0 R W red ->
  traitsRight C info globalAddr argVal allocAddr constVal compute callSem nary varAddr goOn norm covers fs m0 k0 R W red ->
  inductionRight info varAddr covers fs ->
  canonicalRight C info globalAddr argVal allocAddr constVal compute callSem nary varAddr goOn norm fs m0 k0 W ->
  aliasRight C info globalAddr argVal allocAddr constVal compute callSem nary varAddr goOn norm covers fs m0 k0 W ->
  headsCallFree C info fs ->
  NoDup (map (fun f => varAddr (fVar (info f))) fs) ->
  (forall f, In f fs -> exists n, trip C info globalAddr argVal allocAddr constVal compute callSem nary goOn norm m0 k0 f n) ->
  run C info globalAddr argVal allocAddr constVal compute callSem nary varAddr goOn norm B fs st st' ->
  exists st'', run C info globalAddr argVal allocAddr constVal compute callSem nary varAddr goOn norm B hs st st'' /\
    forall x, ~ isPrivate info covers fs x ->
      ~ (isVarOf info varAddr fs x /\ exists f, In f fs /\ trip C info globalAddr argVal allocAddr constVal compute callSem nary goOn norm m0 k0 f 0) ->
      mem st' x = mem st'' x.
Proof.
  intros C info perfect name keyword fuel names s hs fs globalAddr argVal allocAddr constVal compute callSem nary varAddr goOn norm B covers R W red st st'
    H Hne Efs m0 k0 Tr BR TR IR CR AR CF NDv trips HR.
  destruct (accepted _ _ _ _ _ _ _ _ _ H Hne) as (L & A1 & _ & A3 & A4). cbv zeta in *. rewrite <- Efs in *.
  apply (interchanged C info globalAddr argVal allocAddr constVal compute callSem nary varAddr goOn norm B covers fs m0 k0 R W red fuel A1 Tr BR TR IR CR AR CF NDv trips hs st st'); auto.
  apply Permutation_sym. apply NoDup_Permutation_bis.
  - apply (NoDup_map_inv (fun f => fVar (info f))). eapply Permutation_NoDup; [exact A3|]. apply (NoDup_map_inv varAddr). rewrite map_map. exact NDv.
  - rewrite Efs, firstn_length. lia.
  - exact A4.
Qed.
Print Assumptions C60_same_result_partial.

(** *** An example *)
(** for (i = 0; i < c; ++i) for (j = 0; j < n; ++j) { a[i][j] = i + j + 1; s += 3 * i + j + 1; t = i - j; }
    Addresses: i is 0, j is 1, s is 5, t is 6, n is 7, a starts at 10. *)
Definition exC : ctx :=
  mkCtx (fun x => match x with 0%nat => mkInst OLoad [VGlobal 7] | 1%nat => mkInst (OCall 0) [] | _ => mkInst OPhi [VUser 2] end)
        (fun _ => [AUnk true true]) (fun _ => false) (fun x _ => match x with 0%nat => Some 6%nat | _ => None end) (fun _ => None) (fun a b => negb (Nat.eqb a b)) 0.
Definition exDeps (v : nat) : list trait :=
  [ mkTrait 0 true false false false (Nat.eqb v 0) false (Some 0%nat);
    mkTrait 1 (Nat.eqb v 0 || Nat.eqb v 1) false false false (Nat.eqb v 1) (Nat.eqb v 0) (Some 1%nat);
    mkTrait 3 true true false false false false None;
    mkTrait 4 true false false true false false (Some 5%nat);
    mkTrait 5 true false true false false false (Some 6%nat) ].
Definition exInfo (c : Z) (last : value) (f : nat) : forInfo :=
  match f with
  | 0%nat => mkFor true 0 (Some (VConst 0)) (Some (VConst c)) (Some (SCst 1)) (Some (exDeps 0))
  | _ => mkFor true 1 (Some (VConst 0)) (Some last) (Some (SCst 1)) (Some (tl (exDeps 1)))
  end.
Definition exStmt : stmt := SFor 0 (SBlock [SFor 1 (SOther [])]).
Definition exAddr (n : nat) : Z := Z.of_nat n.
Definition exCompute (o : opcode) (l : list Z) : option Z := None.
Definition exCall (f : nat) (l : list Z) (m : memory) (z : Z) : Prop := z = m 0.
Definition exNary (k : nat) (l : list Z) : Z := 0.
Definition exGo (f : nat) (a e : Z) : bool := a <? e.
Definition exNorm (f : nat) (z : Z) : Z := z.
Definition exMem (m : memory) : memory :=
  updZ (updZ (updZ m (10 + 10 * m 0 + m 1) (m 0 + m 1 + 1)) 5 (m 5 + (3 * m 0 + m 1 + 1))) 6 (m 0 - m 1).
Definition exBody (m : memory) : option memory := Some (exMem m).
Definition exCovers (n : nat) (a : Z) : Prop :=
  match n with 0%nat => a = 0 | 1%nat => a = 1 | 3%nat => 10 <= a | 4%nat => a = 5 | 5%nat => a = 6 | 6%nat => a = 7 | _ => False end.
Definition exR (ks : list Z) (x : Z) : Prop := False.
Definition exW (ks : list Z) (x : Z) : Prop := match ks with [i; j] => x = 10 + 10 * i + j \/ x = 5 \/ x = 6 | _ => False end.
Definition exRed (x : Z) : option (Z -> Z -> Z) := if x =? 5 then Some Z.add else None.
Definition exSt (n : Z) : state := mkState (fun x => if x =? 7 then n else 0) (fun _ => 0).
Notation exRun c last := (run exC (exInfo c last) exAddr exAddr exAddr exAddr exCompute exCall exNary exAddr exGo exNorm exBody).
Notation exTrip c last n := (trip exC (exInfo c last) exAddr exAddr exAddr exAddr exCompute exCall exNary exGo exNorm (mem (exSt n)) (cnt (exSt n))).
Definition bound (c : Z) (f : nat) (m : memory) : Z := match f with 0%nat => c | _ => m 7 end.
Lemma exStart c last f m z : startIs exC (exInfo c last) exAddr exAddr exAddr exAddr exCompute exCall f m z <-> z = 0.
Proof. split; [intros (v & E & D); destruct f; injection E as <-; now inversion D|intros ->; exists (VConst 0); split; [destruct f; reflexivity|constructor]]. Qed.
Lemma exStep c last f m k z : stepIs exC (exInfo c last) exAddr exAddr exAddr exAddr exCompute exCall exNary f m k z <-> z = 1.
Proof. split; [intros (v & E & D); destruct f; injection E as <-; now inversion D|intros ->; exists (SCst 1); split; [destruct f; reflexivity|constructor]]. Qed.
Lemma exEnd c f m z : endIs exC (exInfo c (VUser 0)) exAddr exAddr exAddr exAddr exCompute exCall f m z <-> z = bound c f m.
Proof.
  split.
  - intros (v & E & D). destruct f; injection E as <-; inversion D; subst; try reflexivity; cbn in *; try discriminate; try contradiction.
    match goal with H : [VGlobal 7] = [_] |- _ => injection H as <- end. match goal with H : denotes _ _ _ _ _ _ _ _ (VGlobal 7) _ |- _ => inversion H; subst end. reflexivity.
  - intros ->. destruct f; [exists (VConst c); split; [reflexivity|constructor]|]. exists (VUser 0). split; [reflexivity|]. cbn [bound].
    change 7 with (exAddr 7). eapply d_load; [reflexivity|reflexivity|constructor].
Qed.
Lemma exAfter f n : after exNorm f 0 1 n = Z.of_nat n.
Proof. induction n as [|n IH]; [reflexivity|]. cbn [after]. rewrite IH. unfold exNorm. lia. Qed.
Lemma exTrips c n f k : 0 <= c -> 0 <= n -> (exTrip c (VUser 0) n f k <-> k = bound c f (mem (exSt n))).
Proof.
  intros Hc Hn. assert (Hb : 0 <= bound c f (mem (exSt n))) by (destruct f; cbn; lia). split.
  - intros (s & e & d & H1 & H2 & H3 & H4 & H5 & H6). apply exStart in H1. apply exEnd in H2. apply exStep in H3. subst. rewrite exAfter in H6. unfold exGo in H6. apply Z.ltb_ge in H6.
    destruct (Z_lt_dec (bound c f (mem (exSt n))) k) as [L|L]; [|lia]. specialize (H5 (bound c f (mem (exSt n))) ltac:(lia)). rewrite exAfter in H5. apply Z.ltb_lt in H5. lia.
  - intros ->. exists 0, (bound c f (mem (exSt n))), 1. repeat split; auto; try (now apply exStart); try (now apply exEnd); try (now apply exStep).
    + intros j Hj. rewrite exAfter. apply Z.ltb_lt. lia.
    + rewrite exAfter. apply Z.ltb_ge. lia.
Qed.
Section Ex.
Variables c n : Z.
Variable Hc : 0 <= c.
Variable Hn : 0 <= n <= 9.
Notation P X := (X exC (exInfo c (VUser 0)) exAddr exAddr exAddr exAddr exCompute exCall exNary).
Notation m0 := (mem (exSt n)).
Notation k0 := (cnt (exSt n)).
Notation space := (P inSpace exGo exNorm [0%nat; 1%nat] m0 k0).
Lemma exA0 : addrOf (exInfo c (VUser 0)) exAddr 0 = 0.
Proof. reflexivity. Qed.
Lemma exA1 : addrOf (exInfo c (VUser 0)) exAddr 1 = 1.
Proof. reflexivity. Qed.
Lemma exSpace ks : space ks -> exists i j, ks = [i; j] /\ 0 <= i < c /\ 0 <= j < n.
Proof.
  intros H. inversion H as [|f i l l' (N & T & L) H2]; subst. inversion H2 as [|f' j l2 l2' (N' & T' & L') H3]; subst. inversion H3; subst.
  apply exTrips in T; [|lia|lia]. apply exTrips in T'; [|lia|lia]. subst. exists i, j. auto.
Qed.
Lemma exSimilar7 m : P similar exAddr exGo exNorm [0%nat; 1%nat] m0 k0 exW m -> m 7 = n.
Proof.
  intros S. rewrite (S 7); [reflexivity| |].
  - intros (ks & Hs & Hw). destruct (exSpace ks Hs) as (i & j & -> & Li & Lj). unfold exW in Hw. lia.
  - intros (f & [<-|[<-|[]]] & E); discriminate.
Qed.
Lemma exAt ks m : space ks -> P atIter exAddr exNorm [0%nat; 1%nat] m0 k0 ks m -> ks = [m 0; m 1].
Proof.
  intros Hs A. destruct (exSpace ks Hs) as (i & j & -> & Li & Lj). inversion A as [|? ? ? ? (s & d & H1 & H2 & H3) A2]; subst. inversion A2 as [|? ? ? ? (s' & d' & H4 & H5 & H6) A3]; subst.
  apply exStart in H1, H4. apply exStep in H2, H5. subst. rewrite exAfter in H3, H6. change (addrOf (exInfo c (VUser 0)) exAddr 0) with 0 in H3. change (addrOf (exInfo c (VUser 0)) exAddr 1) with 1 in H6.
  rewrite H3, H6. f_equal; [lia|]. f_equal. lia.
Qed.
Lemma exBodyRight : P bodyRight exAddr exGo exNorm exBody [0%nat; 1%nat] m0 k0 exR exW exRed.
Proof.
  split; [|split; [|split]].
  - intros ks x Hs [Hw|[]] (f & Hf & ->). destruct (exSpace ks Hs) as (i & j & -> & Li & Lj). unfold exW in Hw. destruct Hf as [<-|[<-|[]]]; rewrite ?exA0, ?exA1 in Hw; lia.
  - intros ks m q x Hs S A E Hw. rewrite (exAt ks m Hs A) in Hw. assert (q = exMem m) as -> by (unfold exBody in E; congruence). unfold exMem. unfold exW in Hw. rewrite (updZ_other _ 6) by lia; rewrite (updZ_other _ 5) by lia; now rewrite updZ_other by lia.
  - intros ks m m' Hs S A S' A' _. split; [split; discriminate|]. intros q q' x E E' Hw. pose proof (exAt ks m Hs A) as K. pose proof (exAt ks m' Hs A') as K'. rewrite K in K'. injection K' as K0 K1.
    rewrite K in Hw. destruct (exSpace ks Hs) as (i & j & Ek & Li & Lj). rewrite K in Ek. injection Ek as Ei Ej. assert (q = exMem m) as -> by (unfold exBody in E; congruence). assert (q' = exMem m') as -> by (unfold exBody in E'; congruence). unfold exMem, exRed. destruct (Z.eqb_spec x 5) as [->|Ne].
    + exists (3 * m 0 + m 1 + 1). rewrite !(updZ_other _ 6) by lia. rewrite !updZ_same. rewrite K0, K1. auto.
    + rewrite K0, K1 in *. unfold exW in Hw. unfold updZ. destruct (Z.eqb_spec x 6); [reflexivity|]. destruct (Z.eqb_spec x 5); [contradiction|].
      destruct (Z.eqb_spec x (10 + 10 * m' 0 + m' 1)); [reflexivity|]. lia.
  - intros x o E. unfold exRed in E. destruct (x =? 5); [|discriminate]. injection E as <-. split; [intros ks _ []|intros; lia].
Qed.
Lemma exNoDep I x : (I < 2)%nat -> 7 < x -> P noDepAt exGo exNorm [0%nat; 1%nat] m0 k0 exR exW I x.
Proof.
  intros HI Hx ks ks' Hs Hs' E1 E2 Hw. split; [|intros []]. intros Hw'.
  destruct (exSpace ks Hs) as (i1 & j1 & -> & L1 & L1'). destruct (exSpace ks' Hs') as (i2 & j2 & -> & L2 & L2'). unfold exW in Hw, Hw'.
  destruct I as [|[|I]]; [| |lia]; cbn [firstn nth_error] in *; apply E2; f_equal; [lia|]. injection E1 as ->. lia.
Qed.
Lemma exTraitsRight : P traitsRight exAddr exGo exNorm exCovers [0%nat; 1%nat] m0 k0 exR exW exRed.
Proof.
  intros I f ts ks x Hf Ets Hs [Hw|[]]. destruct (exSpace ks Hs) as (i & j & -> & Li & Lj).
  assert (Inc : incl (tl (tl (exDeps 0))) ts).
  { destruct I as [|[|[|I]]]; cbn in Hf; try discriminate; injection Hf as <-; injection Ets as <-; intros t Ht; cbn in *; tauto. }
  assert (I2 : (I < 2)%nat) by (destruct I as [|[|[|I]]]; cbn in Hf; try discriminate; lia).
  unfold exW in Hw. destruct Hw as [-> |[-> | ->]].
  - exists (mkTrait 3 true true false false false false None). split; [apply Inc; now left|]. cbn [tCovered tNode tScalar tNoDep tPrivate tReduction tSecond].
    split; [reflexivity|]. split; [cbn [exCovers]; lia|]. split; [discriminate|]. split; [intros _; apply exNoDep; lia|]. split; [discriminate|]. split; discriminate.
  - exists (mkTrait 4 true false false true false false (Some 5%nat)). split; [apply Inc; cbn; tauto|]. cbn [tCovered tNode tScalar tNoDep tPrivate tReduction tSecond].
    split; [reflexivity|]. split; [reflexivity|]. split; [intros v E; injection E as <-; reflexivity|]. split; [discriminate|]. split; [discriminate|]. split; discriminate.
  - exists (mkTrait 5 true false true false false false (Some 6%nat)). split; [apply Inc; cbn; tauto|]. cbn [tCovered tNode tScalar tNoDep tPrivate tReduction tSecond].
    split; [reflexivity|]. split; [reflexivity|]. split; [intros v E; injection E as <-; reflexivity|]. split; [discriminate|]. split; [intros _ ks _ []|]. split; discriminate.
Qed.
Lemma exInductionRight : inductionRight (exInfo c (VUser 0)) exAddr exCovers [0%nat; 1%nat].
Proof.
  clear Hc Hn. intros f ts t v Hf Ets Ht Ei Es. destruct Hf as [<-|[<-|[]]]; injection Ets as <-; cbn in Ht; intuition (subst; cbn in *; try discriminate; injection Es as <-; reflexivity).
Qed.
Lemma exCanonicalRight : P canonicalRight exAddr exGo exNorm [0%nat; 1%nat] m0 k0 exW.
Proof.
  intros J f m m' k k' Hf _ S S' _ _. split; [|split]; intros z H.
  - apply exStart in H. now apply exStart.
  - apply exEnd in H. apply exEnd. subst z. unfold bound. destruct f; [reflexivity|]. now rewrite (exSimilar7 m S), (exSimilar7 m' S').
  - apply exStep in H. now apply exStep.
Qed.
Lemma exAliasRight : P aliasRight exAddr exGo exNorm exCovers [0%nat; 1%nat] m0 k0 exW.
Proof.
  intros m x p a d S Ho Ha D Ed. destruct x as [|[|x]]; cbn in Ho, Ha, Ed; try discriminate. injection Ed as <-. injection Ha as <-. inversion D; subst. reflexivity.
Qed.
Lemma exCallFree : headsCallFree exC (exInfo c (VUser 0)) [0%nat; 1%nat].
Proof.
  assert (Q : forall y, needs exC 0 y -> y = 0%nat). { intros y H. inversion H; subst; [reflexivity|]. match goal with K : In _ _ |- _ => destruct K as [K|[]]; discriminate K end. }
  intros f v Hf H x y g -> Ny. destruct Hf as [<-|[<-|[]]]; destruct H as [H|[H|(s & H & Hs)]]; cbn in H; try discriminate.
  - injection H as <-. destruct Hs.
  - injection H as <-. rewrite (Q y Ny). discriminate.
  - injection H as <-. destruct Hs.
Qed.
Lemma exTree : treeRight exC exCovers.
Proof.
  clear. intros d m a H Hd Hm. cbn in H. apply negb_true_iff, Nat.eqb_neq in H.
  destruct d as [|[|[|[|[|[|[|d]]]]]]], m as [|[|[|[|[|[|[|m]]]]]]]; cbn [exCovers] in *; try contradiction; lia.
Qed.
Lemma exNoPrivate x : x <> 6 -> ~ isPrivate (exInfo c (VUser 0)) exCovers [0%nat; 1%nat] x.
Proof.
  clear Hc Hn. intros Ne (f & ts & t & Hf & Ets & Ht & Hp & Hcov). destruct Hf as [<-|[<-|[]]]; injection Ets as <-; cbn in Ht; intuition (subst; cbn in *; try discriminate; congruence).
Qed.
End Ex.
Lemma exDone c last fuel : (2 <= fuel)%nat -> last = VUser 0 \/ last = VUser 1 ->
  interchange exC (exInfo c last) (fun _ => true) (fun v => v) 9 true fuel [0%nat; 1%nat] exStmt = Done [1%nat; 0%nat].
Proof. intros Hf HL. destruct fuel as [|[|fuel]]; [lia|lia|]. destruct HL as [-> | ->]; reflexivity. Qed.
Lemma exInner c r : forall st, mem st 7 - mem st 1 = Z.of_nat r -> 0 <= mem st 0 -> 0 <= mem st 1 ->
  exists st', loopRel exC (exInfo c (VUser 0)) exAddr exAddr exAddr exAddr exCompute exCall exNary exAddr exGo exNorm 1 (exRun c (VUser 0) []) st st' /\
    mem st' 0 = mem st 0 /\ mem st' 7 = mem st 7 /\ mem st 5 + Z.of_nat r <= mem st' 5.
Proof.
  induction r as [|r IH]; intros st Hr H0 H1.
  - exists st. split; [|lia]. eapply lr_end; [apply exEnd; reflexivity|]. apply Z.ltb_ge. rewrite exA1. cbn [bound]. lia.
  - set (st1 := mkState (exMem (mem st)) (cnt st)).
    assert (Q : forall x, x < 10 -> x <> 5 -> x <> 6 -> mem st1 x = mem st x) by (intros x L1 L2 L3; cbn [mem st1]; unfold exMem; now rewrite !updZ_other by lia).
    assert (Q5 : mem st1 5 = mem st 5 + (3 * mem st 0 + mem st 1 + 1)) by (cbn [mem st1]; unfold exMem; rewrite updZ_other by lia; apply updZ_same).
    assert (RB : exRun c (VUser 0) [] st st1) by (eexists; split; reflexivity). clearbody st1.
    destruct (IH (mkState (updZ (mem st1) 1 (mem st1 1 + 1)) (updN (cnt st1) 1 (cnt st1 1%nat + 1)))) as (st' & HL & E0 & E7 & E5); [cbn [mem]; rewrite ?updZ_same, ?updZ_other, ?Q by lia; lia..|].
    cbn [mem] in E0, E7, E5. rewrite !updZ_other in E0, E7, E5 by lia. rewrite Q in E0, E7 by lia.
    exists st'. split; [|lia]. eapply lr_next with (st1 := st1); [apply exEnd; reflexivity| |exact RB|apply exStep; reflexivity|exact HL].
    rewrite exA1. cbn [bound]. apply Z.ltb_lt. lia.
Qed.
Lemma exOuter c r : forall st, c - mem st 0 = Z.of_nat r -> 0 <= mem st 0 -> 0 <= mem st 7 ->
  exists st', loopRel exC (exInfo c (VUser 0)) exAddr exAddr exAddr exAddr exCompute exCall exNary exAddr exGo exNorm 0 (exRun c (VUser 0) [1%nat]) st st' /\
    mem st' 7 = mem st 7 /\ mem st 5 + Z.of_nat r * mem st 7 <= mem st' 5.
Proof.
  induction r as [|r IH]; intros st Hr H0 H7.
  - exists st. split; [|lia]. eapply lr_end; [apply exEnd; reflexivity|]. apply Z.ltb_ge. rewrite exA0. cbn [bound]. lia.
  - destruct (exInner c (Z.to_nat (mem st 7)) (mkState (updZ (mem st) 1 0) (updN (cnt st) 1 0))) as (st1 & HL1 & E0 & E7 & E5); [cbn [mem]; rewrite ?updZ_same, ?updZ_other by lia; lia..|].
    cbn [mem] in E0, E7, E5. rewrite !updZ_other in E0, E7, E5 by lia.
    destruct (IH (mkState (updZ (mem st1) 0 (mem st1 0 + 1)) (updN (cnt st1) 0 (cnt st1 0%nat + 1)))) as (st' & HL & F7 & F5); [cbn [mem]; rewrite ?updZ_same, ?updZ_other by lia; lia..|].
    cbn [mem] in F7, F5. rewrite (updZ_other _ _ _ 7) in F7, F5 by lia. rewrite (updZ_other _ _ _ 5) in F5 by lia. rewrite E7 in F7, F5.
    exists st'. split; [|rewrite Nat2Z.inj_succ, Z.mul_succ_l; lia]. eapply lr_next with (st1 := st1); [apply exEnd; reflexivity| |cbn [run]; exists 0; split; [now apply exStart|exact HL1]|apply exStep; reflexivity|exact HL].
    rewrite exA0. cbn [bound]. apply Z.ltb_lt. lia.
Qed.
Lemma exRuns c n : 0 <= c -> 0 <= n -> exists st', exRun c (VUser 0) [0%nat; 1%nat] (exSt n) st' /\ c * n <= mem st' 5.
Proof.
  intros Hc Hn. destruct (exOuter c (Z.to_nat c) (mkState (updZ (mem (exSt n)) 0 0) (updN (cnt (exSt n)) 0 0))) as (st' & HL & _ & E5); [cbn; lia..|].
  exists st'. split; [exists 0; split; [now apply exStart|exact HL]|]. cbn in E5. lia.
Qed.
(** Two iterations of each loop *)
Example C60_ex : exists st', exRun 2 (VUser 0) [0%nat; 1%nat] (exSt 2) st' /\ 4 <= mem st' 5 /\
  exists st'', exRun 2 (VUser 0) [1%nat; 0%nat] (exSt 2) st'' /\ forall x, x <> 6 -> mem st' x = mem st'' x.
Proof.
  destruct (exRuns 2 2) as (st' & HR & E1); [lia|lia|]. exists st'. split; [exact HR|]. split; [exact E1|].
  destruct (C60_same_result_partial exC (exInfo 2 (VUser 0)) (fun _ => true) (fun v => v) 9%nat 2%nat [0%nat; 1%nat] exStmt [1%nat; 0%nat] [0%nat; 1%nat]
    exAddr exAddr exAddr exAddr exCompute exCall exNary exAddr exGo exNorm exBody exCovers exR exW exRed (exSt 2) st') as (st'' & HR' & Q).
  - apply exDone; auto.
  - discriminate.
  - reflexivity.
  - apply exTree.
  - apply exBodyRight; lia.
  - apply exTraitsRight; lia.
  - apply (exInductionRight 2).
  - apply exCanonicalRight; lia.
  - apply exAliasRight.
  - apply exCallFree.
  - repeat constructor; cbn; intuition discriminate.
  - intros f _. eexists. apply exTrips; [lia|lia|reflexivity].
  - exact HR.
  - exists st''. split; [exact HR'|]. intros x Ne. apply Q; [now apply exNoPrivate|]. intros (_ & f & [<-|[<-|[]]] & T); apply exTrips in T; cbn in T; lia.
Qed.

(** Full statement: an accepted interchange never changes results.  It is false in four cases. *)
(** If the inner loop has no iterations, then values of induction variables are changed. *)
Theorem C60_induction_variable_refuted :
  interchange exC (exInfo 2 (VUser 0)) (fun _ => true) (fun v => v) 9 true 2 [0%nat; 1%nat] exStmt = Done [1%nat; 0%nat] /\
  bodyRight exC (exInfo 2 (VUser 0)) exAddr exAddr exAddr exAddr exCompute exCall exNary exAddr exGo exNorm exBody [0%nat; 1%nat] (mem (exSt 0)) (cnt (exSt 0)) exR exW exRed /\
  traitsRight exC (exInfo 2 (VUser 0)) exAddr exAddr exAddr exAddr exCompute exCall exNary exAddr exGo exNorm exCovers [0%nat; 1%nat] (mem (exSt 0)) (cnt (exSt 0)) exR exW exRed /\
  canonicalRight exC (exInfo 2 (VUser 0)) exAddr exAddr exAddr exAddr exCompute exCall exNary exAddr exGo exNorm [0%nat; 1%nat] (mem (exSt 0)) (cnt (exSt 0)) exW /\
  headsCallFree exC (exInfo 2 (VUser 0)) [0%nat; 1%nat] /\
  exists st', exRun 2 (VUser 0) [0%nat; 1%nat] (exSt 0) st' /\
    forall st'', exRun 2 (VUser 0) [1%nat; 0%nat] (exSt 0) st'' -> mem st' 0 <> mem st'' 0 /\ ~ isPrivate (exInfo 2 (VUser 0)) exCovers [0%nat; 1%nat] 0.
Proof.
  split; [apply exDone; auto|]. split; [apply exBodyRight; lia|]. split; [apply exTraitsRight; lia|]. split; [apply exCanonicalRight; lia|]. split; [apply exCallFree|].
  eexists. split.
  - cbn [run]. exists 0. split; [now apply exStart|].
    eapply lr_next; [apply exEnd; reflexivity|reflexivity|exists 0; split; [now apply exStart|eapply lr_end; [apply exEnd; reflexivity|reflexivity]]|now apply exStep|].
    eapply lr_next; [apply exEnd; reflexivity|reflexivity|exists 0; split; [now apply exStart|eapply lr_end; [apply exEnd; reflexivity|reflexivity]]|now apply exStep|].
    eapply lr_end; [apply exEnd; reflexivity|reflexivity].
  - intros st'' HR. split; [|now apply exNoPrivate]. cbn [run] in HR. destruct HR as (z & Hz & HL). apply exStart in Hz. subst z.
    inversion HL as [? e He Hg|? st1 st2 e d He Hg]; subst; apply exEnd in He; subst e; vm_compute in Hg; [|discriminate]. vm_compute. discriminate.
Qed.
Print Assumptions C60_induction_variable_refuted.

(** A call in a head may read an induction variable: the nest is not rectangular. *)
Lemma exEndCall c m z : endIs exC (exInfo c (VUser 1)) exAddr exAddr exAddr exAddr exCompute exCall 1 m z <-> z = m 0.
Proof.
  split.
  - intros (v & E & D). injection E as <-. inversion D; subst; cbn in *; try discriminate; try contradiction.
    match goal with H : exCall _ _ _ _ |- _ => exact H end.
  - intros ->. exists (VUser 1). split; [reflexivity|]. eapply d_call; [reflexivity|constructor|reflexivity].
Qed.
Lemma exEndOuter c last m z : endIs exC (exInfo c last) exAddr exAddr exAddr exAddr exCompute exCall 0 m z <-> z = c.
Proof. split; [intros (v & E & D); injection E as <-; now inversion D|intros ->; exists (VConst c); split; [reflexivity|constructor]]. Qed.
Theorem C60_call_refuted :
  interchange exC (exInfo 2 (VUser 1)) (fun _ => true) (fun v => v) 9 true 2 [0%nat; 1%nat] exStmt = Done [1%nat; 0%nat] /\
  (** heads of loops do not depend on memory which is changed by the body and by the loop itself *)
  (forall f m m', In f [0%nat; 1%nat] -> (f = 1%nat -> m 0 = m' 0) ->
    (forall z, endIs exC (exInfo 2 (VUser 1)) exAddr exAddr exAddr exAddr exCompute exCall f m z -> endIs exC (exInfo 2 (VUser 1)) exAddr exAddr exAddr exAddr exCompute exCall f m' z)) /\
  exists st', exRun 2 (VUser 1) [0%nat; 1%nat] (exSt 0) st' /\
    forall st'', exRun 2 (VUser 1) [1%nat; 0%nat] (exSt 0) st'' -> mem st' 5 <> mem st'' 5.
Proof.
  split; [apply exDone; auto|]. split.
  { intros f m m' [<-|[<-|[]]] E z H; [apply exEndOuter in H; now apply exEndOuter|]. apply exEndCall in H. apply exEndCall. rewrite H. now apply E. }
  eexists. split.
  - cbn [run]. exists 0. split; [now apply exStart|].
    eapply lr_next; [now apply exEndOuter|reflexivity|exists 0; split; [now apply exStart|eapply lr_end; [apply exEndCall; reflexivity|reflexivity]]|now apply exStep|].
    eapply lr_next; [now apply exEndOuter|reflexivity| |now apply exStep|].
    + exists 0. split; [now apply exStart|]. eapply lr_next; [apply exEndCall; reflexivity|reflexivity|eexists; split; reflexivity|now apply exStep|].
      eapply lr_end; [apply exEndCall; reflexivity|vm_compute; reflexivity].
    + eapply lr_end; [now apply exEndOuter|vm_compute; reflexivity].
  - intros st'' HR. cbn [run] in HR. destruct HR as (z & Hz & HL). apply exStart in Hz. subst z.
    inversion HL as [? e He Hg|? st1 st2 e d He Hg]; subst; apply exEndCall in He; subst e; vm_compute in Hg; [|discriminate]. vm_compute. discriminate.
Qed.
Print Assumptions C60_call_refuted.

(** The inner loop is never executed, the interchanged nest never ends. *)
Definition exGo1 (f : nat) (a e : Z) : bool := match f with 0%nat => a <? e | _ => true end.
Theorem C60_endless_refuted :
  interchange exC (exInfo 0 (VUser 0)) (fun _ => true) (fun v => v) 9 true 2 [0%nat; 1%nat] exStmt = Done [1%nat; 0%nat] /\
  (exists st', run exC (exInfo 0 (VUser 0)) exAddr exAddr exAddr exAddr exCompute exCall exNary exAddr exGo1 exNorm exBody [0%nat; 1%nat] (exSt 1) st') /\
  forall st'', ~ run exC (exInfo 0 (VUser 0)) exAddr exAddr exAddr exAddr exCompute exCall exNary exAddr exGo1 exNorm exBody [1%nat; 0%nat] (exSt 1) st''.
Proof.
  split; [apply exDone; auto|]. split.
  - eexists. cbn [run]. exists 0. split; [now apply exStart|]. eapply lr_end; [apply exEnd; reflexivity|reflexivity].
  - intros st'' HR. cbn [run] in HR. destruct HR as (z & _ & HL).
    assert (Q : forall body st st', loopRel exC (exInfo 0 (VUser 0)) exAddr exAddr exAddr exAddr exCompute exCall exNary exAddr exGo1 exNorm 1 body st st' -> False).
    { intros body. induction 1 as [st e He Hg|]; [discriminate|assumption]. }
    exact (Q _ _ _ HL).
Qed.
Print Assumptions C60_endless_refuted.

(** *** Failures *)
Lemma depLoop_some var ts : forall d0 p0 d p, depLoop var ts d0 p0 = (d, p, false) ->
  (d0 <> None \/ exists t, In t ts /\ tCovered t = true /\ tNoDep t = false /\ tPrivate t = false /\ tReduction t = false /\ tInduction t = true /\ tScalar t = Some var) -> d <> None.
Proof.
  induction ts as [|t ts IH]; intros d0 p0 d p H K; cbn [depLoop] in H.
  - injection H as <- <-. destruct K as [K|(t & [] & _)]. exact K.
  - destruct K as [K|(u & [<-|Hu] & K)].
    + destruct (_ || _ || _); [eapply IH; eauto|]. destruct (if tInduction t || tSecond t then tScalar t else None) as [v|]; [|discriminate].
      destruct (tInduction t); [|eapply IH; eauto]. destruct (Nat.eqb v var); [|discriminate]. eapply IH; [exact H|]. left. discriminate.
    + destruct K as (K1 & K2 & K3 & K4 & K5 & K6). rewrite K1, K2, K3, K4, K5, K6 in H. cbn [negb orb] in H. rewrite Nat.eqb_refl in H. eapply IH; [exact H|]. left. discriminate.
    + destruct (_ || _ || _); [eapply IH; eauto|]. destruct (if tInduction t || tSecond t then tScalar t else None) as [v|]; [|discriminate].
      destruct (tInduction t); [|eapply IH; eauto]. destruct (Nat.eqb v var); [|discriminate]. eapply IH; eauto.
Qed.
Lemma position_some {A} (p : A -> bool) l x : In x l -> p x = true -> exists k, position p l = Some k.
Proof.
  induction l as [|a l IH]; intros Hx Px; [destruct Hx|]. cbn [position]. destruct (p a) eqn:Ea; [eauto|]. destruct Hx as [->|Hx]; [congruence|].
  destruct (IH Hx Px) as (k & ->). cbn. eauto.
Qed.
Lemma newOrder_some n : forall vals order, length vals = (2 * n)%nat -> (forall v, In v vals -> In (Some v) order) -> newOrder vals order <> None.
Proof.
  induction n as [|n IH]; intros vals order L H; [destruct vals; [discriminate|cbn in L; lia]|].
  destruct vals as [|a [|b vals]]; cbn [length] in L; try lia. cbn [newOrder].
  destruct (position_some (isSome a) order (Some a)) as (i & Ei); [apply H; now left|cbn; apply Nat.eqb_refl|].
  destruct (position_some (isSome b) order (Some b)) as (j & Ej); [apply H; right; now left|cbn; apply Nat.eqb_refl|]. rewrite Ei, Ej.
  destruct (position_spec _ _ _ Ei) as (x & Nx & _). destruct (position_spec _ _ _ Ej) as (y & Ny & _).
  destruct (swapItems order i j) as [o|] eqn:Es; [|unfold swapItems in Es; rewrite Nx, Ny in Es; discriminate].
  apply IH; [lia|]. intros v Hv. eapply Permutation_in; [eapply swapItems_perm; exact Es|]. apply H. right. now right.
Qed.
Lemma headersOf_some inds order : forall I, (I + length order <= length inds)%nat -> (forall o, In o order -> In o (map iVar inds)) -> headersOf inds order I <> None.
Proof.
  induction order as [|o order IH]; intros I L H; cbn [headersOf]; [discriminate|]. cbn [length] in L.
  pose proof (IH (S I) ltac:(lia) ltac:(intros x Hx; apply H; now right)) as K. destruct (headersOf inds order (S I)); [|congruence].
  destruct (nth_error inds I) as [i|] eqn:Ei; [|apply nth_error_None in Ei; lia]. destruct (optEq o (iVar i)); [discriminate|].
  pose proof (H o ltac:(now left)) as Ho. apply in_map_iff in Ho. destruct Ho as (j & <- & Hj).
  destruct (position_some (fun k => optEq (iVar k) (iVar j)) inds j Hj) as (k & Ek); [now apply optEq_spec|]. rewrite Ek.
  destruct (position_spec _ _ _ Ek) as (x & -> & _). discriminate.
Qed.
Lemma matchSwaps_spec name inds swaps : forall vals M vals' M', matchSwaps name inds swaps vals M = Some (vals', M') ->
  (forall v, In v vals -> exists k i, (k <= M)%nat /\ nth_error inds k = Some i /\ iVar i = Some v) ->
  (M <= M')%nat /\ length vals' = (length vals + length swaps)%nat /\ forall v, In v vals' -> exists k i, (k <= M')%nat /\ nth_error inds k = Some i /\ iVar i = Some v.
Proof.
  induction swaps as [|w swaps IH]; intros vals M vals' M' H Hv; cbn [matchSwaps] in H; [injection H as <- <-; split; [lia|]; split; [cbn; lia|exact Hv]|].
  destruct (position _ inds) as [k|] eqn:E; [|discriminate]. destruct (position_spec _ _ _ E) as (i & Ei & _). rewrite Ei in H. destruct (iVar i) as [v|] eqn:Ev; [|discriminate].
  destruct (IH _ _ _ _ H) as (A1 & A2 & A3).
  - intros u Hu. apply in_app_iff in Hu. destruct Hu as [Hu|[<-|[]]].
    + destruct (Hv u Hu) as (k' & i' & L & B1 & B2). exists k', i'. split; [lia|auto].
    + exists k, i. split; [lia|auto].
  - split; [lia|]. split; [|exact A3]. rewrite A2, app_length. cbn [length]. lia.
Qed.
Lemma checkAll_crash C info strict fuel inds MaxIdx n : forall I p, (I + n < length inds)%nat -> checkAll C info strict fuel inds n I MaxIdx p = VCrash ->
  exists J, (J < length inds)%nat /\ checkLoop C info strict fuel inds J MaxIdx = VCrash.
Proof.
  induction n as [|n IH]; intros I p L H; cbn [checkAll] in H.
  - exists I. split; [lia|]. destruct (checkLoop C info strict fuel inds I MaxIdx); [reflexivity|discriminate|discriminate].
  - destruct (nth_error inds I) as [i|] eqn:Ei; [|apply nth_error_None in Ei; lia]. destruct (kNotPerfect i); [eapply IH; [|exact H]; lia|].
    destruct (checkLoop C info strict fuel inds I MaxIdx) eqn:E; [exists I; split; [lia|exact E]|discriminate|eapply IH; [|exact H]; lia].
Qed.
(** The transformation does not fail if pairs of variables are given, their names differ from the
    name of the clause and each induction variable is found by dependence analysis. *)
Theorem C60_no_failure_partial : forall C info perfect name keyword fuel names s,
  loops s <> [] -> Nat.Even (length names) -> ~ In keyword names ->
  (forall f ts, In f (loops s) -> fDeps (info f) = Some ts -> exists t, In t ts /\ tCovered t = true /\
     tNoDep t = false /\ tPrivate t = false /\ tReduction t = false /\ tInduction t = true /\ tScalar t = Some (fVar (info f))) ->
  interchange C info perfect name keyword true fuel names s <> Crash.
Proof.
  intros C info perfect name keyword fuel names s Hne (n & En) Hk HD H. unfold interchange in H.
  assert (EL : literals keyword names = names).
  { unfold literals. clear - Hk. induction names as [|a l IH]; [reflexivity|]. cbn [filter]. destruct (Nat.eqb_spec a keyword) as [->|]; [exfalso; apply Hk; now left|]. cbn [negb]. f_equal. apply IH. intros K. apply Hk. now right. }
  rewrite EL in H. set (inds := map (entry info perfect true) (loops s)) in *.
  destruct (matchSwaps name inds names [] 0) as [[vals M]|] eqn:Em; [|discriminate].
  assert (LM : (M < length inds)%nat). { eapply matchSwaps_max; [exact Em|]. unfold inds. rewrite map_length. destruct (loops s); [contradiction|cbn; lia]. }
  destruct (matchSwaps_spec _ _ _ _ _ _ _ Em) as (_ & Lv & Hv); [intros v []|]. cbn [length Nat.add] in Lv.
  destruct (checkAll C info true fuel inds M 0 M true) as [| |[|]] eqn:Ec; try discriminate.
  - destruct (checkAll_crash C info true fuel inds M M 0%nat true ltac:(lia) Ec) as (J & LJ & EJ). unfold checkLoop in EJ.
    destruct (nth_error inds J) as [i|] eqn:Ei; [|apply nth_error_None in Ei; lia]. unfold inds in Ei. rewrite nth_error_map in Ei. destruct (nth_error (loops s) J) as [f|] eqn:Ef; [|discriminate]. injection Ei as <-.
    unfold entry at 1 2 3 4 5 6 in EJ. destruct (fCanonical (info f)) eqn:Cf; [|cbn in EJ; discriminate]. destruct (fDeps (info f)) as [ts|] eqn:Ed; [|cbn in EJ; discriminate].
    cbn [kNotCanonical kHasDep negb kNotAnalyzed iPriv iDIM] in EJ. destruct (depLoop (fVar (info f)) ts None []) as [[d p] b] eqn:El. cbn [fst snd] in EJ.
    destruct b; [discriminate|]. destruct (negb _); [discriminate|]. destruct d as [d|]; [destruct (accessedInHeaders _ _ _ _ _ _); discriminate|].
    apply (depLoop_some _ _ _ _ _ _ El); [|reflexivity]. right. apply (HD f ts); [eapply nth_error_In; exact Ef|exact Ed].
  - assert (Ho : newOrder vals (map iVar (firstn (S M) inds)) <> None).
    { apply (newOrder_some n); [lia|]. intros v Hi. destruct (Hv v Hi) as (k & i & Lk & Ei & Ev). rewrite <- Ev. apply in_map. apply nth_error_In with (n := k). rewrite nth_firstn by lia. exact Ei. }
    destruct (newOrder vals (map iVar (firstn (S M) inds))) as [order|] eqn:Eo; [|congruence]. pose proof (newOrder_perm _ _ _ _ (le_n _) Eo) as PO.
    assert (Hh : headersOf inds order 0 <> None).
    { apply headersOf_some.
      - rewrite <- (Permutation_length PO), map_length, firstn_length. lia.
      - intros o Ho'. assert (K : In o (map iVar (firstn (S M) inds))) by (eapply Permutation_in; [apply Permutation_sym; exact PO|exact Ho']).
        apply in_map_iff in K. destruct K as (i & <- & Hi). apply in_map. eapply firstn_in; exact Hi. }
    destruct (headersOf inds order 0); [discriminate|congruence].
Qed.
Print Assumptions C60_no_failure_partial.
Example C60_no_failure_ex : interchange exC (exInfo 2 (VUser 0)) (fun _ => true) (fun v => v) 9 true 2 [0%nat; 1%nat] exStmt <> Crash.
Proof.
  apply C60_no_failure_partial.
  - discriminate.
  - exists 1%nat. reflexivity.
  - cbn. intros [H|[H|[]]]; discriminate.
  - intros f ts [<-|[<-|[]]] E; injection E as <-; [exists (mkTrait 0 true false false false true false (Some 0%nat))|exists (mkTrait 1 true false false false true false (Some 1%nat))]; cbn; auto 10.
Qed.
(** A variable with the name of the clause (9), a variable without a partner: an odd number of
    names is not diagnosed. *)
Theorem C60_no_failure_refuted :
  interchange exC (exInfo 2 (VUser 0)) (fun _ => true) (fun v => match v with 0%nat => 9%nat | _ => v end) 9 true 2 [9%nat; 1%nat] exStmt = Crash /\
  interchange exC (exInfo 2 (VUser 0)) (fun _ => true) (fun v => v) 9 true 2 [0%nat] exStmt = Crash.
Proof. split; reflexivity. Qed.
Print Assumptions C60_no_failure_refuted.

(** The check ends if there are no cycles through operands of instructions. *)
Lemma accessedIn_fuel C d (rank : nat -> nat) : (forall x y, In (VUser y) (iArgs (cInst C x)) -> (rank y < rank x)%nat) ->
  forall fuel v, match v with VUser x => (S (rank x) < fuel)%nat | _ => (0 < fuel)%nat end -> accessedIn C d fuel v <> None.
Proof.
  intros HR. induction fuel as [|fuel IH]; intros v Hv; [destruct v; lia|]. cbn [accessedIn]. destruct v as [x|z|g|a]; try discriminate.
  destruct (isInstruction C x); [|discriminate]. destruct (fold_left _ _ _); [discriminate|].
  assert (G : forall os, (forall o, In o os -> In o (iArgs (cInst C x))) -> (fix ops (os : list value) : option bool :=
             match os with
             | [] => Some false
             | o :: os => match o with
               | VConst _ | VGlobal _ => ops os
               | _ => match accessedIn C d fuel o with None => None | Some true => Some true | Some false => ops os end
               end
             end) os <> None).
  { induction os as [|o os IHo]; intros Hi; [discriminate|]. assert (Hi' : forall o, In o os -> In o (iArgs (cInst C x))) by (intros; apply Hi; now right).
    destruct o as [y|z|g|a]; [|now apply IHo|now apply IHo|].
    - pose proof (HR x y (Hi _ (or_introl eq_refl))) as Lt. assert (K : accessedIn C d fuel (VUser y) <> None) by (apply IH; lia).
      destruct (accessedIn C d fuel (VUser y)) as [[|]|]; [discriminate|now apply IHo|congruence].
    - assert (K : accessedIn C d fuel (VArg a) <> None) by (apply IH; lia).
      destruct (accessedIn C d fuel (VArg a)) as [[|]|]; [discriminate|now apply IHo|congruence]. }
  apply G. auto.
Qed.
Lemma checkAll_nofuel C info strict fuel inds MaxIdx n : forall I p, checkAll C info strict fuel inds n I MaxIdx p = VNoFuel ->
  exists J, checkLoop C info strict fuel inds J MaxIdx = VNoFuel.
Proof.
  induction n as [|n IH]; intros I p H; cbn [checkAll] in H.
  - exists I. destruct (checkLoop C info strict fuel inds I MaxIdx); [discriminate|reflexivity|discriminate].
  - destruct (nth_error inds I) as [i|] eqn:Ei; [|discriminate]. destruct (kNotPerfect i); [eapply IH; exact H|].
    destruct (checkLoop C info strict fuel inds I MaxIdx) eqn:E; [discriminate|exists I; exact E|eapply IH; exact H].
Qed.
Theorem C60_ends_partial : forall C info perfect name keyword strict fuel names s (rank : nat -> nat) top,
  (forall x y, In (VUser y) (iArgs (cInst C x)) -> (rank y < rank x)%nat) -> (forall x, (rank x < top)%nat) -> (top < fuel)%nat ->
  interchange C info perfect name keyword strict fuel names s <> NoFuel.
Proof.
  intros C info perfect name keyword strict fuel names s rank top HR HT LF H. unfold interchange in H.
  set (inds := map (entry info perfect strict) (loops s)) in *.
  assert (A : forall d v, accessedIn C d fuel v <> None).
  { intros d v. apply (accessedIn_fuel C d rank HR). destruct v as [x| | |]; [pose proof (HT x); lia|lia..]. }
  assert (B : forall d vs, anyAccessed C d fuel vs <> None).
  { intros d. induction vs as [|v vs IH]; cbn [anyAccessed]; [discriminate|]. pose proof (A d v). destruct (accessedIn C d fuel v) as [[|]|]; [discriminate|exact IH|congruence]. }
  assert (D : forall d l is, accessedInHeaders C info d l fuel is <> None).
  { intros d l. induction is as [|i is IH]; cbn [accessedInHeaders]; [discriminate|].
    assert (K1 : forall v, accessedInO C d fuel v <> None) by (intros [v|]; cbn [accessedInO]; [apply A|discriminate]).
    assert (K2 : forall v, accessedInStep C d l fuel v <> None) by (intros [v|]; cbn [accessedInStep]; [destruct (hasRec l v); [discriminate|apply B]|discriminate]).
    assert (K3 : forall a b, a <> None -> b <> None -> orElse a b <> None) by (intros [[|]|] b; cbn [orElse]; congruence).
    repeat apply K3; auto. }
  destruct (matchSwaps name inds (literals keyword names) [] 0) as [[vals M]|] eqn:Em; [|discriminate].
  destruct (checkAll C info strict fuel inds M 0 M true) as [| |[|]] eqn:Ec; try discriminate.
  - destruct (checkAll_nofuel _ _ _ _ _ _ _ _ _ Ec) as (J & EJ). unfold checkLoop in EJ. destruct (nth_error inds J) as [i|]; [|discriminate].
    repeat match type of EJ with context [if ?b then _ else _] => destruct b; try discriminate end; destruct (iDIM i) as [d|]; try discriminate;
    match type of EJ with context [accessedInHeaders ?a ?b ?c ?d ?e ?f] => pose proof (D c d f); destruct (accessedInHeaders a b c d e f); [discriminate|congruence] end.
  - destruct (newOrder _ _); [|discriminate]. destruct (headersOf _ _ _); discriminate.
Qed.
Print Assumptions C60_ends_partial.
(** A bound that depends on itself through a phi-node: there is no end. *)
Theorem C60_ends_refuted : forall fuel,
  interchange exC (exInfo 2 (VUser 2)) (fun _ => true) (fun v => v) 9 true fuel [0%nat; 1%nat] exStmt = NoFuel.
Proof.
  assert (A : forall fuel, accessedIn exC 0 fuel (VUser 2) = None) by (induction fuel as [|fuel IH]; [reflexivity|]; cbn in IH |- *; rewrite IH; reflexivity).
  assert (B : forall fuel z, accessedIn exC 0 (S fuel) (VConst z) = Some false) by reflexivity.
  intros fuel. destruct fuel as [|fuel]; [reflexivity|]. pose proof (A (S fuel)) as K. remember (S fuel) as n eqn:En.
  assert (K0 : accessedIn exC 0 n (VConst 0) = Some false) by (rewrite En; reflexivity).
  assert (K2 : accessedIn exC 0 n (VConst 2) = Some false) by (rewrite En; reflexivity). clear En A B.
  unfold interchange, exStmt. cbn -[accessedIn]. rewrite ?K, ?K0, ?K2. cbn -[accessedIn]. rewrite ?K, ?K0, ?K2. cbn -[accessedIn]. rewrite ?K. reflexivity.
Qed.
Print Assumptions C60_ends_refuted.
Example C60_ends_ex : (forall x y, In (VUser y) (iArgs (cInst (mkCtx (fun x => match x with 0%nat => mkInst OLoad [VGlobal 7] | 1%nat => mkInst OPhi [VUser 0; VUser 0] | _ => mkInst (OCall 0) [] end)
        (fun _ => []) (fun _ => false) (fun _ _ => None) (fun _ => None) (fun _ _ => false) 0) x)) -> (match y with 1 => 1 | _ => 0 end < match x with 1 => 1 | _ => 0 end)%nat) /\
  forall x : nat, (match x with 1 => 1 | _ => 0 end < 2)%nat.
Proof.
  split.
  - intros [|[|x]] y H; cbn in H; [destruct H as [H|[]]; discriminate| |destruct H]. destruct H as [H|[H|[]]]; injection H as <-; lia.
  - intros [|[|x]]; lia.
Qed.

(** *** The new order *)
(** Names [a] and [b] are exchanged, then names of the next pair are exchanged and so on *)
Definition exchange (a b v : nat) : nat := if Nat.eqb v a then b else if Nat.eqb v b then a else v.
Fixpoint exchanges (names : list nat) (v : nat) : nat :=
  match names with
  | a :: b :: names => exchanges names (exchange a b v)
  | _ => v
  end.
Lemma pairs_ind (P : list nat -> Prop) : P [] -> (forall a, P [a]) -> (forall a b l, P l -> P (a :: b :: l)) -> forall l, P l.
Proof. intros H0 H1 H2. fix go 1. intros [|a [|b l]]; [exact H0|apply H1|apply H2, go]. Qed.
Lemma position_Some a vs i : position (isSome a) (map Some vs) = Some i -> nth_error vs i = Some a.
Proof. intros H. destruct (position_spec _ _ _ H) as (x & N & E & _). rewrite nth_error_map in N. destruct (nth_error vs i); [|discriminate]. injection N as <-. cbn in E. apply Nat.eqb_eq in E. now subst. Qed.
Lemma setNth_length {A} (l : list A) : forall i x, length (setNth l i x) = length l.
Proof. induction l as [|a l IH]; intros [|i] x; cbn [setNth length]; auto. Qed.
Lemma list_ext {A} (l l' : list A) : (forall k, nth_error l k = nth_error l' k) -> l = l'.
Proof.
  revert l'. induction l as [|a l IH]; intros [|b l'] H; [reflexivity|specialize (H 0%nat); discriminate|specialize (H 0%nat); discriminate|].
  f_equal; [specialize (H 0%nat); now injection H|]. apply IH. intros k. exact (H (S k)).
Qed.
Lemma swapItems_exchange vs i j a b l : NoDup vs -> nth_error vs i = Some a -> nth_error vs j = Some b -> swapItems (map Some vs) i j = Some l -> l = map Some (map (exchange a b) vs).
Proof.
  intros ND Ei Ej. unfold swapItems. rewrite !nth_error_map, Ei, Ej. cbn [option_map]. intros H. injection H as <-.
  assert (Li : (i < length vs)%nat) by (apply nth_error_Some; congruence). assert (Lj : (j < length vs)%nat) by (apply nth_error_Some; congruence).
  apply list_ext. intros k. rewrite setNth_nth by (rewrite setNth_length, map_length; exact Lj). rewrite setNth_nth by (rewrite map_length; exact Li). rewrite !nth_error_map.
  assert (U : forall p q c, nth_error vs p = Some c -> nth_error vs q = Some c -> p = q).
  { intros p q c Hp Hq. apply (proj1 (NoDup_nth_error vs) ND); [apply nth_error_Some; congruence|congruence]. }
  destruct (Nat.eqb_spec j k) as [<-|Njk].
  - rewrite Ej. cbn [option_map]. unfold exchange. destruct (Nat.eqb_spec b a); [now subst|]. now rewrite Nat.eqb_refl.
  - destruct (Nat.eqb_spec i k) as [<-|Nik]; [rewrite Ei; cbn [option_map]; unfold exchange; now rewrite Nat.eqb_refl|].
    destruct (nth_error vs k) as [c|] eqn:Ek; [|reflexivity]. cbn [option_map]. unfold exchange.
    destruct (Nat.eqb_spec c a) as [->|]; [exfalso; apply Nik; eapply U; eauto|]. destruct (Nat.eqb_spec c b) as [->|]; [exfalso; apply Njk; eapply U; eauto|reflexivity].
Qed.
Lemma exchange_inj a b x y : exchange a b x = exchange a b y -> x = y.
Proof. unfold exchange. destruct (Nat.eqb_spec x a), (Nat.eqb_spec x b), (Nat.eqb_spec y a), (Nat.eqb_spec y b); congruence. Qed.
Lemma newOrder_exchanges : forall vals vs order, NoDup vs -> newOrder vals (map Some vs) = Some order -> order = map Some (map (exchanges vals) vs).
Proof.
  induction vals as [|a|a b vals IH] using pairs_ind; intros vs order ND H; cbn [newOrder] in H.
  - injection H as <-. cbn [exchanges]. now rewrite map_id.
  - discriminate.
  - destruct (position (isSome a) (map Some vs)) as [i|] eqn:Ei; [|discriminate]. destruct (position (isSome b) (map Some vs)) as [j|] eqn:Ej; [|discriminate].
    destruct (swapItems (map Some vs) i j) as [l|] eqn:Es; [|discriminate].
    rewrite (swapItems_exchange vs i j a b l ND (position_Some _ _ _ Ei) (position_Some _ _ _ Ej) Es) in H.
    rewrite (IH _ _ (FinFun.Injective_map_NoDup (exchange_inj a b) ND) H). now rewrite (map_map (exchange a b)).
Qed.
Lemma matchSwaps_names name inds swaps : forall vals M vals' M', matchSwaps name inds swaps vals M = Some (vals', M') -> exists us, vals' = vals ++ us /\ map name us = swaps.
Proof.
  induction swaps as [|w swaps IH]; intros vals M vals' M' H; cbn [matchSwaps] in H; [injection H as <- <-; exists []; now rewrite app_nil_r|].
  destruct (position _ inds) as [k|] eqn:E; [|discriminate]. destruct (position_spec _ _ _ E) as (i & Ei & Q & _). rewrite Ei in H. destruct (iVar i) as [v|] eqn:Ev; [|discriminate].
  apply Nat.eqb_eq in Q. destruct (IH _ _ _ _ H) as (us & -> & <-). exists (v :: us). rewrite <- app_assoc. split; [reflexivity|]. cbn. now rewrite Q.
Qed.
Lemma exchanges_name (name : nat -> nat) vs : (forall x y, In x vs -> In y vs -> name x = name y -> x = y) ->
  forall vals v, (forall u, In u vals -> In u vs) -> In v vs -> name (exchanges vals v) = exchanges (map name vals) (name v).
Proof.
  intros Inj. induction vals as [|a|a b vals IH] using pairs_ind; intros v Hu Hv; cbn [map exchanges]; [reflexivity|reflexivity|].
  assert (Ha : In a vs) by (apply Hu; now left). assert (Hb : In b vs) by (apply Hu; right; now left).
  rewrite IH; [|intros u K; apply Hu; right; now right|unfold exchange; destruct (Nat.eqb v a), (Nat.eqb v b); auto].
  f_equal. unfold exchange. destruct (Nat.eqb_spec v a) as [->|Na]; [now rewrite Nat.eqb_refl|].
  destruct (Nat.eqb_spec (name v) (name a)) as [E|_]; [exfalso; apply Na; now apply Inj|].
  destruct (Nat.eqb_spec v b) as [->|Nb]; [now rewrite Nat.eqb_refl|]. destruct (Nat.eqb_spec (name v) (name b)) as [E|_]; [exfalso; apply Nb; now apply Inj|reflexivity].
Qed.
Lemma NoDup_map_inj {A B} (f : A -> B) l : NoDup (map f l) -> forall x y, In x l -> In y l -> f x = f y -> x = y.
Proof.
  induction l as [|a l IH]; cbn [map]; intros ND x y Hx Hy E; [destruct Hx|]. inversion ND; subst.
  destruct Hx as [->|Hx], Hy as [->|Hy]; [reflexivity|exfalso; apply H1; rewrite E; now apply in_map|exfalso; apply H1; rewrite <- E; now apply in_map|auto].
Qed.
(** The order of loops is the one demanded by the clause. *)
Theorem C60_order : forall C info perfect name keyword fuel names s hs,
  interchange C info perfect name keyword true fuel names s = Done hs -> loops s <> [] -> ~ In keyword names ->
  let fs := firstn (length hs) (loops s) in let nameOf f := name (fVar (info f)) in
  NoDup (map nameOf fs) -> map nameOf hs = map (exchanges names) (map nameOf fs) /\ forall w, In w names -> In w (map nameOf fs).
Proof.
  intros C info perfect name keyword fuel names s hs H Hne Hk fs nameOf ND.
  destruct (accepted _ _ _ _ _ _ _ _ _ H Hne) as (L & A1 & _ & _ & _). cbv zeta in A1. fold fs in A1. unfold interchange in H.
  assert (EL : literals keyword names = names).
  { unfold literals. clear - Hk. induction names as [|a l IH]; [reflexivity|]. cbn [filter]. destruct (Nat.eqb_spec a keyword) as [->|]; [exfalso; apply Hk; now left|]. cbn [negb]. f_equal. apply IH. intros K. apply Hk. now right. }
  rewrite EL in H. set (inds := map (entry info perfect true) (loops s)) in *.
  destruct (matchSwaps name inds names [] 0) as [[vals M]|] eqn:Em; [|discriminate].
  assert (LM : (M < length inds)%nat). { eapply matchSwaps_max; [exact Em|]. unfold inds. rewrite map_length. destruct (loops s); [contradiction|cbn; lia]. }
  destruct (matchSwaps_spec _ _ _ _ _ _ _ Em) as (_ & _ & Hv); [intros v []|]. destruct (matchSwaps_names _ _ _ _ _ _ _ Em) as (us & -> & Hn). cbn [app] in *.
  destruct (checkAll C info true fuel inds M 0 M true) as [| |[|]]; try discriminate.
  destruct (newOrder us (map iVar (firstn (S M) inds))) as [order|] eqn:Eo; [|discriminate].
  destruct (headersOf inds order 0) as [hs'|] eqn:Eh; [|discriminate]. injection H as ->. destruct (headersOf_spec _ _ _ _ Eh) as (Lh & Hh).
  assert (Ln : length hs = S M). { rewrite Lh, <- (Permutation_length (newOrder_perm _ _ _ _ (le_n _) Eo)), map_length, firstn_length. lia. }
  assert (Ef : firstn (S M) inds = map (entry info perfect true) fs). { unfold fs, inds. rewrite Ln. now rewrite firstn_map. }
  set (var := fun f => fVar (info f)) in *.
  assert (Ev : map iVar (firstn (S M) inds) = map Some (map var fs)).
  { rewrite Ef, !map_map. apply map_ext_in. intros f Hf. destruct (In_nth_error _ _ Hf) as (J & HJ). rewrite entry_var. now rewrite (proj1 (A1 J f HJ)). }
  assert (ND' : NoDup (map name (map var fs))) by (rewrite map_map; exact ND).
  assert (NDv : NoDup (map var fs)) by (eapply NoDup_map_inv; exact ND').
  rewrite Ev in Eo. rewrite (newOrder_exchanges _ _ _ NDv Eo) in Hh, Lh.
  assert (Hvar : map var hs = map (exchanges us) (map var fs)).
  { apply list_ext. intros k. rewrite !nth_error_map. specialize (Hh k). rewrite !nth_error_map in Hh. rewrite !map_length in Lh. destruct (nth_error fs k) as [f|] eqn:Ek.
    - cbn [option_map] in Hh |- *. destruct (Hh _ eq_refl) as (i & Hi1 & Hi2 & Hi3). rewrite Hi1. cbn [option_map].
      assert (Ii : In i inds) by (destruct Hi3 as [Hi3|(q & _ & Hi3)]; eapply nth_error_In; exact Hi3). unfold inds in Ii. apply in_map_iff in Ii. destruct Ii as (g & <- & _).
      rewrite entry_for. rewrite entry_var in Hi2. destruct (fCanonical (info g)); [|discriminate]. injection Hi2 as Hi2. unfold var at 1. now rewrite Hi2.
    - apply nth_error_None in Ek. assert (nth_error hs k = None) as -> by (apply nth_error_None; lia). reflexivity. }
  assert (Us : forall u, In u us -> In u (map var fs)).
  { intros u Hu. destruct (Hv u Hu) as (k & i & Lk & Ei & Eu). assert (K : In (Some u) (map iVar (firstn (S M) inds))). { rewrite <- Eu. apply in_map. apply nth_error_In with (n := k). rewrite nth_firstn by lia. exact Ei. }
    rewrite Ev in K. apply in_map_iff in K. destruct K as (u' & E & K). injection E as ->. exact K. }
  split.
  - change (map nameOf hs) with (map (fun f => name (var f)) hs). change (map nameOf fs) with (map (fun f => name (var f)) fs). rewrite <- !(map_map var name). rewrite Hvar. rewrite !map_map. apply map_ext_in. intros f Hf.
    rewrite <- Hn. apply (exchanges_name name (map var fs)); [apply NoDup_map_inj; exact ND'|exact Us|now apply in_map].
  - intros w Hw. rewrite <- Hn in Hw. apply in_map_iff in Hw. destruct Hw as (u & <- & Hu). specialize (Us u Hu). apply in_map_iff in Us. destruct Us as (f & <- & Hf). apply in_map_iff. now exists f.
Qed.
Print Assumptions C60_order.
Example C60_order_ex : exists hs, interchange exC (exInfo 2 (VUser 0)) (fun _ => true) (fun v => v) 9 true 2 [0%nat; 1%nat] exStmt = Done hs /\
  map (fun f => fVar (exInfo 2 (VUser 0) f)) hs = [1%nat; 0%nat].
Proof. eexists. split; reflexivity. Qed.
