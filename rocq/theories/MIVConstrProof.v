(** Proofs about constraints of the Delta test. *)
From Coq Require Import ZArith Bool List Arith Lia.
From Verif Require Import DepModel DepSpec DepProof MIVModel MIVSpec.
Import ListNotations.
Local Open Scope Z_scope.

Section C.
Context {Env : Type} (Or : oracle Env) (Q : miv Env).
Hypothesis SO : soundOracle Or.

Lemma lineOf_holds (c : constr Env) a b k e i j : lineOf _ c = Some (a, b, k) ->
  constrHolds e c i j <-> a e * i + b e * j = k e.
Proof.
  destruct c; cbn [lineOf constrHolds]; intro H; try discriminate.
  - assert (a = scC _ 1) by congruence. assert (b = scNeg _ (scC _ 1)) by congruence.
    assert (k = c) by congruence. subst. unfold scNeg, scC. split; lia.
  - assert (a = a0) by congruence. assert (b = b0) by congruence. assert (k = c) by congruence.
    subst. tauto.
Qed.

Lemma quot_exact p q z : q <> 0 -> z * q = p -> Z.rem p q = 0 /\ Z.quot p q = z.
Proof.
  intros N H. subst p. rewrite Z.mul_comm. apply rem_of_mul. exact N.
Qed.
Lemma quot_back p q : q <> 0 -> Z.rem p q = 0 -> q * Z.quot p q = p.
Proof. intros N H. pose proof (Z.quot_rem p q N). lia. Qed.

(* the relation between the old constraints and the new one *)
Definition refines (CUB : option Z) (X Y R : constr Env) : Prop :=
  forall e i j,
    (inLoopC CUB i -> inLoopC CUB j ->
     constrHolds e X i j -> constrHolds e Y i j -> constrHolds e R i j) /\
    (constrHolds e R i j -> constrHolds e X i j \/ constrHolds e Y i j).
Lemma refines_l CUB X Y : refines CUB X Y X. Proof. intros e i j. tauto. Qed.
Lemma refines_r CUB X Y : refines CUB X Y Y. Proof. intros e i j. tauto. Qed.
Lemma refines_empty CUB X Y :
  (forall e i j, inLoopC CUB i -> inLoopC CUB j -> constrHolds e X i j -> constrHolds e Y i j -> False) ->
  refines CUB X Y (CEmpty _).
Proof. intros H e i j. cbn. split; [eauto|tauto]. Qed.

Lemma intersectLines_ok CUB X Y A1 B1 C1 A2 B2 C2 R ch :
  lineOf _ X = Some (A1, B1, C1) -> lineOf _ Y = Some (A2, B2, C2) ->
  intersectLines _ Or CUB X A1 B1 C1 A2 B2 C2 = Some (R, ch) ->
  refines CUB X Y R /\ (ch = false -> R = X).
Proof.
  intros LX LY H.
  pose proof (fun e i j => lineOf_holds X A1 B1 C1 e i j LX) as HX.
  pose proof (fun e i j => lineOf_holds Y A2 B2 C2 e i j LY) as HY.
  assert (KEEP : Some (X, false) = Some (R, ch) -> refines CUB X Y R /\ (ch = false -> R = X)).
  { intro T. assert (R = X) by congruence. subst R. split; [apply refines_l|auto]. }
  assert (EMPTY : Some (CEmpty Env, true) = Some (R, ch) ->
     (forall e i j, inLoopC CUB i -> inLoopC CUB j -> A1 e * i + B1 e * j = C1 e ->
        A2 e * i + B2 e * j = C2 e -> False) -> refines CUB X Y R /\ (ch = false -> R = X)).
  { intros T F. assert (R = CEmpty _) by congruence. assert (ch = true) by congruence. subst.
    split; [|discriminate]. apply refines_empty. intros e i j I J P1 P2.
    apply HX in P1. apply HY in P2. eauto. }
  unfold intersectLines in H.
  destruct (isKnownPredicate _ Or ICMP_EQ (scMul _ A1 B2) (scMul _ B1 A2)) eqn:K1.
  - pose proof (isKnownPredicate_sound Or SO _ _ _ K1) as S1.
    destruct (isKnownPredicate _ Or ICMP_EQ (scMul _ C1 B2) (scMul _ B1 C2)); [exact (KEEP H)|].
    destruct (isKnownPredicate _ Or ICMP_NE (scMul _ C1 B2) (scMul _ B1 C2)) eqn:K2; [|exact (KEEP H)].
    pose proof (isKnownPredicate_sound Or SO _ _ _ K2) as S2.
    apply (EMPTY H). intros e i j _ _ P1 P2. specialize (S1 e). specialize (S2 e). cbn in S1, S2.
    unfold scMul in S1, S2. apply S2. rewrite <- P1, <- P2.
    replace ((A1 e * i + B1 e * j) * B2 e) with (A1 e * B2 e * i + B1 e * (B2 e * j)) by ring.
    rewrite S1. ring.
  - destruct (isKnownPredicate _ Or ICMP_NE (scMul _ A1 B2) (scMul _ B1 A2)) eqn:K2; [|exact (KEEP H)].
    destruct (seConst _ Or (scSub _ (scMul _ C1 B2) (scMul _ C2 B1))) as [Xtop|] eqn:E1; [|exact (KEEP H)].
    destruct (seConst _ Or (scSub _ (scMul _ C1 A2) (scMul _ C2 A1))) as [Ytop|] eqn:E2; [|exact (KEEP H)].
    destruct (seConst _ Or (scSub _ (scMul _ A1 B2) (scMul _ A2 B1))) as [Xbot|] eqn:E3; [|exact (KEEP H)].
    destruct (seConst _ Or (scSub _ (scMul _ A2 B1) (scMul _ A1 B2))) as [Ybot|] eqn:E4; [|exact (KEEP H)].
    pose proof (so_const _ SO _ _ E1) as F1. pose proof (so_const _ SO _ _ E2) as F2.
    pose proof (so_const _ SO _ _ E3) as F3. pose proof (so_const _ SO _ _ E4) as F4.
    unfold scSub, scMul in F1, F2, F3, F4.
    destruct (Z.eqb_spec Xbot 0) as [Z1|N1]; [discriminate|].
    destruct (Z.eqb_spec Ybot 0) as [Z2|N2]; [discriminate|].
    cbn [orb] in H. cbv zeta in H.
    assert (SOL : forall e i j, A1 e * i + B1 e * j = C1 e -> A2 e * i + B2 e * j = C2 e ->
              i * Xbot = Xtop /\ j * Ybot = Ytop).
    { intros e i j P1 P2. rewrite <- (F1 e), <- (F2 e), <- (F3 e), <- (F4 e), <- P1, <- P2. split; ring. }
    destruct (Z.eqb_spec (Z.rem Xtop Xbot) 0) as [R1|R1]; cbn [negb orb] in H.
    2: { apply (EMPTY H). intros e i j _ _ P1 P2. destruct (SOL _ _ _ P1 P2) as [S1 _].
         destruct (quot_exact _ _ _ N1 S1). contradiction. }
    destruct (Z.eqb_spec (Z.rem Ytop Ybot) 0) as [R2|R2]; cbn [negb orb] in H.
    2: { apply (EMPTY H). intros e i j _ _ P1 P2. destruct (SOL _ _ _ P1 P2) as [_ S2].
         destruct (quot_exact _ _ _ N2 S2). contradiction. }
    assert (SOLQ : forall e i j, A1 e * i + B1 e * j = C1 e -> A2 e * i + B2 e * j = C2 e ->
              Z.quot Xtop Xbot = i /\ Z.quot Ytop Ybot = j).
    { intros e i j P1 P2. destruct (SOL _ _ _ P1 P2) as [S1 S2].
      destruct (quot_exact _ _ _ N1 S1), (quot_exact _ _ _ N2 S2). auto. }
    destruct ((Z.quot Xtop Xbot <? 0) || (Z.quot Ytop Ybot <? 0)) eqn:NEG.
    { apply (EMPTY H). intros e i j [I _] [J _] P1 P2. destruct (SOLQ _ _ _ P1 P2) as [S1 S2].
      apply orb_true_iff in NEG. rewrite !Z.ltb_lt in NEG. lia. }
    destruct (match CUB with Some U => (U <? Z.quot Xtop Xbot) || (U <? Z.quot Ytop Ybot) | None => false end) eqn:UB.
    { apply (EMPTY H). intros e i j [_ I] [_ J] P1 P2. destruct (SOLQ _ _ _ P1 P2) as [S1 S2].
      destruct CUB as [U|]; [|discriminate]. apply orb_true_iff in UB. rewrite !Z.ltb_lt in UB. lia. }
    set (P := CPoint _ (scC _ (Z.quot Xtop Xbot)) (scC _ (Z.quot Ytop Ybot))) in H.
    assert (R = P) by congruence. assert (ch = true) by congruence. subst R ch.
    split; [|discriminate]. intros e i j. cbn. unfold scC. split.
    + intros _ _ P1 P2. apply HX in P1. apply HY in P2. destruct (SOLQ _ _ _ P1 P2). auto.
    + intros [I J]. left. apply HX. clear HX HY KEEP EMPTY H.
      pose proof (quot_back _ _ N1 R1) as Q1. pose proof (quot_back _ _ N2 R2) as Q2.
      rewrite <- I in Q1. rewrite <- J in Q2. clear I J.
      specialize (F1 e). specialize (F2 e). specialize (F3 e). specialize (F4 e).
      apply (Z.mul_reg_l _ _ Xbot N1).
      assert (Ybot = - Xbot) by lia.
      replace (Xbot * (A1 e * i + B1 e * j)) with (A1 e * (Xbot * i) - B1 e * (Ybot * j)) by (rewrite H; ring).
      rewrite Q1, Q2, <- F1, <- F2, <- F3. ring.
Qed.

Lemma intersect_ok CUB X Y R ch :
  intersectConstraints _ Or CUB X Y = Some (R, ch) ->
  refines CUB X Y R /\ (ch = false -> R = X).
Proof.
  intro H. unfold intersectConstraints in H.
  assert (KEEP : Some (X, false) = Some (R, ch) -> refines CUB X Y R /\ (ch = false -> R = X)).
  { intro T. assert (R = X) by congruence. subst R. split; [apply refines_l|auto]. }
  assert (TAKE : Some (Y, true) = Some (R, ch) -> refines CUB X Y R /\ (ch = false -> R = X)).
  { intro T. assert (R = Y) by congruence. assert (ch = true) by congruence. subst.
    split; [apply refines_r|discriminate]. }
  assert (EMPTY : Some (CEmpty Env, true) = Some (R, ch) ->
     (forall e i j, constrHolds e X i j -> constrHolds e Y i j -> False) ->
     refines CUB X Y R /\ (ch = false -> R = X)).
  { intros T F. assert (R = CEmpty _) by congruence. assert (ch = true) by congruence. subst.
    split; [|discriminate]. apply refines_empty. eauto. }
  destruct (isPointC _ Y); [discriminate|].
  destruct (isAnyC _ X); [destruct (isAnyC _ Y); auto|].
  destruct (isEmptyC _ X); [auto|].
  destruct (isEmptyC _ Y) eqn:EY.
  { apply (EMPTY H). intros e i j _. destruct Y; try discriminate. cbn. auto. }
  destruct (isDistC _ X && isDistC _ Y) eqn:DD.
  - apply andb_true_iff in DD. destruct DD as [D1 D2].
    destruct (isKnownPredicate _ Or ICMP_EQ (getD _ X) (getD _ Y)); [auto|].
    destruct (isKnownPredicate _ Or ICMP_NE (getD _ X) (getD _ Y)) eqn:K.
    + apply (EMPTY H). intros e i j. pose proof (isKnownPredicate_sound Or SO _ _ _ K e) as P.
      destruct X; try discriminate. destruct Y; try discriminate. cbn in *. unfold scNeg in P. lia.
    + destruct (seConst _ Or (getD _ Y)); auto.
  - destruct (lineOf _ X) as [[[A1 B1] C1]|] eqn:LX.
    + destruct (lineOf _ Y) as [[[A2 B2] C2]|] eqn:LY; [|discriminate].
      eapply intersectLines_ok; eassumption.
    + destruct (pointOf _ X) as [(PX, PY)|] eqn:EP; [|discriminate].
      destruct (lineOf _ Y) as [[[A B] C0]|] eqn:LY; [|discriminate]. cbv zeta in H.
      destruct (isKnownPredicate _ Or ICMP_EQ _ C0); [auto|].
      destruct (isKnownPredicate _ Or ICMP_NE _ C0) eqn:K; [|auto].
      apply (EMPTY H). intros e i j HX HY. pose proof (isKnownPredicate_sound Or SO _ _ _ K e) as P.
      apply (proj1 (lineOf_holds _ _ _ _ _ _ _ LY)) in HY.
      destruct X; try discriminate. assert (x = PX) by (cbn in EP; congruence).
      assert (y = PY) by (cbn in EP; congruence). subst. cbn in HX, P. unfold scAdd, scMul in P.
      destruct HX as [-> ->]. contradiction.
Qed.

Lemma intersect_total CUB X Y (e0 : Env) :
  isPointC _ Y = false -> isAnyC _ Y = false ->
  exists R ch, intersectConstraints _ Or CUB X Y = Some (R, ch).
Proof.
  intros NP NA. unfold intersectConstraints. rewrite NP.
  destruct (isAnyC _ X) eqn:AX; [rewrite NA; eauto|].
  destruct (isEmptyC _ X) eqn:EX; [eauto|].
  destruct (isEmptyC _ Y) eqn:EY; [eauto|].
  destruct (isDistC _ X && isDistC _ Y) eqn:DD.
  { destruct (isKnownPredicate _ Or ICMP_EQ _ _); [eauto|].
    destruct (isKnownPredicate _ Or ICMP_NE _ _); [eauto|]. destruct (seConst _ Or _); eauto. }
  assert (LY : exists a b c, lineOf _ Y = Some (a, b, c)).
  { destruct Y; try discriminate; cbn; eauto. }
  destruct LY as (A2 & B2 & C2 & LY). rewrite LY.
  destruct (lineOf _ X) as [[[A1 B1] C1]|] eqn:LX.
  - unfold intersectLines.
    destruct (isKnownPredicate _ Or ICMP_EQ _ _).
    { destruct (isKnownPredicate _ Or ICMP_EQ _ _); [eauto|].
      destruct (isKnownPredicate _ Or ICMP_NE _ _); eauto. }
    destruct (isKnownPredicate _ Or ICMP_NE (scMul _ A1 B2) (scMul _ B1 A2)) eqn:K; [|eauto].
    destruct (seConst _ Or (scSub _ (scMul _ C1 B2) (scMul _ C2 B1))); [|eauto].
    destruct (seConst _ Or (scSub _ (scMul _ C1 A2) (scMul _ C2 A1))); [|eauto].
    destruct (seConst _ Or (scSub _ (scMul _ A1 B2) (scMul _ A2 B1))) as [Xbot|] eqn:E3; [|eauto].
    destruct (seConst _ Or (scSub _ (scMul _ A2 B1) (scMul _ A1 B2))) as [Ybot|] eqn:E4; [|eauto].
    pose proof (isKnownPredicate_sound Or SO _ _ _ K e0) as P. cbn in P.
    pose proof (so_const _ SO _ _ E3 e0) as F3. pose proof (so_const _ SO _ _ E4 e0) as F4.
    unfold scSub, scMul in *.
    destruct (Z.eqb_spec Xbot 0) as [Z1|N1]; [exfalso; apply P; clear - F3 F4 Z1; rewrite (Z.mul_comm (B1 e0)); lia|].
    destruct (Z.eqb_spec Ybot 0) as [Z2|N2]; [exfalso; apply P; clear - F3 F4 Z2; rewrite (Z.mul_comm (B1 e0)); lia|].
    cbn [orb]. cbv zeta.
    repeat match goal with |- exists R ch, (if ?c then _ else _) = _ => destruct c; [eauto|] end. eauto.
  - destruct X; cbn in LX, AX, EX; try discriminate. cbn [pointOf]. cbv zeta.
    destruct (isKnownPredicate _ Or ICMP_EQ _ C2); [eauto|].
    destruct (isKnownPredicate _ Or ICMP_NE _ C2); eauto.
Qed.

(** ** Chains *)
Lemma zeroCoeff_split (recs : list (loop * scev Env)) L e x :
  recsValue recs e x = findCoeffIn _ recs L e * x L + recsValue (zeroCoeffIn _ recs L) e x.
Proof.
  induction recs as [|(L', c) recs IH]; cbn [recsValue findCoeffIn zeroCoeffIn].
  - unfold scC. lia.
  - destruct (Nat.eqb_spec L' L) as [E|NE].
    + subst. lia.
    + cbn [recsValue]. rewrite IH. lia.
Qed.
Lemma zero_value (E : expr Env) L e x :
  value E e x = findCoefficient _ E L e * x L + value (zeroCoefficient _ E L) e x.
Proof.
  unfold value, findCoefficient, zeroCoefficient; cbn [eRecs eStart].
  rewrite (zeroCoeff_split (eRecs _ E) L). lia.
Qed.
Lemma addToCoeff_value (recs : list (loop * scev Env)) start L v e x :
  recsValue (addToCoeffIn _ Or Q recs start L v) e x = recsValue recs e x + v e * x L.
Proof.
  induction recs as [|(L', c) recs IH]; cbn [addToCoeffIn recsValue].
  - lia.
  - destruct (Nat.eqb_spec L' L) as [E|NE].
    + subst. cbv zeta. destruct (isZero _ Or (scAdd _ c v)) eqn:Z.
      * pose proof (isZero_sound Or SO _ Z e) as P. unfold scAdd in P.
        replace (v e) with (- c e) by lia. lia.
      * cbn [recsValue]. unfold scAdd. lia.
    + destruct (seInvariantIn _ Q _ _ _); cbn [recsValue]; [lia|]. rewrite IH. lia.
Qed.
Lemma addTo_value (E : expr Env) L v e x :
  value (addToCoefficient _ Or Q E L v) e x = value E e x + v e * x L.
Proof.
  unfold value, addToCoefficient; cbn [eRecs eStart]. rewrite addToCoeff_value. lia.
Qed.
Lemma addInv_value (E : expr Env) V e x : value (addInv _ E V) e x = value E e x + V e.
Proof. unfold value, addInv; cbn [eRecs eStart]. unfold scAdd. lia. Qed.
Lemma subInv_value (E : expr Env) V e x : value (subInv _ E V) e x = value E e x - V e.
Proof. unfold value, subInv; cbn [eRecs eStart]. unfold scSub. lia. Qed.
Lemma mulRecs_value (recs : list (loop * scev Env)) V e x :
  recsValue (map (fun p => (fst p, scMul _ (snd p) V)) recs) e x = V e * recsValue recs e x.
Proof.
  induction recs as [|(L, c) recs IH]; cbn [map recsValue fst snd]; [lia|].
  rewrite IH. unfold scMul. ring.
Qed.
Lemma mulInv_value (E : expr Env) V e x : value (mulInv _ E V) e x = V e * value E e x.
Proof.
  unfold value, mulInv; cbn [eRecs eStart]. rewrite mulRecs_value. unfold scMul. ring.
Qed.
Lemma mulRecs_coeff (recs : list (loop * scev Env)) V L e :
  findCoeffIn _ (map (fun p => (fst p, scMul _ (snd p) V)) recs) L e = findCoeffIn _ recs L e * V e.
Proof.
  induction recs as [|(L', c) recs IH]; cbn [map findCoeffIn fst snd]; [unfold scC; lia|].
  destruct (Nat.eqb L' L); [reflexivity|exact IH].
Qed.

Lemma coeff_sub (E : expr Env) V L : findCoefficient _ (subInv _ E V) L = findCoefficient _ E L.
Proof. reflexivity. Qed.
Lemma coeff_add (E : expr Env) V L : findCoefficient _ (addInv _ E V) L = findCoefficient _ E L.
Proof. reflexivity. Qed.
Lemma coeff_mul (E : expr Env) V L e :
  findCoefficient _ (mulInv _ E V) L e = findCoefficient _ E L e * V e.
Proof. apply mulRecs_coeff. Qed.

(* loops of chains *)
Lemma zeroCoeff_incl (recs : list (loop * scev Env)) L M : In M (map fst (zeroCoeffIn _ recs L)) -> In M (map fst recs).
Proof.
  induction recs as [|(L', c) recs IH]; cbn [zeroCoeffIn map fst]; [auto|].
  destruct (Nat.eqb L' L); cbn [map fst]; [intro; right; auto|].
  intros [E|I]; [left; exact E|right; auto].
Qed.
Lemma zeroCoeff_nodup (recs : list (loop * scev Env)) L :
  NoDup (map fst recs) -> NoDup (map fst (zeroCoeffIn _ recs L)).
Proof.
  induction recs as [|(L', c) recs IH]; cbn [zeroCoeffIn map fst]; intro N; [constructor|].
  inversion N as [|? ? N1 N2]; subst. destruct (Nat.eqb L' L); [exact N2|].
  cbn [map fst]. constructor; [|auto]. intro I. apply N1. eapply zeroCoeff_incl; exact I.
Qed.
Lemma zeroCoeff_gone (recs : list (loop * scev Env)) L :
  NoDup (map fst recs) -> ~ In L (map fst (zeroCoeffIn _ recs L)).
Proof.
  induction recs as [|(L', c) recs IH]; cbn [zeroCoeffIn map fst]; intro N; [auto|].
  inversion N as [|? ? N1 N2]; subst. destruct (Nat.eqb_spec L' L) as [E|NE].
  - subst. exact N1.
  - cbn [map fst]. intros [E|I]; [contradiction|]. exact (IH N2 I).
Qed.
Lemma addToCoeff_loops (recs : list (loop * scev Env)) start L v M :
  In M (map fst (addToCoeffIn _ Or Q recs start L v)) -> M = L \/ In M (map fst recs).
Proof.
  induction recs as [|(L', c) recs IH]; cbn [addToCoeffIn map fst].
  - intros [E|[]]; auto.
  - destruct (Nat.eqb_spec L' L) as [E|NE].
    + cbv zeta. destruct (isZero _ Or _); cbn [map fst]; [intro I; right; right; exact I|].
      intros [E'|I]; [left; congruence|right; right; exact I].
    + destruct (seInvariantIn _ Q _ _ _); cbn [map fst].
      * intros [E'|[E'|I]]; [left; congruence|right; left; exact E'|right; right; exact I].
      * intros [E'|I]; [right; left; exact E'|]. destruct (IH I); [left; assumption|right; right; assumption].
Qed.
Hypothesis inv_sound : forall recs start L, seInvariantIn _ Q recs start L = true ->
  ~ In L (map fst recs).
Lemma addToCoeff_nodup (recs : list (loop * scev Env)) start L v :
  NoDup (map fst recs) -> NoDup (map fst (addToCoeffIn _ Or Q recs start L v)).
Proof.
  induction recs as [|(L', c) recs IH]; cbn [addToCoeffIn map fst]; intro N.
  - constructor; [auto|constructor].
  - inversion N as [|? ? N1 N2]; subst. destruct (Nat.eqb_spec L' L) as [E|NE].
    + cbv zeta. destruct (isZero _ Or _); cbn [map fst]; [exact N2|]. exact N.
    + destruct (seInvariantIn _ Q ((L', c) :: recs) start L) eqn:S; cbn [map fst].
      * constructor; [exact (inv_sound _ _ _ S)|exact N].
      * constructor; [|auto]. intro I. apply addToCoeff_loops in I.
        destruct I as [I|I]; [contradiction|auto].
Qed.

(* a chain without a loop (or with the zero coefficient) does not depend on it *)
Lemma findCoeff_absent (recs : list (loop * scev Env)) L e :
  ~ In L (map fst recs) -> findCoeffIn _ recs L e = 0.
Proof.
  induction recs as [|(L', c) recs IH]; cbn [findCoeffIn map fst]; intro N; [reflexivity|].
  destruct (Nat.eqb_spec L' L) as [E|NE]; [exfalso; apply N; left; exact E|]. apply IH. intro I. apply N. right. exact I.
Qed.
Lemma recs_ext (recs : list (loop * scev Env)) e x x' : (forall M, In M (map fst recs) -> x M = x' M) ->
  recsValue recs e x = recsValue recs e x'.
Proof.
  induction recs as [|(L', c) recs IH]; cbn [recsValue map fst]; intro H; [reflexivity|].
  rewrite (H L' (or_introl eq_refl)), IH; [reflexivity|]. intros M I. apply H. right. exact I.
Qed.
Lemma independent_of (E : expr Env) L e x x' : chainOk E -> findCoefficient _ E L e = 0 ->
  (forall M, M <> L -> x M = x' M) -> value E e x = value E e x'.
Proof.
  intros OK Z H. rewrite (zero_value E L e x), (zero_value E L e x'), Z.
  unfold value, zeroCoefficient; cbn [eRecs eStart].
  rewrite (recs_ext (zeroCoeffIn _ (eRecs _ E) L) e x x'); [lia|].
  intros M I. apply H. intros ->. exact (zeroCoeff_gone _ _ OK I).
Qed.

(** ** Propagation *)
Definition kept (e : Env) (Src Dst Src' Dst' : expr Env) (x y : loop -> Z) : Prop :=
  conflict e Src Dst x y <-> conflict e Src' Dst' x y.

Lemma propagateDistance_kept Src Dst L C e x y :
  x L - y L = C e ->
  let p := propagateDistance _ Or Q Src Dst L C in kept e Src Dst (pSrc _ p) (pDst _ p) x y.
Proof.
  intro H. unfold propagateDistance. cbv zeta.
  destruct (isZero _ Or (findCoefficient _ Src L)); cbn [pSrc pDst]; [unfold kept; tauto|].
  unfold kept, conflict. rewrite addTo_value.
  pose proof (zero_value (subInv _ Src (scMul _ (findCoefficient _ Src L) (scNeg _ C))) L e x) as ZV.
  rewrite subInv_value, coeff_sub in ZV. unfold scMul, scNeg in *.
  set (a := findCoefficient _ Src L e) in *.
  replace (x L) with (C e + y L) in ZV by lia.
  rewrite Z.mul_add_distr_l in ZV. rewrite Z.mul_opp_r in ZV. rewrite Z.mul_opp_l. lia.
Qed.

Lemma scaled_eq a p q : a <> 0 -> (p = q <-> a * p = a * q).
Proof. intro N. split; [congruence|]. apply Z.mul_reg_l. exact N. Qed.

Lemma propagateLine_kept Src Dst L A B C e x y p :
  A e * x L + B e * y L = C e -> (A e <> 0 \/ B e <> 0) ->
  propagateLine _ Or Q Src Dst L A B C = Some p ->
  (conflict e Src Dst x y -> conflict e (pSrc _ p) (pDst _ p) x y) /\
  (A e <> 0 \/ isZero _ Or A = true -> conflict e (pSrc _ p) (pDst _ p) x y -> conflict e Src Dst x y).
Proof.
  intros H NZ. unfold propagateLine.
  assert (TRIV : forall p', Some (mkProp _ false Src Dst false) = Some p' ->
    (conflict e Src Dst x y -> conflict e (pSrc _ p') (pDst _ p') x y) /\
    (A e <> 0 \/ isZero _ Or A = true -> conflict e (pSrc _ p') (pDst _ p') x y -> conflict e Src Dst x y)).
  { intros p' T. assert (p' = mkProp _ false Src Dst false) by congruence. subst. cbn. tauto. }
  destruct (isZero _ Or A) eqn:ZA.
  - pose proof (isZero_sound Or SO _ ZA e) as A0.
    destruct (seConst _ Or B) as [Beta|] eqn:EB; [|auto].
    destruct (seConst _ Or C) as [Ch|] eqn:EC; [|auto].
    destruct (Z.eqb_spec Beta 0) as [B0|NB]; [discriminate|].
    destruct (Z.eqb_spec (Z.rem Ch Beta) 0) as [R0|NR]; cbn [negb]; [|discriminate].
    cbv zeta. intro T. assert (p = mkProp _ true (subInv _ Src (scMul _ (findCoefficient _ Dst L) (scC _ (Z.quot Ch Beta)))) (zeroCoefficient _ Dst L)
      (negb (isZero _ Or (findCoefficient _ (subInv _ Src (scMul _ (findCoefficient _ Dst L) (scC _ (Z.quot Ch Beta)))) L)))) by congruence.
    subst p. cbn [pSrc pDst]. unfold conflict. rewrite subInv_value.
    pose proof (zero_value Dst L e y) as ZV.
    pose proof (so_const _ SO _ _ EB e) as FB. pose proof (so_const _ SO _ _ EC e) as FC.
    rewrite A0, FB, FC in H. destruct (quot_exact Ch Beta (y L) NB) as [_ QE]; [lia|].
    unfold scMul, scC. rewrite QE. lia.
  - destruct (isZero _ Or B) eqn:ZB.
    + pose proof (isZero_sound Or SO _ ZB e) as B0.
      destruct (seConst _ Or A) as [Al|] eqn:EA; [|auto].
      destruct (seConst _ Or C) as [Ch|] eqn:EC; [|auto].
      destruct (Z.eqb_spec Al 0) as [A0|NA]; [discriminate|].
      destruct (Z.eqb_spec (Z.rem Ch Al) 0) as [R0|NR]; cbn [negb]; [|discriminate].
      cbv zeta. intro T.
      set (S' := zeroCoefficient _ (addInv _ Src (scMul _ (findCoefficient _ Src L) (scC _ (Z.quot Ch Al)))) L) in *.
      assert (pSrc _ p = S' /\ pDst _ p = Dst) as [-> ->].
      { injection T as <-. split; reflexivity. }
      unfold conflict, S'.
      pose proof (zero_value (addInv _ Src (scMul _ (findCoefficient _ Src L) (scC _ (Z.quot Ch Al)))) L e x) as ZV.
      rewrite addInv_value, coeff_add in ZV.
      pose proof (so_const _ SO _ _ EA e) as FA. pose proof (so_const _ SO _ _ EC e) as FC.
      rewrite B0, FA, FC in H. destruct (quot_exact Ch Al (x L) NA) as [_ QE]; [lia|].
      unfold scMul, scC in *. rewrite QE in *. lia.
    + destruct (isKnownPredicate _ Or ICMP_EQ A B) eqn:KE.
      * pose proof (isKnownPredicate_sound Or SO _ _ _ KE e) as AB. cbn in AB.
        destruct (seConst _ Or A) as [Al|] eqn:EA; [|auto].
        destruct (seConst _ Or C) as [Ch|] eqn:EC; [|auto].
        destruct (Z.eqb_spec Al 0) as [A0|NA]; [discriminate|].
        destruct (Z.eqb_spec (Z.rem Ch Al) 0) as [R0|NR]; cbn [negb]; [|discriminate].
        cbv zeta. intro T.
        set (S' := zeroCoefficient _ (addInv _ Src (scMul _ (findCoefficient _ Src L) (scC _ (Z.quot Ch Al)))) L) in *.
        set (D' := addToCoefficient _ Or Q Dst L (findCoefficient _ Src L)) in *.
        assert (pSrc _ p = S' /\ pDst _ p = D') as [-> ->].
        { injection T as <-. split; reflexivity. }
        unfold conflict, S', D'. rewrite addTo_value.
        pose proof (zero_value (addInv _ Src (scMul _ (findCoefficient _ Src L) (scC _ (Z.quot Ch Al)))) L e x) as ZV.
        rewrite addInv_value, coeff_add in ZV.
        pose proof (so_const _ SO _ _ EA e) as FA. pose proof (so_const _ SO _ _ EC e) as FC.
        rewrite <- AB, FA, FC in H. destruct (quot_exact Ch Al (x L + y L) NA) as [_ QE]; [lia|].
        unfold scMul, scC in *. rewrite QE in *. rewrite Z.mul_add_distr_l in ZV. lia.
      * cbv zeta. intro T.
        set (S' := zeroCoefficient _ (addInv _ (mulInv _ Src A) (scMul _ (findCoefficient _ Src L) C)) L) in *.
        set (D' := addToCoefficient _ Or Q (mulInv _ Dst A) L (scMul _ (findCoefficient _ Src L) B)) in *.
        assert (pSrc _ p = S' /\ pDst _ p = D') as [-> ->].
        { injection T as <-. split; reflexivity. }
        unfold conflict, S', D'. rewrite addTo_value, mulInv_value.
        pose proof (zero_value (addInv _ (mulInv _ Src A) (scMul _ (findCoefficient _ Src L) C)) L e x) as ZV.
        rewrite addInv_value, mulInv_value, coeff_add, coeff_mul in ZV.
        unfold scMul in *.
        set (a := findCoefficient _ Src L e) in *.
        replace (a * A e * x L) with (a * C e - a * B e * y L) in ZV by (rewrite <- H; ring).
        split.
        -- intro E. rewrite E in ZV. lia.
        -- intros [NA|F] E; [|discriminate]. apply (scaled_eq (A e) _ _ NA). lia.
Qed.

Lemma propagatePoint_kept Src Dst L X Y e x y :
  x L = X e -> y L = Y e ->
  let p := propagatePoint _ Src Dst L X Y in kept e Src Dst (pSrc _ p) (pDst _ p) x y.
Proof.
  intros HX HY. unfold propagatePoint, kept, conflict. cbn [pSrc pDst].
  set (V := scSub _ _ _).
  pose proof (zero_value (addInv _ Src V) L e x) as ZV.
  rewrite addInv_value, coeff_add in ZV.
  pose proof (zero_value Dst L e y) as ZD.
  assert (EV : V e = findCoefficient _ Src L e * x L - findCoefficient _ Dst L e * y L).
  { unfold V, scSub, scMul. rewrite HX, HY. reflexivity. }
  lia.
Qed.

Lemma propagateOne_kept Src Dst L c p e x y :
  propagateOne _ Or Q Src Dst L c = Some p -> properLine e c -> constrHolds e c (x L) (y L) ->
  conflict e Src Dst x y -> conflict e (pSrc _ p) (pDst _ p) x y.
Proof.
  intros H PL CH CF. destruct c; cbn [propagateOne constrHolds properLine] in *.
  - contradiction.
  - assert (p = propagatePoint _ Src Dst L x0 y0) by congruence. subst p.
    apply (propagatePoint_kept Src Dst L x0 y0 e x y); tauto.
  - assert (p = propagateDistance _ Or Q Src Dst L c) by congruence. subst p.
    apply (propagateDistance_kept Src Dst L c e x y CH). exact CF.
  - destruct (propagateLine_kept _ _ _ _ _ _ e x y p CH PL H) as [R _]. auto.
  - assert (p = mkProp _ false Src Dst false) by congruence. subst. exact CF.
Qed.
(* no new conflicts either *)
Lemma propagateOne_exact Src Dst L c p e x y :
  propagateOne _ Or Q Src Dst L c = Some p -> properLine e c -> constrHolds e c (x L) (y L) ->
  (forall a b k, c = CLine _ a b k -> a e <> 0 \/ isZero _ Or a = true) ->
  conflict e (pSrc _ p) (pDst _ p) x y -> conflict e Src Dst x y.
Proof.
  intros H PL CH NA CF. destruct c; cbn [propagateOne constrHolds properLine] in *.
  - contradiction.
  - assert (p = propagatePoint _ Src Dst L x0 y0) by congruence. subst p.
    apply (propagatePoint_kept Src Dst L x0 y0 e x y); tauto.
  - assert (p = propagateDistance _ Or Q Src Dst L c) by congruence. subst p.
    apply (propagateDistance_kept Src Dst L c e x y CH). exact CF.
  - pose proof (NA _ _ _ eq_refl) as NA'.
    destruct (propagateLine_kept _ _ _ _ _ _ e x y p CH PL H) as [_ R]. auto.
  - assert (p = mkProp _ false Src Dst false) by congruence. subst. exact CF.
Qed.
Lemma propagateOne_total Src Dst L c e i j : properLine e c -> constrHolds e c i j ->
  exists p, propagateOne _ Or Q Src Dst L c = Some p.
Proof.
  intros PL CH. destruct c; cbn [propagateOne constrHolds properLine] in *; eauto.
  unfold propagateLine.
  destruct (isZero _ Or a) eqn:ZA.
  - destruct (seConst _ Or b) as [Be|] eqn:EB; [|eauto]. destruct (seConst _ Or c) as [Ch|] eqn:EC; [|eauto].
    pose proof (isZero_sound Or SO _ ZA e) as A0. pose proof (so_const _ SO _ _ EB e) as FB.
    pose proof (so_const _ SO _ _ EC e) as FC. specialize PL.
    destruct (Z.eqb_spec Be 0) as [B0|NB]; [exfalso; lia|].
    rewrite A0, FB, FC in CH. destruct (quot_exact Ch Be j NB) as [R _]; [lia|]. rewrite R. cbn. eauto.
  - destruct (isZero _ Or b) eqn:ZB.
    + destruct (seConst _ Or a) as [Al|] eqn:EA; [|eauto]. destruct (seConst _ Or c) as [Ch|] eqn:EC; [|eauto].
      pose proof (isZero_sound Or SO _ ZB e) as B0. pose proof (so_const _ SO _ _ EA e) as FA.
      pose proof (so_const _ SO _ _ EC e) as FC. specialize PL.
      destruct (Z.eqb_spec Al 0) as [A0|NB]; [exfalso; lia|].
      rewrite B0, FA, FC in CH. destruct (quot_exact Ch Al i NB) as [R _]; [lia|]. rewrite R. cbn. eauto.
    + destruct (isKnownPredicate _ Or ICMP_EQ a b) eqn:KE; [|eauto].
      destruct (seConst _ Or a) as [Al|] eqn:EA; [|eauto]. destruct (seConst _ Or c) as [Ch|] eqn:EC; [|eauto].
      pose proof (isKnownPredicate_sound Or SO _ _ _ KE e) as AB. cbn in AB.
      pose proof (so_const _ SO _ _ EA e) as FA. pose proof (so_const _ SO _ _ EC e) as FC. specialize PL.
      destruct (Z.eqb_spec Al 0) as [A0|NB]; [exfalso; lia|].
      rewrite <- AB, FA, FC in CH. destruct (quot_exact Ch Al (i + j) NB) as [R _]; [lia|]. rewrite R. cbn. eauto.
Qed.

(* the resulting chains *)
Lemma propagateOne_chain Src Dst L c p :
  chainOk Src -> chainOk Dst -> propagateOne _ Or Q Src Dst L c = Some p ->
  chainOk (pSrc _ p) /\ chainOk (pDst _ p) /\
  (pChanged _ p = true -> pInexact _ p = false ->
   forall e, findCoefficient _ (pSrc _ p) L e = 0 /\ findCoefficient _ (pDst _ p) L e = 0).
Proof.
  intros OS OD. unfold chainOk in *.
  assert (MM : forall recs V, map fst (map (fun p : loop * scev Env => (fst p, scMul _ (snd p) V)) recs) = map fst recs).
  { intros. rewrite map_map. reflexivity. }
  assert (IX : forall E, negb (isZero _ Or (findCoefficient _ E L)) = false -> forall e, findCoefficient _ E L e = 0).
  { intros E H. apply negb_false_iff in H. exact (isZero_sound Or SO _ H). }
  assert (GONE : forall (recs : list (loop * scev Env)) st e, NoDup (map fst recs) -> findCoefficient _ (mkExpr _ (zeroCoeffIn _ recs L) st) L e = 0).
  { intros recs st e N. apply findCoeff_absent. apply zeroCoeff_gone. exact N. }
  destruct c; cbn [propagateOne]; intro H.
  - assert (p = mkProp _ false Src Dst false) by congruence. subst. cbn.
    split; [exact OS|split; [exact OD|discriminate]].
  - assert (p = propagatePoint _ Src Dst L x y) by congruence. subst p.
    unfold propagatePoint, zeroCoefficient, addInv. cbn [pSrc pDst pChanged pInexact eRecs eStart].
    split; [now apply zeroCoeff_nodup|]. split; [now apply zeroCoeff_nodup|]. intros _ _ e. split; apply GONE; assumption.
  - assert (p = propagateDistance _ Or Q Src Dst L c) by congruence. subst p. unfold propagateDistance. cbv zeta.
    destruct (isZero _ Or _); cbn [pSrc pDst pChanged pInexact]; [split; [exact OS|split; [exact OD|discriminate]]|].
    split; [apply zeroCoeff_nodup; exact OS|]. split; [apply addToCoeff_nodup; exact OD|].
    intros _ X e. split; [apply GONE; exact OS|apply IX; exact X].
  - unfold propagateLine in H. cbv zeta in H.
    assert (TRIV : Some (mkProp _ false Src Dst false) = Some p ->
       NoDup (map fst (eRecs _ (pSrc _ p))) /\ NoDup (map fst (eRecs _ (pDst _ p))) /\
       (pChanged _ p = true -> pInexact _ p = false ->
         forall e, findCoefficient _ (pSrc _ p) L e = 0 /\ findCoefficient _ (pDst _ p) L e = 0)).
    { intro T. assert (p = mkProp _ false Src Dst false) by congruence. subst. cbn.
      split; [exact OS|split; [exact OD|discriminate]]. }
    destruct (isZero _ Or a).
    { destruct (seConst _ Or b) as [Be|]; [|auto]. destruct (seConst _ Or c) as [Ch|]; [|auto].
      destruct (Be =? 0); [discriminate|]. destruct (negb (Z.rem Ch Be =? 0)); [discriminate|].
      injection H as <-. cbn [pSrc pDst pChanged pInexact].
      split; [exact OS|]. split; [apply zeroCoeff_nodup; exact OD|].
      intros _ X e. split; [apply IX; exact X|apply GONE; exact OD]. }
    destruct (isZero _ Or b).
    { destruct (seConst _ Or a) as [Be|]; [|auto]. destruct (seConst _ Or c) as [Ch|]; [|auto].
      destruct (Be =? 0); [discriminate|]. destruct (negb (Z.rem Ch Be =? 0)); [discriminate|].
      injection H as <-. cbn [pSrc pDst pChanged pInexact].
      split; [apply zeroCoeff_nodup; exact OS|]. split; [exact OD|].
      intros _ X e. split; [apply GONE; exact OS|apply IX; exact X]. }
    destruct (isKnownPredicate _ Or ICMP_EQ a b).
    { destruct (seConst _ Or a) as [Be|]; [|auto]. destruct (seConst _ Or c) as [Ch|]; [|auto].
      destruct (Be =? 0); [discriminate|]. destruct (negb (Z.rem Ch Be =? 0)); [discriminate|].
      injection H as <-. cbn [pSrc pDst pChanged pInexact].
      split; [apply zeroCoeff_nodup; exact OS|]. split; [apply addToCoeff_nodup; exact OD|].
      intros _ X e. split; [apply GONE; exact OS|apply IX; exact X]. }
    injection H as <-. cbn [pSrc pDst pChanged pInexact].
    assert (OS' : NoDup (map fst (eRecs _ (mulInv _ Src a)))) by (cbn [mulInv eRecs]; rewrite MM; exact OS).
    assert (OD' : NoDup (map fst (eRecs _ (mulInv _ Dst a)))) by (cbn [mulInv eRecs]; rewrite MM; exact OD).
    split; [apply zeroCoeff_nodup; exact OS'|]. split; [apply addToCoeff_nodup; exact OD'|].
    intros _ X e. split; [apply GONE; exact OS'|apply IX; exact X].
  - assert (p = mkProp _ false Src Dst false) by congruence. subst. cbn.
    split; [exact OS|split; [exact OD|discriminate]].
Qed.

Lemma propagate_kept cs : forall Src Dst ch S' D' ix e x y,
  propagate _ Or Q Src Dst cs = Some (ch, S', D', ix) ->
  Forall (fun lc => properLine e (snd lc) /\ constrHolds e (snd lc) (x (fst lc)) (y (fst lc))) cs ->
  conflict e Src Dst x y -> conflict e S' D' x y.
Proof.
  induction cs as [|(L, c) cs IH]; intros Src Dst ch S' D' ix e x y H F CF; cbn [propagate] in H.
  - assert (S' = Src) by congruence. assert (D' = Dst) by congruence. subst. exact CF.
  - destruct (propagateOne _ Or Q Src Dst L c) as [p|] eqn:E; [|discriminate].
    destruct (propagate _ Or Q (pSrc _ p) (pDst _ p) cs) as [[[[ch' S2] D2] ix']|] eqn:EP; [|discriminate].
    assert (S' = S2) by congruence. assert (D' = D2) by congruence. subst S2 D2.
    inversion F as [|? ? [F1 F2] F3]; subst. cbn [fst snd] in *.
    apply (IH _ _ _ _ _ _ e x y EP F3). eapply propagateOne_kept; eassumption.
Qed.
Lemma propagate_total cs : forall Src Dst e x y,
  Forall (fun lc => properLine e (snd lc) /\ constrHolds e (snd lc) (x (fst lc)) (y (fst lc))) cs ->
  exists r, propagate _ Or Q Src Dst cs = Some r.
Proof.
  induction cs as [|(L, c) cs IH]; intros Src Dst e x y F; cbn [propagate]; [eauto|].
  inversion F as [|? ? [F1 F2] F3]; subst. cbn [fst snd] in *.
  destruct (propagateOne_total Src Dst L c e _ _ F1 F2) as (p & ->).
  destruct (IH (pSrc _ p) (pDst _ p) e x y F3) as ([[[ch' S2] D2] ix'] & ->). eauto.
Qed.

Lemma updateDirection_ok Level c Level' e i j :
  updateDirection _ Or Level c = Some Level' -> constrHolds e c i j ->
  (dirAdmits (dvDir _ Level) i j -> dirAdmits (dvDir _ Level') i j) /\
  (distOk Level e i j -> distOk Level' e i j) /\
  (c <> CAny _ -> dvScalar _ Level' = false).
Proof.
  intros H CH. destruct c; cbn [updateDirection constrHolds] in *.
  - contradiction.
  - injection H as <-. destruct CH as [I J]. split; [|split].
    + intro D. cbn [andDir clearScalar dvDir]. apply dirAdmits_and; [exact D|].
      repeat split; cbn; intro P; apply negb_true_iff, not_true_is_false; intro K;
        pose proof (isKnownPredicate_sound Or SO _ _ _ K e) as R; cbn in R; lia.
    + intros _ D. cbn. discriminate.
    + reflexivity.
  - injection H as <-. split; [|split].
    + intro D. cbn [andDir clearScalar dvDir]. apply dirAdmits_and; [exact D|].
      repeat split; cbn; intro P; apply negb_true_iff, not_true_is_false; intro K.
      * pose proof (so_nonpos _ SO _ K e) as R. unfold getD, scNeg in R. lia.
      * pose proof (so_nonzero _ SO _ K e) as R. unfold getD, scNeg in R. lia.
      * pose proof (so_nonneg _ SO _ K e) as R. unfold getD, scNeg in R. lia.
    + intros _ D E. cbn in E. injection E as <-. unfold scNeg. lia.
    + reflexivity.
  - injection H as <-. split; [auto|]. split; [|reflexivity]. intros _ D. cbn. discriminate.
  - injection H as <-. split; [auto|]. split; [auto|]. intro F. now destruct F.
Qed.
End C.
