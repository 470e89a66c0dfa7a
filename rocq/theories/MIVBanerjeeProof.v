(** Proofs about the Banerjee test. *)
From Coq Require Import ZArith Bool List Arith Lia.
From Verif Require Import DepModel DepSpec DepProof MIVModel MIVSpec MIVGcdProof.
Import ListNotations.
Local Open Scope Z_scope.

(** Nesting levels of two nests with the common part [common] *)
Lemma sameLoop_ok s d common : length s = length d -> NoDup (s ++ d ++ common) ->
  sameLoop (s ++ common) (d ++ common) (length s + length common) = Some (length common).
Proof.
  revert d. induction s as [|a s IH]; intros [|b d] E N; cbn [length app] in *; try lia.
  - destruct common as [|c l]; [reflexivity|]. cbn. now rewrite Nat.eqb_refl.
  - cbn [sameLoop]. inversion N as [|? ? N1 N2]; subst.
    destruct (Nat.eqb_spec a b) as [EQ|NE].
    + exfalso. apply N1. subst. apply in_or_app. right. left. reflexivity.
    + replace (S (length s) + length common - 1)%nat with (length s + length common)%nat by lia.
      apply IH; [lia|]. apply NoDup_remove_1 in N2. exact N2.
Qed.
Lemma skipn_app_le {A} n (l r : list A) : (n <= length l)%nat ->
  skipn n (l ++ r) = skipn n l ++ r.
Proof. intro H. rewrite skipn_app. replace (n - length l)%nat with 0%nat by lia. reflexivity. Qed.
Lemma NoDup_skipn {A} n (l : list A) : NoDup l -> NoDup (skipn n l).
Proof.
  revert l. induction n as [|n IH]; intros [|a l] N; cbn; auto. inversion N; subst. auto.
Qed.
Lemma NoDup_app_r {A} (l r : list A) : NoDup (l ++ r) -> NoDup r.
Proof. induction l as [|a l IH]; cbn; auto. intro N. inversion N; subst. auto. Qed.
Lemma NoDup_app_split {A} (l r : list A) :
  NoDup (l ++ r) <-> NoDup l /\ NoDup r /\ (forall x, In x l -> ~ In x r).
Proof.
  induction l as [|a l IH]; cbn.
  - split; [intro H; repeat split; auto; constructor|tauto].
  - split.
    + intro N. inversion N as [|? ? N1 N2]; subst. apply IH in N2. destruct N2 as (A1 & A2 & A3).
      split; [constructor; auto|split]; auto.
      * intro I. apply N1. apply in_or_app. auto.
      * intros x [->|I]; auto. intro I. apply N1. apply in_or_app. auto.
    + intros (A1 & A2 & A3). inversion A1; subst. constructor.
      * intro I. apply in_app_or in I. destruct I as [I|I]; [auto|]. exact (A3 a (or_introl eq_refl) I).
      * apply IH. split; [auto|split]; auto.
Qed.
Lemma skipn_In {A} n (l : list A) x : In x (skipn n l) -> In x l.
Proof.
  revert l. induction n as [|n IH]; intros [|a l] H; cbn in *; auto.
Qed.
Lemma establish_ok s d common : NoDup (s ++ d ++ common) ->
  establishNestingLevels (s ++ common) (d ++ common)
  = Some (mkLevels (length common) (length s + length common)
            (length s + length d + length common)).
Proof.
  intro N. unfold establishNestingLevels. rewrite !app_length.
  assert (SK : forall n, NoDup (skipn n s ++ d ++ common) /\ NoDup (s ++ skipn n d ++ common)).
  { intro n. apply NoDup_app_split in N. destruct N as (N1 & N2 & N3).
    apply NoDup_app_split in N2. destruct N2 as (N4 & N5 & N6).
    split; apply NoDup_app_split.
    - split; [now apply NoDup_skipn|]. split; [apply NoDup_app_split; auto|].
      intros x I. apply skipn_In in I. auto.
    - split; [assumption|]. split.
      + apply NoDup_app_split. split; [now apply NoDup_skipn|]. split; [assumption|].
        intros x I. apply skipn_In in I. auto.
      + intros x I J. apply (N3 x I). apply in_app_or in J. apply in_or_app.
        destruct J as [J|J]; [left|right; exact J]. eapply skipn_In; exact J. }
  destruct (le_lt_dec (length s) (length d)) as [L|L].
  - replace (length s + length common - (length d + length common))%nat with 0%nat by lia.
    replace (length d + length common - (length s + length common))%nat
      with (length d - length s)%nat by lia.
    cbn [skipn]. rewrite skipn_app_le by lia.
    replace (Nat.min (length s + length common) (length d + length common))
      with (length s + length common)%nat by lia.
    rewrite sameLoop_ok; [|rewrite skipn_length; lia|apply SK].
    f_equal. f_equal. lia.
  - replace (length s + length common - (length d + length common))%nat
      with (length s - length d)%nat by lia.
    replace (length d + length common - (length s + length common))%nat with 0%nat by lia.
    cbn [skipn]. rewrite skipn_app_le by lia.
    replace (Nat.min (length s + length common) (length d + length common))
      with (length (skipn (length s - length d) s) + length common)%nat
      by (rewrite skipn_length; lia).
    rewrite sameLoop_ok; [|rewrite skipn_length; lia|apply SK].
    f_equal. f_equal. lia.
Qed.

Section B.
Context {Env : Type} (Or : oracle Env).
Hypothesis SO : soundOracle Or.
Variable UB : loop -> option (scev Env).
Variable e : Env.

(** ** Bounds of one level *)
Definition ciOk (c : coeffInfo Env) : Prop :=
  ciPos _ c e = Z.max (ciCoeff _ c e) 0 /\ ciNeg _ c e = Z.min (ciCoeff _ c e) 0.
Definition inBounds (b : bounds Env) (v : Z) : Prop :=
  match fst b with Some l => l e <= v | None => True end /\
  match snd b with Some u => v <= u e | None => True end.

Lemma mul_le_pos a u x : 0 <= a -> 0 <= x <= u -> 0 <= a * x /\ a * x <= a * u.
Proof. intros. split; [apply Z.mul_nonneg_nonneg; lia|apply Z.mul_le_mono_nonneg_l; lia]. Qed.
Lemma mul_range a u x : 0 <= x <= u ->
  Z.min a 0 * u <= a * x /\ a * x <= Z.max a 0 * u.
Proof.
  intros H. destruct (Z.le_ge_cases 0 a) as [P|P].
  - rewrite Z.min_r, Z.max_l by lia. destruct (mul_le_pos a u x P H). lia.
  - rewrite Z.min_l, Z.max_r by lia.
    destruct (mul_le_pos (-a) u x) as [Q1 Q2]; [lia|exact H|].
    rewrite !Z.mul_opp_l in *. lia.
Qed.
(* two non-negative numbers with a bounded sum *)
Lemma mul_range2 a b u x t : 0 <= x -> 0 <= t -> x + t <= u ->
  Z.min (Z.min a b) 0 * u <= a * x + b * t <= Z.max (Z.max a b) 0 * u.
Proof.
  intros X T S.
  set (m := Z.min (Z.min a b) 0). set (M := Z.max (Z.max a b) 0).
  assert (m * x <= a * x) by (apply Z.mul_le_mono_nonneg_r; lia).
  assert (m * t <= b * t) by (apply Z.mul_le_mono_nonneg_r; lia).
  assert (a * x <= M * x) by (apply Z.mul_le_mono_nonneg_r; lia).
  assert (b * t <= M * t) by (apply Z.mul_le_mono_nonneg_r; lia).
  destruct (mul_range m u (x + t)) as [R1 _]; [lia|].
  destruct (mul_range M u (x + t)) as [_ R2]; [lia|].
  replace (Z.min m 0) with m in R1 by (unfold m; lia).
  replace (Z.max M 0) with M in R2 by (unfold M; lia).
  rewrite Z.mul_add_distr_l in R1, R2. lia.
Qed.

Lemma boundsOf_ok A B d x y :
  ciOk A -> ciOk B -> 0 <= x -> 0 <= y ->
  (forall U, match ciIter _ A with Some U => Some U | None => ciIter _ B end = Some U ->
             x <= U e /\ y <= U e) ->
  dirAdmits (kdirs d) x y ->
  inBounds (boundsOf _ Or A B d) (ciCoeff _ A e * x - ciCoeff _ B e * y).
Proof.
  intros [AP AN] [BP BN] X0 Y0 U D. unfold boundsOf.
  set (It := match ciIter _ A with Some U => Some U | None => ciIter _ B end) in *.
  set (a := ciCoeff _ A e) in *. set (b := ciCoeff _ B e) in *.
  destruct D as (D1 & D2 & D3).
  destruct d; cbn [kdirs dLT dEQ dGT dALL dLTonly dEQonly dGTonly] in *.
  - (* ALL *)
    unfold findBoundsALL. destruct It as [V|] eqn:EI.
    + destruct (U V eq_refl) as [UX UY]. unfold inBounds; cbn [fst snd]. unfold scMul, scSub.
      rewrite AP, AN, BP, BN. fold a b.
      destruct (mul_range a (V e) x) as [P1 P2]; [lia|].
      destruct (mul_range b (V e) y) as [P3 P4]; [lia|].
      rewrite !Z.mul_sub_distr_r. lia.
    + unfold inBounds; cbn [fst snd]. split.
      * destruct (isKnownPredicate _ Or ICMP_EQ (ciNeg _ A) (ciPos _ B)) eqn:K; [|exact I].
        pose proof (isKnownPredicate_sound Or SO _ _ _ K e) as P. cbn in P.
        rewrite AN, BP in P. fold a b in P. unfold scC.
        assert (0 <= a) by lia. assert (b <= 0) by lia.
        pose proof (Z.mul_nonneg_nonneg a x). pose proof (Z.mul_nonneg_nonneg (-b) y).
        rewrite Z.mul_opp_l in *. lia.
      * destruct (isKnownPredicate _ Or ICMP_EQ (ciPos _ A) (ciNeg _ B)) eqn:K; [|exact I].
        pose proof (isKnownPredicate_sound Or SO _ _ _ K e) as P. cbn in P.
        rewrite AP, BN in P. fold a b in P. unfold scC.
        assert (a <= 0) by lia. assert (0 <= b) by lia.
        pose proof (Z.mul_nonneg_nonneg (-a) x). pose proof (Z.mul_nonneg_nonneg b y).
        rewrite Z.mul_opp_l in *. lia.
  - (* LT *)
    assert (LT : x < y).
    { destruct (Z.lt_trichotomy x y) as [H|[H|H]]; [exact H| |].
      - now specialize (D2 H).
      - assert (x > y) as H' by lia. now specialize (D3 H'). }
    unfold findBoundsLT. destruct It as [V|] eqn:EI.
    + destruct (U V eq_refl) as [UX UY]. unfold inBounds; cbn [fst snd].
      unfold getNegativePart, getPositivePart, scMul, scSub, scMin, scMax, scC.
      rewrite AN, AP. fold a b.
      destruct (mul_range2 (a - b) (-b) (V e - 1) x (y - x - 1)) as [P1 P2]; [lia|lia|lia|].
      replace (a * x - b * y) with ((a - b) * x + - b * (y - x - 1) - b) by ring.
      replace (Z.min (Z.min a 0 - b) 0) with (Z.min (Z.min (a - b) (- b)) 0) by lia.
      replace (Z.max (Z.max a 0 - b) 0) with (Z.max (Z.max (a - b) (- b)) 0) by lia.
      lia.
    + unfold inBounds; cbn [fst snd].
      assert (SP : a * x - b * y = (a - b) * x + - b * (y - x - 1) - b) by ring.
      destruct (mul_range2 (a - b) (-b) (y - 1) x (y - x - 1)) as [P1 P2]; [lia|lia|lia|].
      split.
      * destruct (isZero _ Or _) eqn:K; [|exact I].
        pose proof (isZero_sound Or SO _ K e) as P.
        unfold getNegativePart, scMin, scSub, scC in P. rewrite AN in P. fold a b in P.
        unfold scNeg. fold b. replace (Z.min (Z.min (a - b) (- b)) 0) with 0 in P1 by lia. lia.
      * destruct (isZero _ Or _) eqn:K; [|exact I].
        pose proof (isZero_sound Or SO _ K e) as P.
        unfold getPositivePart, scMax, scSub, scC in P. rewrite AP in P. fold a b in P.
        unfold scNeg. fold b. replace (Z.max (Z.max (a - b) (- b)) 0) with 0 in P2 by lia. lia.
  - (* EQ *)
    assert (EQ : x = y).
    { destruct (Z.lt_trichotomy x y) as [H|[H|H]]; [|exact H|].
      - now specialize (D1 H).
      - assert (x > y) as H' by lia. now specialize (D3 H'). }
    subst y. unfold findBoundsEQ.
    replace (a * x - b * x) with ((a - b) * x) by ring.
    destruct It as [V|] eqn:EI.
    + destruct (U V eq_refl) as [UX _]. unfold inBounds; cbn [fst snd].
      unfold getNegativePart, getPositivePart, scMul, scSub, scMin, scMax, scC. fold a b.
      apply mul_range. lia.
    + unfold inBounds; cbn [fst snd].
      destruct (mul_range (a - b) x x) as [P1 P2]; [lia|].
      split.
      * destruct (isZero _ Or _) eqn:K; [|exact I].
        pose proof (isZero_sound Or SO _ K e) as P. rewrite P.
        unfold getNegativePart, scMin, scSub, scC in P. fold a b in P. rewrite P in P1. lia.
      * destruct (isZero _ Or _) eqn:K; [|exact I].
        pose proof (isZero_sound Or SO _ K e) as P. rewrite P.
        unfold getPositivePart, scMax, scSub, scC in P. fold a b in P. rewrite P in P2. lia.
  - (* GT *)
    assert (GT : y < x).
    { destruct (Z.lt_trichotomy x y) as [H|[H|H]]; [| |exact H].
      - now specialize (D1 H).
      - now specialize (D2 H). }
    unfold findBoundsGT. destruct It as [V|] eqn:EI.
    + destruct (U V eq_refl) as [UX UY]. unfold inBounds; cbn [fst snd].
      unfold getNegativePart, getPositivePart, scMul, scSub, scAdd, scMin, scMax, scC.
      rewrite BN, BP. fold a b.
      destruct (mul_range2 (a - b) a (V e - 1) y (x - y - 1)) as [P1 P2]; [lia|lia|lia|].
      replace (a * x - b * y) with ((a - b) * y + a * (x - y - 1) + a) by ring.
      replace (Z.min (a - Z.max b 0) 0) with (Z.min (Z.min (a - b) a) 0) by lia.
      replace (Z.max (a - Z.min b 0) 0) with (Z.max (Z.max (a - b) a) 0) by lia.
      lia.
    + unfold inBounds; cbn [fst snd].
      assert (SP : a * x - b * y = (a - b) * y + a * (x - y - 1) + a) by ring.
      destruct (mul_range2 (a - b) a (x - 1) y (x - y - 1)) as [P1 P2]; [lia|lia|lia|].
      split.
      * destruct (isZero _ Or _) eqn:K; [|exact I].
        pose proof (isZero_sound Or SO _ K e) as P.
        unfold getNegativePart, scMin, scSub, scC in P. rewrite BP in P. fold a b in P.
        fold a. replace (Z.min (Z.min (a - b) a) 0) with 0 in P1 by lia. lia.
      * destruct (isZero _ Or _) eqn:K; [|exact I].
        pose proof (isZero_sound Or SO _ K e) as P.
        unfold getPositivePart, scMax, scSub, scC in P. rewrite BN in P. fold a b in P.
        fold a. replace (Z.max (Z.max (a - b) a) 0) with 0 in P2 by lia. lia.
Qed.

(** ** Sums over levels *)
Fixpoint sumZ (f : nat -> Z) (K n : nat) : Z :=
  match n with O => 0 | S n => f K + sumZ f (S K) n end.
Lemma sumZ_ext f g K n : (forall J, (K <= J < K + n)%nat -> f J = g J) -> sumZ f K n = sumZ g K n.
Proof.
  revert K. induction n as [|n IH]; intros K H; cbn; [reflexivity|].
  rewrite H by lia. f_equal. apply IH. intros. apply H. lia.
Qed.
Lemma sumZ_sub f g K n : sumZ (fun J => f J - g J) K n = sumZ f K n - sumZ g K n.
Proof. revert K. induction n as [|n IH]; intro K; cbn; [reflexivity|]. rewrite IH. lia. Qed.
Lemma sumZ_0 f K n : (forall J, (K <= J < K + n)%nat -> f J = 0) -> sumZ f K n = 0.
Proof.
  revert K. induction n as [|n IH]; intros K H; cbn; [reflexivity|].
  rewrite H by lia. rewrite IH; [lia|]. intros. apply H. lia.
Qed.
Lemma sumZ_set f g J K n v : (K <= J < K + n)%nat -> f J = 0 ->
  (forall M, M <> J -> g M = f M) -> g J = v -> sumZ g K n = sumZ f K n + v.
Proof.
  revert K. induction n as [|n IH]; intros K R F G V; [lia|]. cbn.
  destruct (Nat.eq_dec K J) as [E|NE].
  - subst K. rewrite V, F. rewrite (sumZ_ext g f); [lia|]. intros M RM. apply G. lia.
  - rewrite G by exact NE. rewrite (IH (S K)); [lia|lia|exact F|exact G|exact V].
Qed.

Lemma sumFrom_lower (f : nat -> option (scev Env)) t : forall n K S0 s r,
  sumFrom _ f S0 K n = Some r ->
  (forall J, (K <= J < K + n)%nat -> match f J with Some l => l e <= t J | None => True end) ->
  (forall l, S0 = Some l -> l e <= s) -> r e <= s + sumZ t K n.
Proof.
  induction n as [|n IH]; intros K S0 s r H B HS; cbn [sumFrom sumZ] in *.
  - specialize (HS _ H). lia.
  - pose proof (IH (S K) _ (s + t K) r H) as P.
    assert (r e <= s + t K + sumZ t (S K) n).
    { apply P.
      - intros. apply B. lia.
      - intros l E. destruct S0 as [a|]; [|discriminate]. cbn [oAdd] in E.
        specialize (B K ltac:(lia)). destruct (f K) as [b|]; [|discriminate].
        assert (l = scAdd _ a b) by congruence. subst l. unfold scAdd.
        specialize (HS a eq_refl). lia. }
    lia.
Qed.
Lemma sumFrom_upper (f : nat -> option (scev Env)) t : forall n K S0 s r,
  sumFrom _ f S0 K n = Some r ->
  (forall J, (K <= J < K + n)%nat -> match f J with Some l => t J <= l e | None => True end) ->
  (forall l, S0 = Some l -> s <= l e) -> s + sumZ t K n <= r e.
Proof.
  induction n as [|n IH]; intros K S0 s r H B HS; cbn [sumFrom sumZ] in *.
  - specialize (HS _ H). lia.
  - pose proof (IH (S K) _ (s + t K) r H) as P.
    assert (s + t K + sumZ t (S K) n <= r e).
    { apply P.
      - intros. apply B. lia.
      - intros l E. destruct S0 as [a|]; [|discriminate]. cbn [oAdd] in E.
        specialize (B K ltac:(lia)). destruct (f K) as [b|]; [|discriminate].
        assert (l = scAdd _ a b) by congruence. subst l. unfold scAdd.
        specialize (HS a eq_refl). lia. }
    lia.
Qed.

(** ** Exploration of directions *)
Section E.
Variables A B : nat -> coeffInfo Env.
Variable lv : levels.
Variable Loops : nat -> bool.
Variable Delta : scev Env.
Variables X Y : nat -> Z.
Definition term K := ciCoeff _ (A K) e * X K - ciCoeff _ (B K) e * Y K.
Definition dirsOk (b : bstate) : Prop :=
  forall K, (1 <= K <= MaxLevels lv)%nat -> dirAdmits (kdirs (bDir b K)) (X K) (Y K).
Hypothesis levelOk : forall K d, (1 <= K <= MaxLevels lv)%nat ->
  dirAdmits (kdirs d) (X K) (Y K) -> inBounds (boundsOf _ Or (A K) (B K) d) (term K).
Hypothesis total : sumZ term 1 (MaxLevels lv) = Delta e.
Hypothesis max1 : (1 <= MaxLevels lv)%nat.
Hypothesis maxc : (CommonLevels lv <= MaxLevels lv)%nat.

Lemma testBounds_true d Level b b' ok :
  testBounds _ Or A B lv Delta d Level b = (b', ok) ->
  dirsOk (mkB (setLevel (bDir b) Level d) (bSet b)) -> ok = true.
Proof.
  unfold testBounds. intros H D.
  assert (EO : ok = (negb match getLowerBound _ Or A B lv (mkB (setLevel (bDir b) Level d) (bSet b)) with
            | Some l => isKnownPredicate _ Or ICMP_SGT l Delta
            | None => false
            end
       && negb match getUpperBound _ Or A B lv (mkB (setLevel (bDir b) Level d) (bSet b)) with
               | Some u => isKnownPredicate _ Or ICMP_SGT Delta u
               | None => false
               end)) by congruence.
  set (b1 := mkB _ _) in *. rewrite EO. clear H EO.
  assert (SP : term 1 + sumZ term 2 (MaxLevels lv - 1) = Delta e).
  { rewrite <- total. destruct (MaxLevels lv) as [|m]; [lia|]. cbn [sumZ].
    replace (S m - 1)%nat with m by lia. reflexivity. }
  apply andb_true_intro. split; apply negb_true_iff.
  - destruct (getLowerBound _ Or A B lv b1) as [l|] eqn:GL; [|reflexivity].
    apply not_true_is_false. intro K.
    pose proof (isKnownPredicate_sound Or SO _ _ _ K e) as P. cbn in P.
    unfold getLowerBound, sumBounds in GL.
    pose proof (sumFrom_lower _ term _ _ _ (term 1) _ GL) as Q.
    cbv beta in Q. rewrite SP in Q.
    assert (l e <= Delta e); [|lia]. apply Q.
    + intros J RJ. apply (levelOk J); [lia|]. apply D. lia.
    + intros l0 E0. pose proof (proj1 (levelOk 1%nat (bDir b1 1) ltac:(lia) (D 1%nat ltac:(lia)))) as R.
      rewrite E0 in R. exact R.
  - destruct (getUpperBound _ Or A B lv b1) as [l|] eqn:GL; [|reflexivity].
    apply not_true_is_false. intro K.
    pose proof (isKnownPredicate_sound Or SO _ _ _ K e) as P. cbn in P.
    unfold getUpperBound, sumBounds in GL.
    pose proof (sumFrom_upper _ term _ _ _ (term 1) _ GL) as Q.
    cbv beta in Q. rewrite SP in Q.
    assert (Delta e <= l e); [|lia]. apply Q.
    + intros J RJ. apply (levelOk J); [lia|]. apply D. lia.
    + intros l0 E0. pose proof (proj2 (levelOk 1%nat (bDir b1 1) ltac:(lia) (D 1%nat ltac:(lia)))) as R.
      rewrite E0 in R. exact R.
Qed.
Lemma testBounds_state d Level b b' ok :
  testBounds _ Or A B lv Delta d Level b = (b', ok) ->
  b' = mkB (setLevel (bDir b) Level d) (bSet b).
Proof. unfold testBounds. intro H. congruence. Qed.

Definition subDirs (a b : dirs) : Prop :=
  (dLT a = true -> dLT b = true) /\ (dEQ a = true -> dEQ b = true) /\ (dGT a = true -> dGT b = true).
Lemma subDirs_refl a : subDirs a a. Proof. repeat split; auto. Qed.
Lemma subDirs_trans a b c : subDirs a b -> subDirs b c -> subDirs a c.
Proof. intros (P1 & P2 & P3) (Q1 & Q2 & Q3). repeat split; auto. Qed.
Lemma subDirs_or a b : subDirs a (dor a b).
Proof. unfold dor, subDirs; cbn. repeat split; intro H; rewrite H; reflexivity. Qed.
Lemma subDirs_or_r a b : subDirs b (dor a b).
Proof. unfold dor, subDirs; cbn. repeat split; intro H; rewrite H; apply orb_true_r. Qed.
Lemma dirAdmits_sub a b i i' : subDirs a b -> dirAdmits a i i' -> dirAdmits b i i'.
Proof. intros (P1 & P2 & P3) (Q1 & Q2 & Q3). repeat split; auto. Qed.
Definition grows (b b' : bstate) : Prop := forall K, subDirs (bSet b K) (bSet b' K).
Lemma grows_refl b : grows b b. Proof. intro K. apply subDirs_refl. Qed.
Lemma grows_trans a b c : grows a b -> grows b c -> grows a c.
Proof. intros H1 H2 K. eapply subDirs_trans; [apply H1|apply H2]. Qed.
(* directions from the level on are ALL *)
Definition allFrom (b : bstate) (Level : nat) : Prop := forall K, (Level <= K)%nat -> bDir b K = KALL.
Definition sameBelow (b b' : bstate) (Level : nat) : Prop :=
  forall K, (K < Level)%nat -> bDir b' K = bDir b K.

Lemma explore_frame n : forall Level b b' k,
  exploreDirections _ Or A B lv Loops Delta n Level b = (b', k) ->
  allFrom b Level -> grows b b' /\ allFrom b' Level /\ sameBelow b b' Level.
Proof.
  induction n as [|n IH]; intros Level b b' k H AF; cbn [exploreDirections] in H.
  - assert (E : b' = record lv Loops b) by congruence. subst b'. split; [|split].
    + intro K. cbn [record bSet]. destruct (Nat.leb 1 K && Nat.leb K (CommonLevels lv) && Loops K);
        [apply subDirs_or|apply subDirs_refl].
    + exact AF.
    + intros K _. reflexivity.
  - destruct (Loops Level) eqn:LL.
    + cbv zeta in H. set (try := tryDir _ Or A B lv Delta (exploreDirections _ Or A B lv Loops Delta n (S Level)) Level) in H.
      (* one attempt keeps the frame *)
      assert (TRY : forall d b0 c b1 c1, try d (b0, c) = (b1, c1) ->
                allFrom b0 (S Level) ->
                grows b0 b1 /\ allFrom b1 (S Level) /\ sameBelow b0 b1 Level).
      { intros d b0 c b1 c1 T A0. unfold try, tryDir in T.
        destruct (testBounds _ Or A B lv Delta d Level b0) as (bt, ok) eqn:TB.
        pose proof (testBounds_state _ _ _ _ _ TB) as ET.
        assert (AT : allFrom bt (S Level)).
        { intros K HK. rewrite ET. cbn [bDir]. unfold setLevel.
          destruct (Nat.eqb_spec K Level) as [EK|_]; [lia|]. apply A0. exact HK. }
        assert (ST : sameBelow b0 bt Level).
        { intros K HK. rewrite ET. cbn [bDir]. unfold setLevel.
          destruct (Nat.eqb_spec K Level) as [EK|_]; [lia|reflexivity]. }
        assert (GT : grows b0 bt) by (rewrite ET; intro K; apply subDirs_refl).
        destruct ok.
        - destruct (exploreDirections _ Or A B lv Loops Delta n (S Level) bt) as (b2, k2) eqn:EX.
          destruct (IH _ _ _ _ EX AT) as (G2 & A2 & S2).
          assert (b1 = b2) by congruence. subst b1. split; [|split; [exact A2|]].
          + eapply grows_trans; eassumption.
          + intros K HK. rewrite S2 by lia. apply ST. exact HK.
        - assert (b1 = bt) by congruence. subst b1. auto. }
      destruct (try KLT (b, 0%nat)) as (b1, c1) eqn:T1.
      destruct (try KEQ (b1, c1)) as (b2, c2) eqn:T2.
      destruct (try KGT (b2, c2)) as (b3, c3) eqn:T3.
      assert (A0 : allFrom b (S Level)) by (intros K HK; apply AF; lia).
      destruct (TRY _ _ _ _ _ T1 A0) as (G1 & F1 & S1).
      destruct (TRY _ _ _ _ _ T2 F1) as (G2 & F2 & S2).
      destruct (TRY _ _ _ _ _ T3 F2) as (G3 & F3 & S3).
      assert (E : b' = mkB (setLevel (bDir b3) Level KALL) (bSet b3)) by congruence. subst b'.
      split; [|split].
      * intro K. cbn [bSet]. eapply subDirs_trans; [apply G1|].
        eapply subDirs_trans; [apply G2|apply G3].
      * intros K HK. cbn [bDir]. unfold setLevel.
        destruct (Nat.eqb_spec K Level) as [EK|NK]; [reflexivity|]. apply F3. lia.
      * intros K HK. cbn [bDir]. unfold setLevel.
        destruct (Nat.eqb_spec K Level) as [EK|NK]; [lia|].
        rewrite S3, S2, S1 by exact HK. reflexivity.
    + assert (A0 : allFrom b (S Level)) by (intros K HK; apply AF; lia).
      destruct (IH _ _ _ _ H A0) as (G1 & F1 & S1).
      split; [exact G1|]. split.
      * intros K HK. destruct (Nat.eq_dec K Level) as [EK|NK].
        -- subst K. rewrite S1 by lia. apply AF. lia.
        -- apply F1. lia.
      * intros K HK. apply S1. lia.
Qed.

Definition trueDir (K : nat) : dkind :=
  if X K <? Y K then KLT else if X K =? Y K then KEQ else KGT.
Lemma trueDir_ok K : dirAdmits (kdirs (trueDir K)) (X K) (Y K).
Proof.
  unfold trueDir. destruct (Z.ltb_spec (X K) (Y K)) as [L|L].
  - cbn. repeat split; intros; try reflexivity; lia.
  - destruct (Z.eqb_spec (X K) (Y K)) as [E|NE]; cbn; repeat split; intros; try reflexivity; lia.
Qed.
Lemma all_ok i i' : dirAdmits (kdirs KALL) i i'.
Proof. cbn. repeat split; reflexivity. Qed.

Lemma explore_ok n : forall Level b b' k,
  exploreDirections _ Or A B lv Loops Delta n Level b = (b', k) ->
  (Level + n = S (CommonLevels lv))%nat -> (1 <= Level)%nat ->
  allFrom b Level -> dirsOk b ->
  (1 <= k)%nat /\
  (forall K, (1 <= K <= CommonLevels lv)%nat -> Loops K = true -> dirAdmits (bSet b' K) (X K) (Y K)).
Proof.
  induction n as [|n IH]; intros Level b b' k H SN L1 AF D; cbn [exploreDirections] in H.
  - assert (E : b' = record lv Loops b) by congruence. assert (k = 1%nat) by congruence.
    subst b' k. split; [lia|]. intros K HK LK. cbn [record bSet].
    replace (Nat.leb 1 K && Nat.leb K (CommonLevels lv) && Loops K) with true.
    + eapply dirAdmits_sub; [apply subDirs_or_r|]. apply D. lia.
    + symmetry. rewrite LK, andb_true_r. apply andb_true_intro. split; apply Nat.leb_le; lia.
  - destruct (Loops Level) eqn:LL.
    + cbv zeta in H. set (try := tryDir _ Or A B lv Delta (exploreDirections _ Or A B lv Loops Delta n (S Level)) Level) in H.
      assert (TRY : forall d b0 c b1 c1, try d (b0, c) = (b1, c1) ->
                allFrom b0 (S Level) ->
                grows b0 b1 /\ allFrom b1 (S Level) /\ sameBelow b0 b1 Level /\ (c <= c1)%nat).
      { intros d b0 c b1 c1 T A0. unfold try, tryDir in T.
        destruct (testBounds _ Or A B lv Delta d Level b0) as (bt, ok) eqn:TB.
        pose proof (testBounds_state _ _ _ _ _ TB) as ET.
        assert (AT : allFrom bt (S Level)).
        { intros K HK. rewrite ET. cbn [bDir]. unfold setLevel.
          destruct (Nat.eqb_spec K Level) as [EK|_]; [lia|]. apply A0. exact HK. }
        assert (ST : sameBelow b0 bt Level).
        { intros K HK. rewrite ET. cbn [bDir]. unfold setLevel.
          destruct (Nat.eqb_spec K Level) as [EK|_]; [lia|reflexivity]. }
        assert (GT : grows b0 bt) by (rewrite ET; intro K; apply subDirs_refl).
        destruct ok.
        - destruct (exploreDirections _ Or A B lv Loops Delta n (S Level) bt) as (b2, k2) eqn:EX.
          destruct (explore_frame _ _ _ _ _ EX AT) as (G2 & A2 & S2).
          assert (b1 = b2) by congruence. assert (c1 = (c + k2)%nat) by congruence. subst b1 c1.
          split; [|split; [exact A2|split; [|lia]]].
          + eapply grows_trans; eassumption.
          + intros K HK. rewrite S2 by lia. apply ST. exact HK.
        - assert (b1 = bt) by congruence. assert (c1 = c) by congruence. subst b1 c1. auto. }
      (* the attempt with the direction of the pair *)
      assert (HIT : forall b0 c b1 c1, try (trueDir Level) (b0, c) = (b1, c1) ->
                allFrom b0 (S Level) -> sameBelow b b0 Level ->
                (S c <= c1)%nat /\
                (forall K, (1 <= K <= CommonLevels lv)%nat -> Loops K = true ->
                   dirAdmits (bSet b1 K) (X K) (Y K))).
      { intros b0 c b1 c1 T A0 S0. unfold try, tryDir in T.
        destruct (testBounds _ Or A B lv Delta (trueDir Level) Level b0) as (bt, ok) eqn:TB.
        pose proof (testBounds_state _ _ _ _ _ TB) as ET.
        assert (DT : dirsOk bt).
        { intros K HK. rewrite ET. cbn [bDir]. unfold setLevel.
          destruct (Nat.eqb_spec K Level) as [EK|NK].
          - subst K. apply trueDir_ok.
          - destruct (le_lt_dec Level K) as [LK|LK].
            + rewrite A0 by lia. apply all_ok.
            + rewrite S0 by exact LK. apply D. exact HK. }
        assert (ok = true) as -> by (eapply testBounds_true; [exact TB|]; rewrite <- ET; exact DT).
        assert (AT : allFrom bt (S Level)).
        { intros K HK. rewrite ET. cbn [bDir]. unfold setLevel.
          destruct (Nat.eqb_spec K Level) as [EK|_]; [lia|]. apply A0. exact HK. }
        destruct (exploreDirections _ Or A B lv Loops Delta n (S Level) bt) as (b2, k2) eqn:EX.
        destruct (IH _ _ _ _ EX ltac:(lia) ltac:(lia) AT DT) as (K1 & KA).
        assert (b1 = b2) by congruence. assert (c1 = (c + k2)%nat) by congruence. subst b1 c1.
        split; [lia|exact KA]. }
      destruct (try KLT (b, 0%nat)) as (b1, c1) eqn:T1.
      destruct (try KEQ (b1, c1)) as (b2, c2) eqn:T2.
      destruct (try KGT (b2, c2)) as (b3, c3) eqn:T3.
      assert (A0 : allFrom b (S Level)) by (intros K HK; apply AF; lia).
      destruct (TRY _ _ _ _ _ T1 A0) as (G1 & F1 & S1 & C1).
      destruct (TRY _ _ _ _ _ T2 F1) as (G2 & F2 & S2 & C2).
      destruct (TRY _ _ _ _ _ T3 F2) as (G3 & F3 & S3 & C3).
      assert (E : b' = mkB (setLevel (bDir b3) Level KALL) (bSet b3)) by congruence.
      assert (k = c3) by congruence. subst b' k. cbn [bSet].
      assert (R : (1 <= c3)%nat /\ (forall K, (1 <= K <= CommonLevels lv)%nat -> Loops K = true ->
                 exists bx, grows bx b3 /\ dirAdmits (bSet bx K) (X K) (Y K))).
      { assert (TD : trueDir Level = KLT \/ trueDir Level = KEQ \/ trueDir Level = KGT).
        { unfold trueDir. destruct (X Level <? Y Level); [auto|]. destruct (X Level =? Y Level); auto. }
        destruct TD as [TD|[TD|TD]]; rewrite TD in HIT.
        - destruct (HIT _ _ _ _ T1 A0) as (H1 & H2); [intros K HK; reflexivity|].
          split; [lia|]. intros K HK LK. exists b1. split; [|apply H2; assumption].
          eapply grows_trans; [exact G2|exact G3].
        - destruct (HIT _ _ _ _ T2 F1 S1) as (H1 & H2).
          split; [lia|]. intros K HK LK. exists b2. split; [exact G3|apply H2; assumption].
        - destruct (HIT _ _ _ _ T3 F2) as (H1 & H2).
          { intros K HK. rewrite S2, S1 by exact HK. reflexivity. }
          split; [lia|]. intros K HK LK. exists b3. split; [apply grows_refl|apply H2; assumption]. }
      destruct R as [R1 R2]. split; [exact R1|]. intros K HK LK.
      destruct (R2 K HK LK) as (bx & GX & DX). eapply dirAdmits_sub; [apply GX|exact DX].
    + apply (IH _ _ _ _ H); [lia|lia| |exact D]. intros K HK. apply AF. lia.
Qed.

Lemma refine_ok DirSet n : forall K dv ind dv',
  refine Loops DirSet n K dv = (ind, dv') ->
  (forall J, (K <= J < K + n)%nat -> Loops J = true -> dirAdmits (DirSet J) (X J) (Y J)) ->
  (forall J, (K <= J < K + n)%nat -> dirAdmits (dv J) (X J) (Y J)) ->
  ind = false /\
  (forall J, (K <= J < K + n)%nat -> dirAdmits (dv' J) (X J) (Y J)) /\
  (forall J, (J < K)%nat -> dv' J = dv J).
Proof.
  induction n as [|n IH]; intros K dv ind dv' H DS DV; cbn [refine] in H.
  - assert (ind = false) by congruence. assert (dv' = dv) by congruence. subst.
    split; [reflexivity|]. split; [exact DV|reflexivity].
  - destruct (Loops K) eqn:LK.
    + set (d := dand (dv K) (DirSet K)) in H. cbv zeta in H.
      assert (AD : dirAdmits d (X K) (Y K)).
      { apply dirAdmits_and; [apply DV; lia|]. apply DS; [lia|exact LK]. }
      rewrite (dirAdmits_notempty _ _ _ AD) in H.
      destruct (IH _ _ _ _ H) as (I1 & I2 & I3).
      * intros. apply DS; [lia|assumption].
      * intros J RJ. unfold setLevel. destruct (Nat.eqb_spec J K) as [EJ|NJ]; [lia|]. apply DV. lia.
      * split; [exact I1|]. split.
        -- intros J RJ. destruct (Nat.eq_dec J K) as [EJ|NJ].
           ++ subst J. rewrite I3 by lia. unfold setLevel. now rewrite Nat.eqb_refl.
           ++ apply I2. lia.
        -- intros J RJ. rewrite I3 by lia. unfold setLevel.
           destruct (Nat.eqb_spec J K) as [EJ|NJ]; [lia|reflexivity].
    + destruct (IH _ _ _ _ H) as (I1 & I2 & I3).
      * intros. apply DS; [lia|assumption].
      * intros. apply DV. lia.
      * split; [exact I1|]. split.
        -- intros J RJ. destruct (Nat.eq_dec J K) as [EJ|NJ].
           ++ subst J. rewrite I3 by lia. apply DV. lia.
           ++ apply I2. lia.
        -- intros J RJ. apply I3. lia.
Qed.
End E.

(** ** Coefficients *)
Lemma ciZero_ok : ciOk (ciZero Env).
Proof. unfold ciOk, ciZero, scC; cbn. lia. Qed.
Lemma collect_ok (mp : loop -> option nat) (xs : nat -> Z) (x : loop -> Z) M recs :
  forall CI A,
  collectCoeffInfo _ UB mp recs CI = Some A ->
  NoDup (map fst recs) ->
  (forall L L' K, mp L = Some K -> mp L' = Some K -> L = L') ->
  (forall L K, mp L = Some K -> (1 <= K <= M)%nat /\ xs K = x L) ->
  (forall L K, In L (map fst recs) -> mp L = Some K -> ciCoeff _ (CI K) e = 0) ->
  (forall K, ciOk (CI K)) ->
  (forall K, ciOk (A K)) /\
  sumZ (fun K => ciCoeff _ (A K) e * xs K) 1 M
    = sumZ (fun K => ciCoeff _ (CI K) e * xs K) 1 M + recsValue recs e x /\
  (forall K U, ciIter _ (A K) = Some U ->
     ciIter _ (CI K) = Some U \/ exists L, mp L = Some K /\ UB L = Some U).
Proof.
  induction recs as [|(L, c) recs IH]; intros CI A H ND INJ XS Z0 OK; cbn [collectCoeffInfo recsValue map fst] in *.
  - assert (A = CI) by congruence. subst A. split; [exact OK|]. split; [lia|]. auto.
  - inversion ND as [|? ? N1 N2]; subst.
    destruct (mp L) as [K|] eqn:EK; [|discriminate].
    set (CI' := setLevel CI K (mkCI _ c (getPositivePart _ c) (getNegativePart _ c) (UB L))) in *.
    assert (C1 : CI' K = mkCI _ c (getPositivePart _ c) (getNegativePart _ c) (UB L)).
    { unfold CI', setLevel. now rewrite Nat.eqb_refl. }
    assert (C2 : forall J, J <> K -> CI' J = CI J).
    { intros J NJ. unfold CI', setLevel. destruct (Nat.eqb_spec J K) as [E|_]; [contradiction|reflexivity]. }
    destruct (IH CI' A H N2 INJ XS) as (I1 & I2 & I3).
    + intros L' K' IL EK'. destruct (Nat.eq_dec K' K) as [E|NE].
      * subst K'. exfalso. apply N1. rewrite (INJ _ _ _ EK EK'). exact IL.
      * rewrite C2 by exact NE. eapply Z0; [right; exact IL|exact EK'].
    + intro J. destruct (Nat.eq_dec J K) as [E|NE].
      * subst J. rewrite C1. unfold ciOk; cbn. unfold getPositivePart, getNegativePart, scMax, scMin, scC. lia.
      * rewrite C2 by exact NE. apply OK.
    + split; [exact I1|]. split.
      * rewrite I2.
        rewrite (sumZ_set (fun J => ciCoeff _ (CI J) e * xs J) (fun J => ciCoeff _ (CI' J) e * xs J) K 1 M (c e * x L)).
        -- lia.
        -- destruct (XS _ _ EK). lia.
        -- rewrite (Z0 L K (or_introl eq_refl) EK). lia.
        -- intros J NJ. rewrite C2 by exact NJ. reflexivity.
        -- rewrite C1. cbn. destruct (XS _ _ EK) as [_ ->]. reflexivity.
      * intros J U HU. destruct (I3 J U HU) as [HC|HC]; [|right; exact HC].
        destruct (Nat.eq_dec J K) as [E|NE].
        -- subst J. rewrite C1 in HC. cbn in HC. right. exists L. auto.
        -- rewrite C2 in HC by exact NE. left. exact HC.
Qed.

(** ** The whole test *)
Section T.
Variables (s d common : list loop).
Hypothesis ND : NoDup (s ++ d ++ common).
Variables (x y : loop -> Z).
Hypothesis BX : inNest UB e (s ++ common) x.
Hypothesis BY : inNest UB e (d ++ common) y.
Let lv := mkLevels (length common) (length s + length common) (length s + length d + length common).
Let srcNest := s ++ common.
Let dstNest := d ++ common.

(* iterations by levels *)
Definition xAt (K : nat) : Z :=
  match nth_error (rev srcNest) (K - 1) with Some L => x L | None => 0 end.
Definition yAt (K : nat) : Z :=
  if Nat.leb K (length common)
  then match nth_error (rev common) (K - 1) with Some L => y L | None => 0 end
  else if Nat.leb K (length srcNest) then 0
  else match nth_error (rev dstNest) (K - length srcNest + length common - 1) with
       | Some L => y L | None => 0 end.

Lemma ndParts : NoDup srcNest /\ NoDup dstNest /\ (forall L, In L s -> ~ In L dstNest)
                /\ (forall L, In L d -> ~ In L srcNest).
Proof.
  pose proof ND as N. apply NoDup_app_split in N. destruct N as (N1 & N2 & N3).
  pose proof N2 as N2'. apply NoDup_app_split in N2'. destruct N2' as (N4 & N5 & N6).
  split; [|split; [exact N2|split; [exact N3|]]].
  - apply NoDup_app_split. split; [exact N1|]. split; [exact N5|].
    intros L I J. apply (N3 L I). apply in_or_app. auto.
  - intros L I J. apply in_app_or in J. destruct J as [J|J].
    + apply (N3 L J). apply in_or_app. auto.
    + exact (N6 L I J).
Qed.

Lemma src_map L K : mapSrcLoop srcNest L = Some K ->
  (1 <= K <= length srcNest)%nat /\ xAt K = x L.
Proof.
  unfold mapSrcLoop. intro H. split; [eapply depthIn_range; exact H|].
  apply depthIn_atDepth in H. destruct H as [_ H]. unfold xAt. now rewrite H.
Qed.
Lemma src_inj L L' K : mapSrcLoop srcNest L = Some K -> mapSrcLoop srcNest L' = Some K -> L = L'.
Proof.
  unfold mapSrcLoop. intros H H'. apply depthIn_atDepth in H. apply depthIn_atDepth in H'.
  eapply atDepth_inj; eassumption.
Qed.
Lemma len_src : length srcNest = (length s + length common)%nat.
Proof. apply app_length. Qed.
Lemma len_dst : length dstNest = (length d + length common)%nat.
Proof. apply app_length. Qed.
Lemma dst_map L K : mapDstLoop lv dstNest L = Some K ->
  (1 <= K <= MaxLevels lv)%nat /\ yAt K = y L /\
  ((K <= length common)%nat /\ atDepth common K L \/ (length srcNest < K)%nat).
Proof.
  unfold mapDstLoop. intro H. destruct (depthIn dstNest L) as [D|] eqn:E; [|discriminate].
  pose proof (depthIn_range _ _ _ E) as R. rewrite len_dst in R.
  apply depthIn_atDepth in E. cbn [CommonLevels SrcLevels lv MaxLevels] in *.
  destruct (Nat.ltb_spec (length common) D) as [LT|GE].
  - assert (EK : K = (D - length common + (length s + length common))%nat) by congruence.
    split; [lia|]. split; [|right; rewrite len_src; lia].
    unfold yAt. destruct (Nat.leb_spec K (length common)); [lia|].
    rewrite len_src. destruct (Nat.leb_spec K (length s + length common)); [lia|].
    replace (K - (length s + length common) + length common - 1)%nat with (D - 1)%nat by lia.
    destruct E as [_ E]. now rewrite E.
  - assert (K = D) by congruence. subst D.
    apply (proj1 (atDepth_app d common K L GE)) in E.
    split; [lia|]. split; [|left; auto].
    unfold yAt. destruct (Nat.leb_spec K (length common)); [|lia].
    destruct E as [_ E]. now rewrite E.
Qed.
Lemma dst_inj L L' K : mapDstLoop lv dstNest L = Some K -> mapDstLoop lv dstNest L' = Some K -> L = L'.
Proof.
  unfold mapDstLoop. destruct (depthIn dstNest L) as [D|] eqn:E; [|discriminate].
  destruct (depthIn dstNest L') as [D'|] eqn:E'; [|discriminate].
  pose proof (depthIn_range _ _ _ E) as R. pose proof (depthIn_range _ _ _ E') as R'.
  rewrite len_dst in R, R'.
  intros H H'. cbn [CommonLevels SrcLevels lv] in *.
  assert (D = D').
  { destruct (Nat.ltb_spec (length common) D), (Nat.ltb_spec (length common) D');
      injection H as H; injection H' as H'; lia. }
  subst D'. apply depthIn_atDepth in E. apply depthIn_atDepth in E'. eapply atDepth_inj; eassumption.
Qed.

Lemma xAt_nonneg K : 0 <= xAt K.
Proof.
  unfold xAt. destruct (nth_error _ _) as [L|] eqn:E; [|lia].
  apply nth_error_In in E. apply in_rev in E. apply (BX L E).
Qed.
Lemma yAt_nonneg K : 0 <= yAt K.
Proof.
  unfold yAt. destruct (Nat.leb K (length common)).
  - destruct (nth_error _ _) as [L|] eqn:E; [|lia].
    apply nth_error_In in E. apply in_rev in E. apply (BY L). apply in_or_app. auto.
  - destruct (Nat.leb K (length srcNest)); [lia|].
    destruct (nth_error _ _) as [L|] eqn:E; [|lia].
    apply nth_error_In in E. apply in_rev in E. apply (BY L E).
Qed.
(* the bound of the loop at a level restricts iterations of both accesses *)
Lemma src_bound L K U : mapSrcLoop srcNest L = Some K -> UB L = Some U ->
  xAt K <= U e /\ yAt K <= U e.
Proof.
  intros M EU. pose proof (src_map _ _ M) as [R EX]. pose proof (depthIn_In _ _ _ M) as IL.
  destruct (BX L IL) as [X0 X1]. rewrite EU in X1. split; [lia|].
  unfold yAt. destruct (Nat.leb_spec K (length common)) as [LE|GT].
  - unfold mapSrcLoop in M. apply depthIn_atDepth in M.
    apply (proj1 (atDepth_app s common K L LE)) in M. destruct M as [_ M]. rewrite M.
    assert (In L common) by (apply in_rev; eapply nth_error_In; exact M).
    destruct (BY L) as [_ Y1]; [apply in_or_app; auto|]. now rewrite EU in Y1.
  - destruct (Nat.leb_spec K (length srcNest)); [lia|]. lia.
Qed.
Lemma dst_bound L K U : mapDstLoop lv dstNest L = Some K -> UB L = Some U ->
  xAt K <= U e /\ yAt K <= U e.
Proof.
  intros M EU. pose proof (dst_map _ _ M) as (R & EY & C).
  assert (IL : In L dstNest).
  { unfold mapDstLoop in M. destruct (depthIn dstNest L) eqn:E; [|discriminate]. eapply depthIn_In; exact E. }
  destruct (BY L IL) as [Y0 Y1]. rewrite EU in Y1. split; [|lia].
  unfold xAt. destruct C as [[LE AD]|GT].
  - pose proof (proj2 (atDepth_app s common K L LE) AD) as AS. fold srcNest in AS.
    destruct AS as [_ AS]. rewrite AS.
    assert (In L common) by (apply in_rev; eapply nth_error_In; exact (proj2 AD)).
    destruct (BX L) as [_ X1]; [apply in_or_app; auto|]. now rewrite EU in X1.
  - destruct (nth_error (rev srcNest) (K - 1)) eqn:E; [|lia].
    assert (X : nth_error (rev srcNest) (K - 1) <> None) by congruence.
    apply nth_error_Some in X. rewrite rev_length in X. lia.
Qed.

Lemma banerjee_ok Src Dst Loops dv ind dv' :
  chainOk Src -> chainOk Dst ->
  banerjeeMIVtest _ Or UB srcNest dstNest lv Loops Src Dst dv = Some (ind, dv') ->
  conflict e Src Dst x y ->
  admits common dv x y -> ind = false /\ admits common dv' x y.
Proof.
  intros OkS OkD H CF AD. unfold banerjeeMIVtest in H.
  destruct (collectCoeffInfo _ UB (mapSrcLoop srcNest) (eRecs _ Src) (fun _ => ciZero Env)) as [A|] eqn:EA; [|discriminate].
  destruct (collectCoeffInfo _ UB (mapDstLoop lv dstNest) (eRecs _ Dst) (fun _ => ciZero Env)) as [B|] eqn:EB; [|discriminate].
  destruct (Nat.eqb_spec (MaxLevels lv) 0) as [M0|M1]; [discriminate|].
  destruct (negb (seEnclosing _ Or (eStart _ Src) (eStart _ Dst))).
  { assert (ind = false) by congruence. assert (dv' = dv) by congruence. subst. auto. }
  cbv zeta in H. set (Delta := scSub _ (eStart _ Dst) (eStart _ Src)) in *.
  destruct (collect_ok _ xAt x (MaxLevels lv) _ _ _ EA OkS src_inj) as (OA & SA & IA).
  { intros L K M. destruct (src_map _ _ M) as [R E]. rewrite len_src in R. cbn [MaxLevels lv]. split; [lia|exact E]. }
  { intros. reflexivity. }
  { intro. apply ciZero_ok. }
  destruct (collect_ok _ yAt y (MaxLevels lv) _ _ _ EB OkD dst_inj) as (OB & SB & IB).
  { intros L K M. destruct (dst_map _ _ M) as (R & E & _). auto. }
  { intros. reflexivity. }
  { intro. apply ciZero_ok. }
  rewrite (sumZ_0 (fun K => ciCoeff _ (ciZero Env) e * _)) in SA by (intros; reflexivity).
  rewrite (sumZ_0 (fun K => ciCoeff _ (ciZero Env) e * _)) in SB by (intros; reflexivity).
  assert (LV : forall K dd, (1 <= K <= MaxLevels lv)%nat -> dirAdmits (kdirs dd) (xAt K) (yAt K) ->
             inBounds (boundsOf _ Or (A K) (B K) dd) (term A B xAt yAt K)).
  { intros K dd RK DD. unfold term. apply boundsOf_ok; auto using xAt_nonneg, yAt_nonneg.
    intros U HU. destruct (ciIter _ (A K)) as [U'|] eqn:IAK.
    - assert (U' = U) by congruence. subst U'. destruct (IA K U IAK) as [F|(L & M & E)]; [discriminate|].
      eapply src_bound; eassumption.
    - destruct (IB K U HU) as [F|(L & M & E)]; [discriminate|]. eapply dst_bound; eassumption. }
  assert (TOT : sumZ (term A B xAt yAt) 1 (MaxLevels lv) = Delta e).
  { unfold term. rewrite sumZ_sub, SA, SB. unfold conflict, value in CF. unfold Delta, scSub. lia. }
  destruct (testBounds _ Or A B lv Delta KALL 0 (mkB (fun _ => KALL) (fun _ => dNONE))) as (b1, ok) eqn:TB.
  assert (D0 : dirsOk lv xAt yAt (mkB (setLevel (fun _ => KALL) 0 KALL) (fun _ => dNONE))).
  { intros K _. cbn [bDir]. unfold setLevel. destruct (Nat.eqb K 0); apply all_ok. }
  assert (ok = true) as -> by (eapply testBounds_true; [exact LV|exact TOT|lia|cbn; lia|exact TB|exact D0]).
  pose proof (testBounds_state _ _ _ _ _ _ _ _ _ TB) as EB1. cbn [bDir bSet] in EB1.
  destruct (exploreDirections _ Or A B lv Loops Delta (CommonLevels lv) 1 b1) as (b2, k) eqn:EX.
  destruct (explore_ok A B lv Loops Delta xAt yAt LV TOT ltac:(lia) ltac:(cbn; lia) _ _ _ _ _ EX) as (K1 & KA).
  { lia. }
  { lia. }
  { intros K _. rewrite EB1. cbn [bDir]. unfold setLevel. destruct (Nat.eqb K 0); reflexivity. }
  { rewrite EB1. exact D0. }
  destruct (Nat.ltb_spec 0 k) as [KP|KN]; [|lia].
  destruct (refine Loops (bSet b2) (CommonLevels lv) 1 dv) as (i2, dv2) eqn:ER.
  assert (CX : forall K L, atDepth common K L -> xAt K = x L /\ yAt K = y L).
  { intros K L AT. pose proof (atDepth_range _ _ _ AT) as RK. split.
    - unfold xAt. pose proof (proj2 (atDepth_app s common K L ltac:(lia)) AT) as [_ E]. fold srcNest in E. now rewrite E.
    - unfold yAt. destruct (Nat.leb_spec K (length common)); [|lia]. destruct AT as [_ E]. now rewrite E. }
  assert (CE : forall K, (1 <= K <= length common)%nat -> exists L, atDepth common K L).
  { intros K RK. destruct (nth_error (rev common) (K - 1)) as [L|] eqn:E.
    - exists L. split; [lia|exact E].
    - apply nth_error_None in E. rewrite rev_length in E. lia. }
  destruct (refine_ok lv Loops xAt yAt ltac:(lia) ltac:(cbn; lia) _ _ _ _ _ _ ER) as (R1 & R2 & _).
  { intros J RJ LJ. apply KA; [cbn [CommonLevels lv] in *; lia|exact LJ]. }
  { intros J RJ. cbn [CommonLevels lv] in RJ. destruct (CE J ltac:(lia)) as (L & AT).
    destruct (CX _ _ AT) as [-> ->]. apply AD. exact AT. }
  assert (ind = i2) by congruence. assert (dv' = dv2) by congruence. subst.
  split; [reflexivity|]. intros K L AT. pose proof (atDepth_range _ _ _ AT) as RK.
  destruct (CX _ _ AT) as [<- <-]. apply R2. cbn [CommonLevels lv]. lia.
Qed.
End T.
End B.
