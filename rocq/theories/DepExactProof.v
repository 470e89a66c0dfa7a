(** Correctness of findGCD, exactSIVtest and exactRDIVtest. *)
From Coq Require Import ZArith Znumtheory Zquot Bool List Lia ZifyBool.
From Verif Require Import DepModel DepSpec.
Open Scope Z_scope.

Section P.
Variable Bits : Z.
Hypothesis HB : 2 <= Bits.
Let H := 2 ^ (Bits - 1).

Lemma Hpow : 2 ^ Bits = 2 * H.
Proof. unfold H. rewrite <- Z.pow_succ_r by lia. f_equal. lia. Qed.
Lemma Hpos : 1 < H.
Proof. unfold H. change 1 with (2 ^ 0). apply Z.pow_lt_mono_r; lia. Qed.

Lemma wr_id z : - H <= z < H -> wr Bits z = z.
Proof.
  intros Hz. unfold wr. fold H. rewrite Hpow.
  rewrite Z.mod_small; lia.
Qed.

Lemma quot_abs_le a b : Z.abs (Z.quot a b) <= Z.abs a.
Proof.
  destruct (Z.eq_dec b 0) as [->|Hb].
  - rewrite Zquot.Zquot_0_r. lia.
  - rewrite <- Z.quot_abs by auto.
    rewrite Z.quot_div_nonneg by lia.
    apply Z.div_le_upper_bound; nia.
Qed.
Lemma rem_abs_le a b : Z.abs (Z.rem a b) <= Z.abs a.
Proof.
  destruct (Z.eq_dec b 0) as [->|Hb].
  - rewrite Zquot.Zrem_0_r. lia.
  - rewrite <- Z.rem_abs by auto.
    rewrite Z.rem_mod_nonneg by lia.
    apply Z.mod_le; lia.
Qed.
Lemma apQuot_id a b : - H < a < H -> apQuot Bits a b = Z.quot a b.
Proof. intros. unfold apQuot. apply wr_id. pose proof (quot_abs_le a b). lia. Qed.
Lemma apRem_id a b : - H < a < H -> apRem Bits a b = Z.rem a b.
Proof. intros. unfold apRem. apply wr_id. pose proof (rem_abs_le a b). lia. Qed.
Lemma apAbs_id a : - H < a < H -> apAbs Bits a = Z.abs a.
Proof.
  intros. unfold apAbs, apNeg. destruct (Z.ltb_spec a 0); [rewrite wr_id|]; lia.
Qed.

Lemma combo_le x y G0 G1 b :
  0 <= x -> 0 <= y -> 0 < G0 -> 0 < G1 -> x * G0 + y * G1 = b -> x <= b /\ y <= b.
Proof.
  intros Hx Hy H0 H1 <-.
  assert (x * 1 <= x * G0) by (apply Z.mul_le_mono_nonneg_l; lia).
  assert (y * 1 <= y * G1) by (apply Z.mul_le_mono_nonneg_l; lia).
  assert (0 <= x * G0) by (apply Z.mul_nonneg_nonneg; lia).
  assert (0 <= y * G1) by (apply Z.mul_nonneg_nonneg; lia). lia.
Qed.

Lemma abs_sgn1 z : z <> 0 -> Z.abs (Z.sgn z) = 1.
Proof. lia. Qed.
Lemma abs_lt_range x y : Z.abs x <= y -> y < H -> - H <= x < H.
Proof. lia. Qed.

(** Loop invariant of the extended Euclid algorithm. *)
Lemma gcdLoop_ok a b fuel : 0 < a < H -> 0 < b < H ->
  forall s A0 A1 B0 B1 G0 G1,
  s = 1 \/ s = -1 ->
  0 <= s * A0 -> 0 <= - s * A1 -> 0 <= - s * B0 -> 0 <= s * B1 ->
  (- s * A1) * G0 + (s * A0) * G1 = b ->
  (s * B1) * G0 + (- s * B0) * G1 = a ->
  A0 * a + B0 * b = G0 -> A1 * a + B1 * b = G1 ->
  0 < G0 < H -> 0 < G1 < H ->
  Z.gcd G0 G1 = Z.gcd a b ->
  forall r, gcdLoop Bits fuel A0 A1 B0 B1 G0 G1 (Z.quot G0 G1) (Z.rem G0 G1) = Some r ->
  let '(X, Y, G) := r in
  G = Z.gcd a b /\ X * a + Y * b = G /\ Z.abs X <= b /\ Z.abs Y <= a.
Proof.
  intros Ha Hb. induction fuel as [|fuel IH];
    intros s A0 A1 B0 B1 G0 G1 Hs P0 P1 P2 P3 E1 E2 D0 D1 HG0 HG1 Hg r.
  - simpl. destruct (Z.eqb_spec (Z.rem G0 G1) 0) as [Hr|]; [|discriminate].
    intros E. inversion E; subst r. split; [|split; [lia|]].
    + rewrite <- Hg. rewrite Z.rem_mod_nonneg in Hr by lia.
      apply Z.mod_divide in Hr; [|lia]. symmetry.
      rewrite Z.gcd_comm. apply Z.divide_gcd_iff; [lia|auto].
    + split; destruct (combo_le _ _ _ _ _ P1 P0 (proj1 HG0) (proj1 HG1) E1),
        (combo_le _ _ _ _ _ P3 P2 (proj1 HG0) (proj1 HG1) E2); destruct Hs; subst s; lia.
  - simpl. destruct (Z.eqb_spec (Z.rem G0 G1) 0) as [Hr|Hr].
    + intros E. inversion E; subst r. split; [|split; [lia|]].
      * rewrite <- Hg. rewrite Z.rem_mod_nonneg in Hr by lia.
        apply Z.mod_divide in Hr; [|lia]. symmetry.
        rewrite Z.gcd_comm. apply Z.divide_gcd_iff; [lia|auto].
      * split; destruct (combo_le _ _ _ _ _ P1 P0 (proj1 HG0) (proj1 HG1) E1),
        (combo_le _ _ _ _ _ P3 P2 (proj1 HG0) (proj1 HG1) E2); destruct Hs; subst s; lia.
    + set (Q := Z.quot G0 G1) in *. set (R := Z.rem G0 G1) in *.
      assert (HQR : G0 = G1 * Q + R) by (apply Z.quot_rem'; lia).
      assert (HR : 0 < R < G1).
      { pose proof (Z.rem_bound_pos G0 G1). unfold R in *. lia. }
      assert (HQ : 0 <= Q) by (unfold Q; apply Z.quot_pos; lia).
      (* the products do not wrap *)
      assert (E1' : (s * A0 + Q * (- s * A1)) * G1 + (- s * A1) * R = b)
        by (rewrite <- E1, HQR; ring).
      assert (E2' : (- s * B0 + Q * (s * B1)) * G1 + (s * B1) * R = a)
        by (rewrite <- E2, HQR; ring).
      assert (PA : 0 <= Q * (- s * A1)) by (apply Z.mul_nonneg_nonneg; lia).
      assert (PB : 0 <= Q * (s * B1)) by (apply Z.mul_nonneg_nonneg; lia).
      destruct (combo_le _ _ _ _ _ (Z.add_nonneg_nonneg _ _ P0 PA) P1 (proj1 HG1) (proj1 HR) E1') as [EA EA1].
      destruct (combo_le _ _ _ _ _ (Z.add_nonneg_nonneg _ _ P2 PB) P3 (proj1 HG1) (proj1 HR) E2') as [EB EB1].
      assert (WA : apMul Bits Q A1 = Q * A1).
      { unfold apMul. apply wr_id. clear - Hs PA P0 EA Ha Hb.
        destruct Hs as [-> | ->]; rewrite ?Z.mul_opp_l, ?Z.mul_1_l, ?Z.opp_involutive in *; lia. }
      assert (WB : apMul Bits Q B1 = Q * B1).
      { unfold apMul. apply wr_id. clear - Hs PB P2 EB Ha Hb.
        destruct Hs as [-> | ->]; rewrite ?Z.mul_opp_l, ?Z.mul_1_l, ?Z.opp_involutive in *; lia. }
      rewrite WA, WB.
      assert (VA : apSub Bits A0 (Q * A1) = A0 - Q * A1).
      { unfold apSub. apply wr_id. clear - Hs PA P0 EA Ha Hb.
        destruct Hs as [-> | ->]; rewrite ?Z.mul_opp_l, ?Z.mul_1_l, ?Z.opp_involutive in *; lia. }
      assert (VB : apSub Bits B0 (Q * B1) = B0 - Q * B1).
      { unfold apSub. apply wr_id. clear - Hs PB P2 EB Ha Hb.
        destruct Hs as [-> | ->]; rewrite ?Z.mul_opp_l, ?Z.mul_1_l, ?Z.opp_involutive in *; lia. }
      rewrite VA, VB.
      rewrite apQuot_id, apRem_id by lia.
      apply (IH (- s)).
      * clear -Hs. lia.
      * clear -P1. lia.
      * replace (- - s * (A0 - Q * A1)) with (s * A0 + Q * (- s * A1)) by ring. lia.
      * rewrite Z.opp_involutive. exact P3.
      * replace (- s * (B0 - Q * B1)) with (- s * B0 + Q * (s * B1)) by ring. lia.
      * rewrite <- E1'. ring.
      * rewrite <- E2'. ring.
      * exact D1.
      * replace R with (G0 - G1 * Q) by lia. rewrite <- D0, <- D1. ring.
      * lia.
      * lia.
      * rewrite <- Hg. rewrite (Z.gcd_comm G0 G1).
        replace R with (G0 mod G1).
        2:{ unfold R. rewrite Z.rem_mod_nonneg by lia. reflexivity. }
        rewrite (Z.gcd_comm G1 (G0 mod G1)), Z.gcd_mod by lia. reflexivity.
Qed.

(** Enough fuel: two steps halve the divisor. *)
Lemma gcdLoop_total n : forall fuel A0 A1 B0 B1 G0 G1,
  0 < G0 < H -> 0 < G1 < H -> Z.log2 G1 < Z.of_nat n ->
  (2 * n <= fuel)%nat ->
  gcdLoop Bits fuel A0 A1 B0 B1 G0 G1 (Z.quot G0 G1) (Z.rem G0 G1) <> None.
Proof.
  induction n as [|n IH]; intros fuel A0 A1 B0 B1 G0 G1 H0 H1 Hl Hf.
  - pose proof (Z.log2_nonneg G1). lia.
  - destruct fuel as [|[|fuel]]; try lia.
    cbn [gcdLoop]. destruct (Z.eqb_spec (Z.rem G0 G1) 0); [discriminate|].
    set (R := Z.rem G0 G1) in *.
    assert (HR : 0 < R < G1).
    { pose proof (Z.rem_bound_pos G0 G1). unfold R in *. lia. }
    rewrite apQuot_id, apRem_id by lia.
    destruct (Z.eqb_spec (Z.rem G1 R) 0); [discriminate|].
    set (R2 := Z.rem G1 R) in *.
    assert (HR2 : 0 < R2 < R).
    { pose proof (Z.rem_bound_pos G1 R). unfold R2 in *. lia. }
    rewrite apQuot_id, apRem_id by lia.
    apply IH; try lia.
    assert (2 * R2 <= G1).
    { assert (HQR : G1 = R * Z.quot G1 R + R2) by (apply Z.quot_rem'; lia).
      assert (0 <= Z.quot G1 R) by (apply Z.quot_pos; lia).
      destruct (Z.eq_dec (Z.quot G1 R) 0) as [Hz|Hz]; [rewrite Hz in HQR; lia|].
      assert (R * 1 <= R * Z.quot G1 R) by (apply Z.mul_le_mono_nonneg_l; lia). lia. }
    assert (Z.log2 (2 * R2) <= Z.log2 G1) by (apply Z.log2_le_mono; lia).
    rewrite Z.log2_double in * by lia. lia.
Qed.

(** The gcd part of the exact tests. *)
Lemma findGCD_ok AM BM Delta :
  AM <> 0 -> BM <> 0 ->
  (Z.abs AM + Z.abs BM) * (Z.abs Delta + 1) < H ->
  exists r, findGCD Bits AM BM Delta = Some r /\
  match r with
  | GcdDisproved => ~ (Z.gcd AM BM | Delta)
  | GcdSol G X Y => G = Z.gcd AM BM /\ AM * X - BM * Y = Delta /\
                    Z.abs X <= Z.abs BM * Z.abs Delta /\ Z.abs Y <= Z.abs AM * Z.abs Delta
  end.
Proof.
  intros HA HBM Hs. pose proof Hpos.
  assert (Hs' : Z.abs AM * Z.abs Delta + Z.abs BM * Z.abs Delta + Z.abs AM + Z.abs BM < H)
    by (rewrite Z.mul_add_distr_l, Z.mul_add_distr_r in Hs; lia).
  assert (N1 : 1 * Z.abs Delta <= Z.abs AM * Z.abs Delta) by (apply Z.mul_le_mono_nonneg_r; lia).
  assert (N2 : 1 * Z.abs Delta <= Z.abs BM * Z.abs Delta) by (apply Z.mul_le_mono_nonneg_r; lia).
  assert (Ra : 0 < Z.abs AM < H) by lia.
  assert (Rb : 0 < Z.abs BM < H) by lia.
  assert (Rd : - H < Delta < H) by lia.
  unfold findGCD. rewrite !apAbs_id by lia. rewrite apQuot_id, apRem_id by lia.
  destruct (gcdLoop Bits (gcdFuel BM) 1 0 0 1 (Z.abs AM) (Z.abs BM)
              (Z.quot (Z.abs AM) (Z.abs BM)) (Z.rem (Z.abs AM) (Z.abs BM))) as [r|] eqn:E.
  2:{ exfalso. revert E. apply (gcdLoop_total (Z.to_nat (Z.log2 (Z.abs BM)) + 1)); auto.
      - pose proof (Z.log2_nonneg (Z.abs BM)). lia.
      - unfold gcdFuel. lia. }
  pose proof (gcdLoop_ok (Z.abs AM) (Z.abs BM) (gcdFuel BM) Ra Rb 1 1 0 0 1 (Z.abs AM) (Z.abs BM)) as L.
  assert (L' := L (or_introl eq_refl) ltac:(lia) ltac:(lia) ltac:(lia) ltac:(lia)
     ltac:(lia) ltac:(lia) ltac:(lia) ltac:(lia) Ra Rb eq_refl r E). clear L.
  destruct r as [[A1 B1] G]. destruct L' as (HG & HX & BA & BB).
  rewrite Z.gcd_abs_l, Z.gcd_abs_r in HG.
  assert (HGpos : 0 < G).
  { rewrite HG. pose proof (Z.gcd_nonneg AM BM).
    assert (Z.gcd AM BM <> 0) by (intros Hc; apply Z.gcd_eq_0 in Hc; lia). lia. }
  rewrite apRem_id by lia.
  destruct (Z.eqb_spec (Z.rem Delta G) 0) as [Hr|Hr]; simpl.
  - eexists; split; [reflexivity|].
    rewrite apQuot_id by lia.
    set (Q := Z.quot Delta G).
    assert (HQ : Delta = G * Q) by (pose proof (Z.quot_rem' Delta G); unfold Q; lia).
    assert (HQa : Z.abs Q <= Z.abs Delta) by (apply quot_abs_le).
    assert (WX : (if AM <? 0 then apNeg Bits A1 else A1) = Z.sgn AM * A1).
    { destruct (Z.ltb_spec AM 0); [unfold apNeg; rewrite wr_id; lia|].
      replace (Z.sgn AM) with 1 by lia. lia. }
    assert (WY : (if BM <? 0 then B1 else apNeg Bits B1) = - (Z.sgn BM * B1)).
    { destruct (Z.ltb_spec BM 0).
      - replace (Z.sgn BM) with (-1) by lia. lia.
      - unfold apNeg. rewrite wr_id by lia. replace (Z.sgn BM) with 1 by lia. lia. }
    rewrite WX, WY.
    assert (AX : Z.abs (Z.sgn AM * A1 * Q) <= Z.abs BM * Z.abs Delta).
    { rewrite !Z.abs_mul. rewrite abs_sgn1 by exact HA.
      rewrite Z.mul_1_l. apply Z.mul_le_mono_nonneg; auto using Z.abs_nonneg. }
    assert (AY : Z.abs (- (Z.sgn BM * B1) * Q) <= Z.abs AM * Z.abs Delta).
    { rewrite Z.abs_mul, Z.abs_opp, Z.abs_mul. rewrite abs_sgn1 by exact HBM.
      rewrite Z.mul_1_l. apply Z.mul_le_mono_nonneg; auto using Z.abs_nonneg. }
    assert (MX : apMul Bits (Z.sgn AM * A1) Q = Z.sgn AM * A1 * Q)
      by (unfold apMul; apply wr_id; apply (abs_lt_range _ _ AX); clear - Hs' N1 N2; lia).
    assert (MY : apMul Bits (- (Z.sgn BM * B1)) Q = - (Z.sgn BM * B1) * Q)
      by (unfold apMul; apply wr_id; apply (abs_lt_range _ _ AY); clear - Hs' N1 N2; lia).
    rewrite MX, MY. repeat split; auto.
    rewrite HQ, <- HX.
    replace (AM * (Z.sgn AM * A1 * Q)) with (Z.abs AM * A1 * Q).
    2:{ rewrite <- Z.sgn_abs. ring. }
    replace (BM * (- (Z.sgn BM * B1) * Q)) with (- Z.abs BM * B1 * Q).
    2:{ rewrite <- Z.sgn_abs. ring. }
    ring.
  - eexists; split; [reflexivity|]. rewrite <- HG.
    intros Hd. apply Hr. apply Z.rem_divide; [lia|auto].
Qed.

(** Quotients rounded down and up. *)
Lemma quot_split A B : B <> 0 ->
  A = B * Z.quot A B + Z.rem A B /\ Z.abs (Z.rem A B) < Z.abs B /\ 0 <= Z.rem A B * A.
Proof.
  intros HBz. split; [apply Z.quot_rem'|split].
  - apply Z.rem_bound_abs; auto.
  - apply Z.rem_sign_mul; auto.
Qed.
Lemma floor_ok A B t : B <> 0 -> - H < A < H ->
  (0 < B -> B * t <= A -> t <= floorOfQuotient Bits A B) /\
  (B < 0 -> B * t >= A -> t <= floorOfQuotient Bits A B).
Proof.
  intros HBz HA. unfold floorOfQuotient. rewrite apQuot_id, apRem_id by auto.
  pose proof (quot_abs_le A B). pose proof Hpos.
  destruct (quot_split A B HBz) as (E & R1 & R2).
  set (q := Z.quot A B) in *. set (r := Z.rem A B) in *. clearbody q r.
  destruct (Z.eqb_spec r 0) as [Hr|Hr].
  - split; intros; nia.
  - destruct (((A >? 0) && (B >? 0)) || ((A <? 0) && (B <? 0))) eqn:S.
    + assert (S' : (0 < A /\ 0 < B) \/ (A < 0 /\ B < 0)) by lia.
      split; intros; nia.
    + assert (S' : (0 < A /\ B < 0) \/ (A < 0 /\ 0 < B)) by (assert (A <> 0) by nia; lia).
      assert (Hq : - H <= q - 1 < H) by (assert (Z.abs q < H) by lia; lia).
      unfold apSub. rewrite wr_id by lia.
      split; intros; nia.
Qed.
Lemma ceil_ok A B t : B <> 0 -> - H < A < H ->
  (0 < B -> B * t >= A -> ceilingOfQuotient Bits A B <= t) /\
  (B < 0 -> B * t <= A -> ceilingOfQuotient Bits A B <= t).
Proof.
  intros HBz HA. unfold ceilingOfQuotient. rewrite apQuot_id, apRem_id by auto.
  pose proof (quot_abs_le A B). pose proof Hpos.
  destruct (quot_split A B HBz) as (E & R1 & R2).
  set (q := Z.quot A B) in *. set (r := Z.rem A B) in *. clearbody q r.
  destruct (Z.eqb_spec r 0) as [Hr|Hr].
  - split; intros; nia.
  - destruct (((A >? 0) && (B >? 0)) || ((A <? 0) && (B <? 0))) eqn:S.
    + assert (S' : (0 < A /\ 0 < B) \/ (A < 0 /\ B < 0)) by lia.
      assert (Hq : q + 1 < H \/ H <= q + 1) by lia.
      unfold apAdd.
      destruct Hq as [Hq|Hq].
      * rewrite wr_id by lia. split; intros; nia.
      * exfalso. assert (Z.abs q = Z.abs A) by lia.
        assert (Z.abs B = 1) by nia. assert (r = 0) by lia. auto.
    + assert (S' : (0 < A /\ B < 0) \/ (A < 0 /\ 0 < B)) by (assert (A <> 0) by nia; lia).
      split; intros; nia.
Qed.

Definition within (T : Z * Z) (t : Z) := fst T <= t <= snd T.
Lemma within_mk a b t : a <= t -> t <= b -> within (a, b) t.
Proof. unfold within; simpl; auto. Qed.

Lemma narrow_ok TMUL V UM T t :
  TMUL <> 0 -> - H < - V < H ->
  (forall u, UM = Some u -> - H < u - V < H) ->
  within T t -> 0 <= V + TMUL * t ->
  (forall u, UM = Some u -> V + TMUL * t <= u) ->
  within (narrow Bits TMUL V UM T) t.
Proof.
  intros Hz HV HU HT H0 HuB. destruct T as [TL TU]. destruct HT as [T1 T2]. simpl in T1, T2.
  unfold narrow, apNeg, apSub, maxAPInt, minAPInt.
  rewrite (wr_id (- V)) by lia.
  destruct (floor_ok (- V) TMUL t Hz HV) as [F1 F2].
  destruct (ceil_ok (- V) TMUL t Hz HV) as [C1 C2].
  destruct (Z.gtb_spec TMUL 0).
  - assert (C : ceilingOfQuotient Bits (- V) TMUL <= t) by (apply C1; lia).
    destruct UM as [u|].
    + specialize (HU u eq_refl). specialize (HuB u eq_refl).
      rewrite (wr_id (u - V)) by lia.
      destruct (floor_ok (u - V) TMUL t Hz HU) as [F3 F4].
      assert (F : t <= floorOfQuotient Bits (u - V) TMUL) by (apply F3; lia).
      apply within_mk; [destruct (TL >? _)|destruct (TU <? _)]; auto.
    + apply within_mk; auto. destruct (TL >? _); auto.
  - assert (F : t <= floorOfQuotient Bits (- V) TMUL) by (apply F2; lia).
    destruct UM as [u|].
    + specialize (HU u eq_refl). specialize (HuB u eq_refl).
      rewrite (wr_id (u - V)) by lia.
      destruct (ceil_ok (u - V) TMUL t Hz HU) as [C3 C4].
      assert (C : ceilingOfQuotient Bits (u - V) TMUL <= t) by (apply C4; lia).
      apply within_mk; [destruct (TL >? _)|destruct (TU <? _)]; auto.
    + apply within_mk; auto. destruct (TU <? _); auto.
Qed.

Lemma atLeast_ok TMUL V T t :
  TMUL <> 0 -> - H < V < H -> within T t -> TMUL * t >= V ->
  within (atLeast Bits TMUL V T) t.
Proof.
  intros Hz HV HT Hge. destruct T as [TL TU]. destruct HT as [T1 T2]. simpl in T1, T2.
  unfold atLeast, maxAPInt, minAPInt.
  destruct (Z.gtb_spec TMUL 0).
  - destruct (ceil_ok V TMUL t Hz HV) as [C _].
    apply within_mk; auto. destruct (TL >? _); auto. 
  - destruct (floor_ok V TMUL t Hz HV) as [_ F].
    apply within_mk; auto. destruct (TU <? _); auto. apply F; lia.
Qed.
Lemma within_nonEmpty T t : within T t -> nonEmpty T = true.
Proof. unfold within, nonEmpty. lia. Qed.

(** Every solution of AM*i - BM*j = Delta lies on the line found by findGCD. *)
Lemma solution_line AM BM Delta G X Y i j :
  AM <> 0 -> BM <> 0 -> G = Z.gcd AM BM ->
  AM * X - BM * Y = Delta -> AM * i - BM * j = Delta ->
  exists t, i = X + Z.quot BM G * t /\ j = Y + Z.quot AM G * t.
Proof.
  intros HA HBM HG E1 E2.
  assert (HGp : 0 < G).
  { rewrite HG. pose proof (Z.gcd_nonneg AM BM).
    assert (Z.gcd AM BM <> 0) by (intros Hc; apply Z.gcd_eq_0 in Hc; lia). lia. }
  destruct (Z.gcd_divide_l AM BM) as [a Ha]. destruct (Z.gcd_divide_r AM BM) as [b Hb].
  rewrite <- HG in Ha, Hb.
  assert (Qa : Z.quot AM G = a) by (rewrite Ha; apply Z.quot_mul; lia).
  assert (Qb : Z.quot BM G = b) by (rewrite Hb; apply Z.quot_mul; lia).
  rewrite Qa, Qb.
  assert (Hco : Z.gcd a b = 1).
  { rewrite <- (Z.div_mul a G), <- (Z.div_mul b G), <- Ha, <- Hb by lia.
    apply Z.gcd_div_gcd; auto; lia. }
  assert (Heq : a * (i - X) = b * (j - Y)).
  { assert (Hm : G * (a * (i - X)) = G * (b * (j - Y))).
    { replace (G * (a * (i - X))) with (a * G * i - a * G * X) by ring.
      replace (G * (b * (j - Y))) with (b * G * j - b * G * Y) by ring.
      rewrite <- Ha, <- Hb. lia. }
    apply Z.mul_reg_l in Hm; [exact Hm|lia]. }
  assert (Hd : (b | i - X)).
  { apply (Z.gauss b a); [exists (j - Y); lia|rewrite Z.gcd_comm; exact Hco]. }
  destruct Hd as [t Ht]. exists t. split; [lia|].
  assert (b <> 0) by (intros ->; lia).
  rewrite Ht in Heq.
  assert (Hm : b * (a * t) = b * (j - Y)) by lia.
  apply Z.mul_reg_l in Hm; [lia|auto].
Qed.

Definition sizeOk (AM BM Delta m : Z) : Prop :=
  (Z.abs AM + Z.abs BM) * (Z.abs Delta + 1) + m + 1 < H.

Lemma abs_sum_le x y : Z.abs (x - y) <= Z.abs x + Z.abs y.
Proof. lia. Qed.

Lemma exact_range AM BM Delta m :
  AM <> 0 -> BM <> 0 -> 0 <= m -> sizeOk AM BM Delta m ->
  forall X Y, Z.abs X <= Z.abs BM * Z.abs Delta -> Z.abs Y <= Z.abs AM * Z.abs Delta ->
  Z.abs X + Z.abs Y + Z.abs AM + Z.abs BM + m + 1 < H.
Proof.
  unfold sizeOk. intros HA HBM Hm Hs X Y HX HY.
  rewrite Z.mul_add_distr_l, Z.mul_add_distr_r in Hs. lia.
Qed.

Lemma range_abs q p : Z.abs q <= p -> q <> 0 -> 1 <= Z.abs q.
Proof. lia. Qed.

Lemma quot_nonzero a g : a <> 0 -> (g | a) -> Z.quot a g <> 0.
Proof.
  intros Ha [k Hk]. destruct (Z.eq_dec g 0) as [->|]; [lia|].
  rewrite Hk, Z.quot_mul by auto. intros ->. lia.
Qed.

(** Common part of the two exact tests: the feasible interval keeps the
    parameter of every conflicting pair. *)
Lemma exact_interval AM BM Delta U1 U2 m i j G X Y :
  AM <> 0 -> BM <> 0 -> 0 <= m -> sizeOk AM BM Delta m ->
  inLoopC U1 i -> inLoopC U2 j -> i <= m -> j <= m ->
  (forall u, U1 = Some u -> u <= m) -> (forall u, U2 = Some u -> u <= m) ->
  AM * i - BM * j = Delta ->
  G = Z.gcd AM BM -> AM * X - BM * Y = Delta ->
  Z.abs X <= Z.abs BM * Z.abs Delta -> Z.abs Y <= Z.abs AM * Z.abs Delta ->
  exists t, i = X + Z.quot BM G * t /\ j = Y + Z.quot AM G * t /\
   within (narrow Bits (apQuot Bits AM G) Y U2
            (narrow Bits (apQuot Bits BM G) X U1 (apMin Bits, apMax Bits))) t.
Proof.
  intros HA HBM Hm Hs Hi Hj Him Hjm HU1 HU2 Heq HG HXY AX AY.
  pose proof (exact_range _ _ _ _ HA HBM Hm Hs X Y AX AY) as Hr.
  destruct (solution_line AM BM Delta G X Y i j HA HBM HG HXY Heq) as (t & Et1 & Et2).
  exists t. split; [exact Et1|split; [exact Et2|]].
  destruct Hi as [Hi0 HiU], Hj as [Hj0 HjU].
  rewrite !apQuot_id by lia.
  assert (Nb : Z.quot BM G <> 0) by (apply quot_nonzero; auto; rewrite HG; apply Z.gcd_divide_r).
  assert (Na : Z.quot AM G <> 0) by (apply quot_nonzero; auto; rewrite HG; apply Z.gcd_divide_l).
  assert (Ht : Z.abs t <= Z.abs X + i).
  { assert (Hp : Z.abs (Z.quot BM G * t) <= Z.abs X + i) by lia.
    rewrite Z.abs_mul in Hp.
    assert (1 * Z.abs t <= Z.abs (Z.quot BM G) * Z.abs t)
      by (apply Z.mul_le_mono_nonneg_r; lia). lia. }
  apply narrow_ok; auto; try lia.
  - intros u Hu. assert (0 <= u) by (subst U2; lia). pose proof (HU2 u Hu). lia.
  - apply narrow_ok; auto; try lia.
    + intros u Hu. assert (0 <= u) by (subst U1; lia). pose proof (HU1 u Hu). lia.
    + unfold within, apMin, apMax. fold H. simpl. lia.
    + intros u Hu. subst U1. lia.
  - intros u Hu. subst U2. lia.
Qed.

Lemma exactRDIV_ok AM BM Delta U1 U2 m i j :
  AM <> 0 -> BM <> 0 -> sizeOk AM BM Delta m ->
  inLoopC U1 i -> inLoopC U2 j -> i <= m -> j <= m ->
  (forall u, U1 = Some u -> u <= m) -> (forall u, U2 = Some u -> u <= m) ->
  AM * i - BM * j = Delta ->
  exactRDIV Bits AM BM Delta U1 U2 = Some false.
Proof.
  intros HA HBM Hs Hi Hj Him Hjm HU1 HU2 Heq.
  assert (Hm : 0 <= m) by (destruct Hi; lia).
  unfold exactRDIV.
  destruct (findGCD_ok AM BM Delta HA HBM) as (r & -> & Hr); [unfold sizeOk in Hs; lia|].
  destruct r as [|G X Y].
  - exfalso. apply Hr. rewrite <- Heq.
    apply Z.divide_sub_r; apply Z.divide_mul_l; [apply Z.gcd_divide_l|apply Z.gcd_divide_r].
  - destruct Hr as (HG & HXY & AX & AY).
    destruct (exact_interval AM BM Delta U1 U2 m i j G X Y) as (t & _ & _ & Ht); auto.
    unfold within in Ht. f_equal.
    destruct (narrow _ _ _ U2 _) as [TL TU]. simpl in *. lia.
Qed.

(** The exact SIV test never claims independence of a conflicting pair at its
    early exits. *)
Lemma exactSIV_dep AM BM Delta UM m i i' :
  AM <> 0 -> BM <> 0 -> sizeOk AM BM Delta m ->
  inLoopC UM i -> inLoopC UM i' -> i <= m -> i' <= m ->
  (forall u, UM = Some u -> u <= m) ->
  AM * i - BM * i' = Delta ->
  exists d, exactSIV Bits AM BM Delta UM = Some (SivDirs d).
Proof.
  intros HA HBM Hs Hi Hj Him Hjm HU Heq.
  assert (Hm : 0 <= m) by (destruct Hi; lia).
  unfold exactSIV.
  destruct (findGCD_ok AM BM Delta HA HBM) as (r & -> & Hr); [unfold sizeOk in Hs; lia|].
  destruct r as [|G X Y].
  - exfalso. apply Hr. rewrite <- Heq.
    apply Z.divide_sub_r; apply Z.divide_mul_l; [apply Z.gcd_divide_l|apply Z.gcd_divide_r].
  - destruct Hr as (HG & HXY & AX & AY).
    destruct (exact_interval AM BM Delta UM UM m i i' G X Y) as (t & E1 & E2 & Ht); auto.
    cbn zeta. unfold within in Ht.
    destruct (fst _ >? snd _) eqn:Eg; [exfalso; lia|]. eauto.
Qed.

Lemma exactSIV_dirs AM BM Delta UM m i i' d :
  AM <> 0 -> BM <> 0 -> AM <> BM -> sizeOk AM BM Delta m ->
  inLoopC UM i -> inLoopC UM i' -> i <= m -> i' <= m ->
  (forall u, UM = Some u -> u <= m) ->
  AM * i - BM * i' = Delta ->
  exactSIV Bits AM BM Delta UM = Some (SivDirs d) ->
  dempty d = false /\ (Z.gcd AM BM = 1 -> dirAdmits d i i').
Proof.
  intros HA HBM Hne Hs Hi Hj Him Hjm HU Heq.
  assert (Hm : 0 <= m) by (destruct Hi; lia).
  unfold exactSIV.
  destruct (findGCD_ok AM BM Delta HA HBM) as (r & -> & Hr); [unfold sizeOk in Hs; lia|].
  destruct r as [|G X Y]; [discriminate|].
  destruct Hr as (HG & HXY & AX & AY).
  pose proof (exact_range _ _ _ _ HA HBM Hm Hs X Y AX AY) as Hr.
  destruct (exact_interval AM BM Delta UM UM m i i' G X Y) as (t & E1 & E2 & Ht); auto.
  cbn zeta. set (T2 := narrow _ _ _ _ _) in *. clearbody T2.
  destruct (fst T2 >? snd T2) eqn:Eg; [discriminate|].
  intros Ed. injection Ed as <-.
  unfold apSub, apAdd.
  rewrite ?(wr_id (X - Y)), ?(wr_id (Y - X)), ?(wr_id (AM - BM)), ?(wr_id (BM - AM)) by lia.
  rewrite ?(wr_id (X - Y + 1)), ?(wr_id (Y - X + 1)) by lia.
  assert (L1 : (AM - BM) * t >= X - Y + 1 -> nonEmpty (atLeast Bits (AM - BM) (X - Y + 1) T2) = true).
  { intros. apply within_nonEmpty with t. apply atLeast_ok; auto; lia. }
  assert (L2 : (AM - BM) * t = X - Y ->
     nonEmpty (atLeast Bits (BM - AM) (Y - X) (atLeast Bits (AM - BM) (X - Y) T2)) = true).
  { intros. apply within_nonEmpty with t. apply atLeast_ok; try lia.
    apply atLeast_ok; auto; lia. }
  assert (L3 : (AM - BM) * t <= X - Y - 1 -> nonEmpty (atLeast Bits (BM - AM) (Y - X + 1) T2) = true).
  { intros. apply within_nonEmpty with t. apply atLeast_ok; auto; lia. }
  split.
  - unfold dempty. simpl.
    assert (Hc : (AM - BM) * t >= X - Y + 1 \/ (AM - BM) * t = X - Y \/ (AM - BM) * t <= X - Y - 1) by lia.
    destruct Hc as [Hc|[Hc|Hc]].
    + rewrite (L1 Hc). reflexivity.
    + rewrite (L2 Hc). rewrite orb_true_r. reflexivity.
    + rewrite (L3 Hc). rewrite !orb_true_r. reflexivity.
  - intros HG1. rewrite HG1 in HG. subst G. rewrite !Z.quot_1_r in *.
    repeat split; simpl; intros; [apply L1|apply L2|apply L3]; lia.
Qed.

(** The converse: the feasible interval contains parameters of conflicting
    pairs only. *)
Lemma floor_conv A B t : B <> 0 -> - H < A < H -> t <= floorOfQuotient Bits A B ->
  (0 < B -> B * t <= A) /\ (B < 0 -> B * t >= A).
Proof.
  intros HBz HA. unfold floorOfQuotient. rewrite apQuot_id, apRem_id by auto.
  pose proof (quot_abs_le A B). pose proof Hpos.
  destruct (quot_split A B HBz) as (E & R1 & R2).
  set (q := Z.quot A B) in *. set (r := Z.rem A B) in *. clearbody q r.
  destruct (Z.eqb_spec r 0) as [Hr|Hr].
  - split; intros; nia.
  - destruct (((A >? 0) && (B >? 0)) || ((A <? 0) && (B <? 0))) eqn:S.
    + assert (S' : (0 < A /\ 0 < B) \/ (A < 0 /\ B < 0)) by lia.
      split; intros; nia.
    + assert (S' : (0 < A /\ B < 0) \/ (A < 0 /\ 0 < B)) by (assert (A <> 0) by nia; lia).
      assert (Hq : - H <= q - 1 < H) by (assert (Z.abs q < H) by lia; lia).
      unfold apSub. rewrite wr_id by lia.
      split; intros; nia.
Qed.
Lemma ceil_conv A B t : B <> 0 -> - H < A < H -> ceilingOfQuotient Bits A B <= t ->
  (0 < B -> B * t >= A) /\ (B < 0 -> B * t <= A).
Proof.
  intros HBz HA. unfold ceilingOfQuotient. rewrite apQuot_id, apRem_id by auto.
  pose proof (quot_abs_le A B). pose proof Hpos.
  destruct (quot_split A B HBz) as (E & R1 & R2).
  set (q := Z.quot A B) in *. set (r := Z.rem A B) in *. clearbody q r.
  destruct (Z.eqb_spec r 0) as [Hr|Hr].
  - split; intros; nia.
  - destruct (((A >? 0) && (B >? 0)) || ((A <? 0) && (B <? 0))) eqn:S.
    + assert (S' : (0 < A /\ 0 < B) \/ (A < 0 /\ B < 0)) by lia.
      assert (Hq : q + 1 < H \/ H <= q + 1) by lia.
      unfold apAdd.
      destruct Hq as [Hq|Hq].
      * rewrite wr_id by lia. split; intros; nia.
      * exfalso. assert (Z.abs q = Z.abs A) by lia.
        assert (Z.abs B = 1) by nia. assert (r = 0) by lia. auto.
    + assert (S' : (0 < A /\ B < 0) \/ (A < 0 /\ 0 < B)) by (assert (A <> 0) by nia; lia).
      split; intros; nia.
Qed.
Lemma narrow_conv TMUL V u T t :
  TMUL <> 0 -> - H < - V < H -> - H < u - V < H ->
  within (narrow Bits TMUL V (Some u) T) t ->
  within T t /\ 0 <= V + TMUL * t <= u.
Proof.
  intros Hz HV HU. destruct T as [TL TU].
  unfold narrow, apNeg, apSub, maxAPInt, minAPInt, within.
  rewrite (wr_id (- V)), (wr_id (u - V)) by lia.
  destruct (Z.gtb_spec TMUL 0); simpl.
  - intros [A B].
    assert (A1 : TL <= t /\ ceilingOfQuotient Bits (- V) TMUL <= t)
      by (destruct (Z.gtb_spec TL (ceilingOfQuotient Bits (- V) TMUL)); lia).
    assert (B1 : t <= TU /\ t <= floorOfQuotient Bits (u - V) TMUL)
      by (destruct (Z.ltb_spec TU (floorOfQuotient Bits (u - V) TMUL)); lia).
    destruct A1 as [A1 A2], B1 as [B1 B2].
    destruct (ceil_conv _ _ _ Hz HV A2) as [C _]. destruct (floor_conv _ _ _ Hz HU B2) as [F _].
    split; [lia|]. specialize (C ltac:(lia)). specialize (F ltac:(lia)). lia.
  - intros [A B].
    assert (A1 : TL <= t /\ ceilingOfQuotient Bits (u - V) TMUL <= t)
      by (destruct (Z.gtb_spec TL (ceilingOfQuotient Bits (u - V) TMUL)); lia).
    assert (B1 : t <= TU /\ t <= floorOfQuotient Bits (- V) TMUL)
      by (destruct (Z.ltb_spec TU (floorOfQuotient Bits (- V) TMUL)); lia).
    destruct A1 as [A1 A2], B1 as [B1 B2].
    destruct (ceil_conv _ _ _ Hz HU A2) as [_ C]. destruct (floor_conv _ _ _ Hz HV B2) as [_ F].
    split; [lia|]. specialize (C ltac:(lia)). specialize (F ltac:(lia)). lia.
Qed.
Lemma line_solution AM BM Delta G X Y t :
  G = Z.gcd AM BM -> AM <> 0 -> AM * X - BM * Y = Delta ->
  AM * (X + Z.quot BM G * t) - BM * (Y + Z.quot AM G * t) = Delta.
Proof.
  intros HG HA E.
  assert (HGp : 0 < G).
  { rewrite HG. pose proof (Z.gcd_nonneg AM BM).
    assert (Z.gcd AM BM <> 0) by (intros Hc; apply Z.gcd_eq_0 in Hc; lia). lia. }
  destruct (Z.gcd_divide_l AM BM) as [a Ha]. destruct (Z.gcd_divide_r AM BM) as [b Hb].
  rewrite <- HG in Ha, Hb.
  assert (Qa : Z.quot AM G = a) by (rewrite Ha; apply Z.quot_mul; lia).
  assert (Qb : Z.quot BM G = b) by (rewrite Hb; apply Z.quot_mul; lia).
  rewrite Qa, Qb. rewrite <- E. rewrite Ha, Hb. ring.
Qed.
Lemma interval_conv AM BM Delta u1 u2 m G X Y t :
  AM <> 0 -> BM <> 0 -> 0 <= u1 <= m -> 0 <= u2 <= m -> sizeOk AM BM Delta m ->
  G = Z.gcd AM BM -> AM * X - BM * Y = Delta ->
  Z.abs X <= Z.abs BM * Z.abs Delta -> Z.abs Y <= Z.abs AM * Z.abs Delta ->
  within (narrow Bits (apQuot Bits AM G) Y (Some u2)
            (narrow Bits (apQuot Bits BM G) X (Some u1) (apMin Bits, apMax Bits))) t ->
  exists i j, 0 <= i <= u1 /\ 0 <= j <= u2 /\ AM * i - BM * j = Delta.
Proof.
  intros HA HBM H1 H2 Hs HG HXY AX AY.
  assert (Hm : 0 <= m) by lia.
  pose proof (exact_range _ _ _ _ HA HBM Hm Hs X Y AX AY) as Hr.
  rewrite !apQuot_id by lia. intros Ht.
  assert (Nb : Z.quot BM G <> 0) by (apply quot_nonzero; auto; rewrite HG; apply Z.gcd_divide_r).
  assert (Na : Z.quot AM G <> 0) by (apply quot_nonzero; auto; rewrite HG; apply Z.gcd_divide_l).
  apply narrow_conv in Ht; [|exact Na|lia|lia]. destruct Ht as [Ht Hj].
  apply narrow_conv in Ht; [|exact Nb|lia|lia]. destruct Ht as [_ Hi].
  exists (X + Z.quot BM G * t), (Y + Z.quot AM G * t).
  split; [exact Hi|split; [exact Hj|]]. apply line_solution; auto.
Qed.
Lemma exactRDIV_exact AM BM Delta u1 u2 m :
  AM <> 0 -> BM <> 0 -> 0 <= u1 <= m -> 0 <= u2 <= m -> sizeOk AM BM Delta m ->
  exists b, exactRDIV Bits AM BM Delta (Some u1) (Some u2) = Some b /\
   (b = false <-> exists i j, 0 <= i <= u1 /\ 0 <= j <= u2 /\ AM * i - BM * j = Delta).
Proof.
  intros HA HBM H1 H2 Hs.
  destruct (exactRDIV Bits AM BM Delta (Some u1) (Some u2)) as [b|] eqn:E.
  2:{ exfalso. revert E. unfold exactRDIV.
      destruct (findGCD_ok AM BM Delta HA HBM) as (r & -> & _); [unfold sizeOk in Hs; lia|].
      destruct r; discriminate. }
  exists b. split; [reflexivity|]. split.
  - intros ->. revert E. unfold exactRDIV.
    destruct (findGCD_ok AM BM Delta HA HBM) as (r & -> & Hr); [unfold sizeOk in Hs; lia|].
    destruct r as [|G X Y]; [discriminate|]. destruct Hr as (HG & HXY & AX & AY).
    intros E. injection E as E.
    set (T2 := narrow _ _ _ (Some u2) _) in *.
    apply (interval_conv AM BM Delta u1 u2 m G X Y (fst T2)); auto.
    fold T2. unfold within. rewrite Z.gtb_ltb in E. apply Z.ltb_ge in E. split; [apply Z.le_refl|exact E].
  - intros (i & j & Hi & Hj & Heq).
    assert (K : exactRDIV Bits AM BM Delta (Some u1) (Some u2) = Some false).
    { apply (exactRDIV_ok AM BM Delta (Some u1) (Some u2) m i j); auto;
        try (intros u Hu; injection Hu as <-; lia);
        first [unfold inLoopC; lia|lia]. }
    congruence.
Qed.
Lemma exactSIV_exact AM BM Delta u m :
  AM <> 0 -> BM <> 0 -> 0 <= u <= m -> sizeOk AM BM Delta m ->
  exists r, exactSIV Bits AM BM Delta (Some u) = Some r /\
   (r = SivIndep <-> ~ exists i i', 0 <= i <= u /\ 0 <= i' <= u /\ AM * i - BM * i' = Delta).
Proof.
  intros HA HBM H1 Hs.
  destruct (exactSIV Bits AM BM Delta (Some u)) as [r|] eqn:E.
  2:{ exfalso. revert E. unfold exactSIV.
      destruct (findGCD_ok AM BM Delta HA HBM) as (r & -> & _); [unfold sizeOk in Hs; lia|].
      destruct r; [discriminate|]. cbn zeta. destruct (_ >? _); discriminate. }
  exists r. split; [reflexivity|]. split.
  - intros -> (i & i' & Hi & Hi' & Heq).
    destruct (exactSIV_dep AM BM Delta (Some u) m i i') as [d Hd]; auto; try (unfold inLoopC; lia); try lia.
    + intros v Hv; injection Hv as <-; lia.
    + congruence.
  - intros Hno. destruct r as [|d]; [reflexivity|]. exfalso. apply Hno. clear Hno.
    revert E. unfold exactSIV.
    destruct (findGCD_ok AM BM Delta HA HBM) as (r & -> & Hr); [unfold sizeOk in Hs; lia|].
    destruct r as [|G X Y]; [discriminate|]. destruct Hr as (HG & HXY & AX & AY).
    cbn zeta. set (T2 := narrow _ _ _ _ (narrow _ _ _ _ _)).
    destruct (fst T2 >? snd T2) eqn:Eg; [discriminate|]. intros _.
    apply (interval_conv AM BM Delta u u m G X Y (fst T2)); auto.
    fold T2. unfold within. rewrite Z.gtb_ltb in Eg. apply Z.ltb_ge in Eg. split; [apply Z.le_refl|exact Eg].
Qed.
End P.
