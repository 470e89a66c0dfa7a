(** Properties C26-C30: the single-subscript dependence tests.
    Vocabulary: DepSpec.v.  A source access in iteration i and a destination
    access in iteration i' conflict if their subscripts are equal. *)
From Coq Require Import ZArith Bool List Lia.
From Verif Require Import DepModel DepSpec DepOracle DepProof DepExactProof.
Import ListNotations.
Open Scope Z_scope.

(** ** C26: strong SIV.  Subscripts SrcConst + Coeff*i and DstConst + Coeff*i'.
    Missing for the full statement: coefficients whose sign is not known to
    ScalarEvolution and coefficients that may be zero (refuted below). *)
Theorem C26_strong_siv_partial :
  forall (Env : Type) (O : oracle Env), soundOracle O ->
  forall Coeff SrcConst DstConst UB dv e i i',
  (seNonNeg _ O Coeff = true \/ forall e, Coeff e <= 0) -> Coeff e <> 0 ->
  inLoop UB e i -> inLoop UB e i' ->
  SrcConst e + Coeff e * i = DstConst e + Coeff e * i' ->
  dirAdmits (dvDir _ dv) i i' ->
  answerOk dv (strongSIV _ O Coeff SrcConst DstConst UB dv) e i i'.
Proof. intros Env O HO. exact (strongSIV_ok O HO). Qed.
Print Assumptions C26_strong_siv_partial.

(** A[2i+n] against A[2i] with symbolic n in {4, 6}, bound 10. *)
Definition symN (e : bool) : Z := if e then 4 else 6.
Example C26_nonvacuous :
  seNonNeg _ boolOracle (scC bool 2) = true /\
  inLoop (Some (scC bool 10)) true 3 /\ inLoop (Some (scC bool 10)) true 5 /\
  symN true + 2 * 3 = 0 + 2 * 5 /\
  dvDir _ (tDV _ (strongSIV _ boolOracle (scC bool 2) symN (scC bool 0)
                    (Some (scC bool 10)) (dvInit _))) = dLTonly.
Proof. unfold inLoop. repeat split; try lia; vm_compute; auto; discriminate. Qed.

(** A distance that does not fit into the loop is refused, a distance that
    fits is reported exactly. *)
Example C26_examples :
  tIndep _ (strongSIV _ boolOracle (scC bool 1) (scC bool 11) (scC bool 0)
              (Some (scC bool 10)) (dvInit _)) = true /\
  tIndep _ (strongSIV _ boolOracle (scC bool 1) (scC bool 10) (scC bool 0)
              (Some (scC bool 10)) (dvInit _)) = false /\
  option_map (fun D => D true) (dvDist _ (tDV _ (strongSIV _ boolOracle (scC bool 2)
     (scC bool 10) (scC bool 0) (Some (scC bool 10)) (dvInit _)))) = Some 5.
Proof. repeat split. Qed.

(** The coefficient is 5 or -1: the test says 'independent' although
    iterations 0 and 10 access the same element. *)
Theorem C26_strong_siv_unknown_sign_refuted :
  exists (O : oracle bool) (Coeff SrcConst DstConst : scev bool)
      (UB : option (scev bool)) (e : bool) (i i' : Z),
    soundOracle O /\ (forall e, Coeff e <> 0) /\
    inLoop UB e i /\ inLoop UB e i' /\
    SrcConst e + Coeff e * i = DstConst e + Coeff e * i' /\
    tIndep _ (strongSIV _ O Coeff SrcConst DstConst UB (dvInit _)) = true.
Proof.
  exists boolOracle, (fun b : bool => if b then 5 else -1), (scC bool 50), (scC bool 0),
    (Some (scC bool 10)), true, 0, 10.
  split; [exact boolOracle_sound|]. split; [intros []; discriminate|]. unfold inLoop.
  repeat split; try lia; vm_compute; auto; try discriminate.
Qed.
Print Assumptions C26_strong_siv_unknown_sign_refuted.

(** The coefficient is 1 or 0: only '=' is reported although in the second
    case all iterations access one element. *)
Theorem C26_strong_siv_zero_coeff_refuted :
  exists (O : oracle bool) (Coeff SrcConst DstConst : scev bool)
      (UB : option (scev bool)) (e : bool) (i i' : Z),
    soundOracle O /\ seNonNeg _ O Coeff = true /\
    inLoop UB e i /\ inLoop UB e i' /\
    SrcConst e + Coeff e * i = DstConst e + Coeff e * i' /\
    ~ dirAdmits (dvDir _ (tDV _ (strongSIV _ O Coeff SrcConst DstConst UB (dvInit _)))) i i'.
Proof.
  exists boolOracle, (fun b : bool => if b then 1 else 0), (scC bool 0), (scC bool 0),
    (Some (scC bool 10)), false, 0, 10.
  split; [exact boolOracle_sound|]. unfold inLoop.
  repeat split; try lia; try (vm_compute; congruence).
  intros (A & _ & _). vm_compute in A. specialize (A eq_refl). discriminate.
Qed.
Print Assumptions C26_strong_siv_zero_coeff_refuted.

(** The same for subscripts without a loop index: 'independent' is right. *)
Theorem C26_ziv :
  forall (Env : Type) (O : oracle Env), soundOracle O ->
  forall Src Dst e, Src e = Dst e -> testZIV _ O Src Dst = false.
Proof. intros Env O HO. exact (testZIV_ok O HO). Qed.
Print Assumptions C26_ziv.
Example C26_ziv_example :
  testZIV _ boolOracle symN (scC bool 5) = true /\ testZIV _ boolOracle symN (scC bool 4) = false.
Proof. split; reflexivity. Qed.

(** ** C27: weak-crossing SIV.  Subscripts SrcConst + Coeff*i and
    DstConst - Coeff*i'.  Missing: coefficients that may be zero. *)
Theorem C27_weak_crossing_partial :
  forall (Env : Type) (O : oracle Env), soundOracle O ->
  forall Coeff SrcConst DstConst UB dv e i i',
  Coeff e <> 0 -> inLoop UB e i -> inLoop UB e i' ->
  SrcConst e + Coeff e * i = DstConst e - Coeff e * i' ->
  dirAdmits (dvDir _ dv) i i' ->
  answerOk dv (weakCrossingSIV _ O Coeff SrcConst DstConst UB dv) e i i'.
Proof. intros Env O HO. exact (weakCrossingSIV_ok O HO). Qed.
Print Assumptions C27_weak_crossing_partial.

(** Splitting at the reported iteration S (first part: iterations up to S,
    second part: after S) leaves no conflict of distinct iterations in a part. *)
Theorem C27_split_partial :
  forall (Env : Type) (O : oracle Env), soundOracle O ->
  forall Coeff SrcConst DstConst UB dv e i i' S,
  Coeff e <> 0 -> 0 <= i -> 0 <= i' ->
  SrcConst e + Coeff e * i = DstConst e - Coeff e * i' ->
  tSplit _ (weakCrossingSIV _ O Coeff SrcConst DstConst UB dv) = Some S ->
  (i <= S e -> i' <= S e -> i = i') /\ (S e < i -> S e < i' -> False).
Proof. intros Env O HO. exact (weakCrossing_split_ok O HO). Qed.
Print Assumptions C27_split_partial.

(** A[i] against A[7-i], bound 7: split at 3, '=' removed. *)
Example C27_nonvacuous :
  let r := weakCrossingSIV _ boolOracle (scC bool 1) (scC bool 0) (scC bool 7)
             (Some (scC bool 7)) (dvInit _) in
  0 + 1 * 2 = 7 - 1 * 5 /\ tIndep _ r = false /\ dvDir _ (tDV _ r) = dNE /\
  option_map (fun S => S true) (tSplit _ r) = Some 3.
Proof. repeat split. Qed.

Theorem C27_weak_crossing_zero_coeff_refuted :
  exists (O : oracle bool) (Coeff SrcConst DstConst : scev bool)
      (UB : option (scev bool)) (e : bool) (i i' : Z),
    soundOracle O /\ inLoop UB e i /\ inLoop UB e i' /\
    SrcConst e + Coeff e * i = DstConst e - Coeff e * i' /\
    ~ dirAdmits (dvDir _ (tDV _ (weakCrossingSIV _ O Coeff SrcConst DstConst UB (dvInit _)))) i i'.
Proof.
  exists boolOracle, (fun b : bool => if b then 1 else 0), (scC bool 0), (scC bool 0),
    (Some (scC bool 10)), false, 0, 10.
  split; [exact boolOracle_sound|]. unfold inLoop.
  repeat split; try lia; try (vm_compute; congruence).
  intros (A & _ & _). vm_compute in A. specialize (A eq_refl). discriminate.
Qed.
Print Assumptions C27_weak_crossing_zero_coeff_refuted.

(** ** C28: exact SIV.  Subscripts with AM*i - BM*i' = Delta; [Bits] is the
    width of the numbers.  The size premise excludes wrap-around. *)
Theorem C28_exact_siv_independent_partial :
  forall Bits, 2 <= Bits ->
  forall AM BM Delta UM m i i',
  AM <> 0 -> BM <> 0 ->
  (Z.abs AM + Z.abs BM) * (Z.abs Delta + 1) + m + 1 < 2 ^ (Bits - 1) ->
  inLoopC UM i -> inLoopC UM i' -> i <= m -> i' <= m ->
  (forall u, UM = Some u -> u <= m) ->
  AM * i - BM * i' = Delta ->
  exists d, exactSIV Bits AM BM Delta UM = Some (SivDirs d).
Proof. exact exactSIV_dep. Qed.
Print Assumptions C28_exact_siv_independent_partial.

(** Directions are complete if the coefficients are coprime. *)
Theorem C28_exact_siv_directions_partial :
  forall Bits, 2 <= Bits ->
  forall AM BM Delta UM m i i' d,
  AM <> 0 -> BM <> 0 -> AM <> BM ->
  (Z.abs AM + Z.abs BM) * (Z.abs Delta + 1) + m + 1 < 2 ^ (Bits - 1) ->
  inLoopC UM i -> inLoopC UM i' -> i <= m -> i' <= m ->
  (forall u, UM = Some u -> u <= m) ->
  AM * i - BM * i' = Delta ->
  exactSIV Bits AM BM Delta UM = Some (SivDirs d) ->
  dempty d = false /\ (Z.gcd AM BM = 1 -> dirAdmits d i i').
Proof. exact exactSIV_dirs. Qed.
Print Assumptions C28_exact_siv_directions_partial.

(** With a known bound the answer 'independent' is exact. *)
Theorem C28_exact_siv_exact_partial :
  forall Bits, 2 <= Bits ->
  forall AM BM Delta u m,
  AM <> 0 -> BM <> 0 -> 0 <= u <= m ->
  (Z.abs AM + Z.abs BM) * (Z.abs Delta + 1) + m + 1 < 2 ^ (Bits - 1) ->
  exists r, exactSIV Bits AM BM Delta (Some u) = Some r /\
   (r = SivIndep <->
    ~ exists i i', 0 <= i <= u /\ 0 <= i' <= u /\ AM * i - BM * i' = Delta).
Proof. exact exactSIV_exact. Qed.
Print Assumptions C28_exact_siv_exact_partial.

(** 2i against 3i'+1, bound 9, 64-bit numbers: i=2, i'=1. *)
Example C28_nonvacuous :
  (Z.abs 2 + Z.abs 3) * (Z.abs 1 + 1) + 9 + 1 < 2 ^ (64 - 1) /\
  2 * 2 - 3 * 1 = 1 /\ Z.gcd 2 3 = 1 /\
  exactSIV 64 2 3 1 (Some 9) = Some (SivDirs dGTonly) /\
  exactSIV 64 2 4 1 (Some 9) = Some SivIndep /\
  exactSIV 64 2 3 100 (Some 9) = Some SivIndep.
Proof. repeat split; vm_compute; auto. Qed.

(** The direction of a conflicting pair is lost when the coefficients have a
    common divisor. *)
Theorem C28_exact_siv_directions_refuted :
  exists AM BM Delta u i i' d,
    0 <= i <= u /\ 0 <= i' <= u /\ AM * i - BM * i' = Delta /\ AM <> BM /\
    exactSIV 64 AM BM Delta (Some u) = Some (SivDirs d) /\ ~ dirAdmits d i i'.
Proof.
  exists (-6), (-3), (-12), 2, 2, 0, dLTonly.
  repeat split; try lia.
  intros (_ & _ & A). specialize (A eq_refl). discriminate.
Qed.
Print Assumptions C28_exact_siv_directions_refuted.

(** Wrap-around of the 8-bit product makes the test refuse a real conflict. *)
Theorem C28_exact_siv_wrap_refuted :
  exists AM BM Delta u i i',
    0 <= i <= u /\ 0 <= i' <= u /\ AM * i - BM * i' = Delta /\
    -128 <= AM <= 127 /\ -128 <= BM <= 127 /\ -128 <= Delta <= 127 /\
    exactSIV 8 AM BM Delta (Some u) = Some SivIndep.
Proof.
  exists (-12), (-7), 28, 4, 0, 4. repeat split; try lia.
Qed.
Print Assumptions C28_exact_siv_wrap_refuted.

(** ** C29: weak-zero SIV.  One subscript does not depend on the loop.
    [common]: the loop encloses both accesses.  Missing: coefficients that
    may be zero. *)
Theorem C29_weak_zero_src_partial :
  forall (Env : Type) (O : oracle Env), soundOracle O ->
  forall DstCoeff SrcConst DstConst UB common dv e i i',
  DstCoeff e <> 0 ->
  0 <= i -> (common = true -> inLoop UB e i) -> inLoop UB e i' ->
  SrcConst e = DstConst e + DstCoeff e * i' ->
  dirAdmits (dvDir _ dv) i i' ->
  answerOk dv (weakZeroSrcSIV _ O DstCoeff SrcConst DstConst UB common dv) e i i'.
Proof. intros Env O HO. exact (weakZeroSrcSIV_ok O HO). Qed.
Print Assumptions C29_weak_zero_src_partial.
Theorem C29_weak_zero_dst_partial :
  forall (Env : Type) (O : oracle Env), soundOracle O ->
  forall SrcCoeff SrcConst DstConst UB common dv e i i',
  SrcCoeff e <> 0 ->
  0 <= i' -> (common = true -> inLoop UB e i') -> inLoop UB e i ->
  SrcConst e + SrcCoeff e * i = DstConst e ->
  dirAdmits (dvDir _ dv) i i' ->
  answerOk dv (weakZeroDstSIV _ O SrcCoeff SrcConst DstConst UB common dv) e i i'.
Proof. intros Env O HO. exact (weakZeroDstSIV_ok O HO). Qed.
Print Assumptions C29_weak_zero_dst_partial.

(** If peeling is suggested, only the first (last) iteration conflicts. *)
Theorem C29_peel_src_partial :
  forall (Env : Type) (O : oracle Env), soundOracle O ->
  forall DstCoeff SrcConst DstConst UB common dv e i',
  DstCoeff e <> 0 -> inLoop UB e i' ->
  SrcConst e = DstConst e + DstCoeff e * i' ->
  let r := tDV _ (weakZeroSrcSIV _ O DstCoeff SrcConst DstConst UB common dv) in
  (dvPeelFirst _ dv = false -> dvPeelFirst _ r = true -> i' = 0) /\
  (dvPeelLast _ dv = false -> dvPeelLast _ r = true -> exists U, UB = Some U /\ i' = U e).
Proof. intros Env O HO. exact (weakZeroSrc_peel_ok O HO). Qed.
Print Assumptions C29_peel_src_partial.
Theorem C29_peel_dst_partial :
  forall (Env : Type) (O : oracle Env), soundOracle O ->
  forall SrcCoeff SrcConst DstConst UB common dv e i,
  SrcCoeff e <> 0 -> inLoop UB e i ->
  SrcConst e + SrcCoeff e * i = DstConst e ->
  let r := tDV _ (weakZeroDstSIV _ O SrcCoeff SrcConst DstConst UB common dv) in
  (dvPeelFirst _ dv = false -> dvPeelFirst _ r = true -> i = 0) /\
  (dvPeelLast _ dv = false -> dvPeelLast _ r = true -> exists U, UB = Some U /\ i = U e).
Proof. intros Env O HO. exact (weakZeroDst_peel_ok O HO). Qed.
Print Assumptions C29_peel_dst_partial.

(** A[20] against A[2i'], bound 10: the last iteration; against A[2i'+20]:
    the first; against A[2i'+1]: never. *)
Example C29_nonvacuous :
  let r c := weakZeroSrcSIV _ boolOracle (scC bool 2) (scC bool 20) (scC bool c)
             (Some (scC bool 10)) true (dvInit _) in
  20 = 0 + 2 * 10 /\
  dvPeelLast _ (tDV _ (r 0)) = true /\ dvDir _ (tDV _ (r 0)) = dLE /\
  dvPeelFirst _ (tDV _ (r 20)) = true /\ dvDir _ (tDV _ (r 20)) = dGE /\
  tIndep _ (r 1) = true /\ tIndep _ (r 4) = false.
Proof. repeat split. Qed.
Example C29_nonvacuous_dst :
  let r c := weakZeroDstSIV _ boolOracle (scC bool (-2)) (scC bool c) (scC bool 20)
             (Some (scC bool 10)) true (dvInit _) in
  40 + -2 * 10 = 20 /\
  dvPeelLast _ (tDV _ (r 40)) = true /\ dvDir _ (tDV _ (r 40)) = dGE /\
  dvPeelFirst _ (tDV _ (r 20)) = true /\ dvDir _ (tDV _ (r 20)) = dLE /\
  tIndep _ (r 42) = true /\ tIndep _ (r 19) = true /\ tIndep _ (r 30) = false.
Proof. repeat split. Qed.

Theorem C29_weak_zero_zero_coeff_refuted :
  exists (O : oracle bool) (DstCoeff SrcConst DstConst : scev bool)
      (UB : option (scev bool)) (e : bool) (i i' : Z),
    soundOracle O /\ inLoop UB e i /\ inLoop UB e i' /\
    SrcConst e = DstConst e + DstCoeff e * i' /\
    let r := weakZeroSrcSIV _ O DstCoeff SrcConst DstConst UB true (dvInit _) in
    ~ dirAdmits (dvDir _ (tDV _ r)) i i' /\ dvPeelFirst _ (tDV _ r) = true /\ i' <> 0.
Proof.
  exists boolOracle, (fun b : bool => if b then 1 else 0), (scC bool 0), (scC bool 0),
    (Some (scC bool 10)), false, 0, 10.
  split; [exact boolOracle_sound|]. unfold inLoop.
  repeat split; try lia; try (vm_compute; congruence).
  intros (A & _ & _). vm_compute in A. specialize (A eq_refl). discriminate.
Qed.
Print Assumptions C29_weak_zero_zero_coeff_refuted.

(** ** C30: RDIV. *)
Theorem C30_symbolic_rdiv :
  forall (Env : Type) (O : oracle Env), soundOracle O ->
  forall A1 A2 C1 C2 N1 N2 e i j,
  inLoop N1 e i -> inLoop N2 e j ->
  C1 e + A1 e * i = C2 e + A2 e * j ->
  symbolicRDIV _ O A1 A2 C1 C2 N1 N2 = false.
Proof. intros Env O HO. exact (symbolicRDIV_ok O HO). Qed.
Print Assumptions C30_symbolic_rdiv.

(** Missing for the exact test: operands so large that 'Bits'-bit arithmetic
    wraps (refuted below). *)
Theorem C30_exact_rdiv_partial :
  forall Bits, 2 <= Bits ->
  forall AM BM Delta SrcUM DstUM m i j,
  AM <> 0 -> BM <> 0 ->
  (Z.abs AM + Z.abs BM) * (Z.abs Delta + 1) + m + 1 < 2 ^ (Bits - 1) ->
  inLoopC SrcUM i -> inLoopC DstUM j -> i <= m -> j <= m ->
  (forall u, SrcUM = Some u -> u <= m) -> (forall u, DstUM = Some u -> u <= m) ->
  AM * i - BM * j = Delta ->
  exactRDIV Bits AM BM Delta SrcUM DstUM = Some false.
Proof. exact exactRDIV_ok. Qed.
Print Assumptions C30_exact_rdiv_partial.
Theorem C30_exact_rdiv_exact_partial :
  forall Bits, 2 <= Bits ->
  forall AM BM Delta u1 u2 m,
  AM <> 0 -> BM <> 0 -> 0 <= u1 <= m -> 0 <= u2 <= m ->
  (Z.abs AM + Z.abs BM) * (Z.abs Delta + 1) + m + 1 < 2 ^ (Bits - 1) ->
  exists b, exactRDIV Bits AM BM Delta (Some u1) (Some u2) = Some b /\
   (b = false <-> exists i j, 0 <= i <= u1 /\ 0 <= j <= u2 /\ AM * i - BM * j = Delta).
Proof. exact exactRDIV_exact. Qed.
Print Assumptions C30_exact_rdiv_exact_partial.

Example C30_nonvacuous :
  3 * 4 - 5 * 1 = 7 /\ exactRDIV 64 3 5 7 (Some 4) (Some 1) = Some false /\
  exactRDIV 64 3 5 7 (Some 3) (Some 1) = Some true /\
  symbolicRDIV _ boolOracle (scC bool 1) (scC bool 1) (scC bool 0) symN
     (Some (scC bool 5)) (Some (scC bool 5)) = false /\
  symbolicRDIV _ boolOracle (scC bool 1) (scC bool 1) (scC bool 0) symN
     (Some (scC bool 3)) (Some (scC bool 5)) = true.
Proof. repeat split. Qed.

Theorem C30_exact_rdiv_wrap_refuted :
  exists AM BM Delta u i j,
    0 <= i <= u /\ 0 <= j <= u /\ AM * i - BM * j = Delta /\
    -128 <= AM <= 127 /\ -128 <= BM <= 127 /\ -128 <= Delta <= 127 /\
    exactRDIV 8 AM BM Delta (Some u) (Some u) = Some true.
Proof.
  exists (-12), (-7), 28, 4, 0, 4. repeat split; try lia.
Qed.
Print Assumptions C30_exact_rdiv_wrap_refuted.
