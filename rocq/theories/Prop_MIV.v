(** Properties C31-C33 of dependence tests on several loops. *)
From Coq Require Import ZArith Bool List Arith Lia.
From Verif Require Import DepModel DepSpec DepOracle DepProof MIVModel MIVSpec MIVGcdProof
  MIVBanerjeeProof MIVConstrProof.
Import ListNotations.
Local Open Scope Z_scope.

(** Loops around the source are [s ++ common], loops around the destination are
    [d ++ common], the innermost loops are the first ones. *)

(** C31.  If the subscripts are equal at some pair of iteration vectors, then the
    GCD test does not answer 'independent', and directions which were right
    for this pair before the test are right after it.  In particular, if the
    direction '=' of a common loop is removed then x L <> y L for all
    conflicting pairs. *)
Theorem C31_gcd_sound : forall Env (Or : oracle Env) (Q : miv Env),
  soundOracle Or -> soundQueries Q ->
  forall s d common, NoDup (s ++ d ++ common) ->
  forall (Src Dst : expr Env), chainOk Src -> chainOk Dst ->
  forall dv ind dv',
  gcdMIVtest _ Or Q (s ++ common) (d ++ common) Src Dst dv = Some (ind, dv') ->
  (ind = true -> forall e x y, ~ conflict e Src Dst x y) /\
  (forall e x y, conflict e Src Dst x y -> admits common dv x y -> admits common dv' x y) /\
  (forall K L, atDepth common K L -> dEQ (dv K) = true -> dEQ (dv' K) = false ->
   forall e x y, conflict e Src Dst x y -> admits common dv x y -> x L <> y L).
Proof.
  intros Env Or Q SO SQ s d common ND Src Dst OS OD dv ind dv' H.
  pose proof (fun e x y => gcdMIVtest_ok Or Q SO SQ s d common Src Dst dv ind dv' e x y ND OS OD H) as G.
  split; [|split].
  - intros -> e x y C. destruct (G e x y C). discriminate.
  - intros e x y C. apply (G e x y C).
  - intros K L A E1 E2 e x y C AD EQ.
    destruct (G e x y C) as [_ G2]. destruct (G2 AD K L A) as (_ & G3 & _).
    rewrite (G3 EQ) in E2. discriminate.
Qed.
Print Assumptions C31_gcd_sound.

(** The test changes nothing but the direction '='. *)
Theorem C31_only_equal_removed : forall Env (Or : oracle Env) (Q : miv Env) srcNest dstNest
    (Src Dst : expr Env) dv ind dv',
  gcdMIVtest _ Or Q srcNest dstNest Src Dst dv = Some (ind, dv') ->
  forall K, dLT (dv' K) = dLT (dv K) /\ dGT (dv' K) = dGT (dv K) /\
            (dEQ (dv' K) = true -> dEQ (dv K) = true).
Proof.
  intros Env Or Q srcNest dstNest Src Dst dv ind dv' H.
  assert (DE : forall C X recs dv0 K,
    let dv1 := dropEqual _ Q srcNest dstNest Src Dst C X recs dv0 in
    dLT (dv1 K) = dLT (dv0 K) /\ dGT (dv1 K) = dGT (dv0 K) /\ (dEQ (dv1 K) = true -> dEQ (dv0 K) = true)).
  { intros C X recs. induction recs as [|(L, a) recs IH]; intros dv0 K; cbv zeta; cbn [dropEqual]; [auto|].
    destruct (innerGCD _ Q (eRecs _ Src) L X a) as [(g1, ca)|]; [|auto].
    destruct (innerGCD _ Q (eRecs _ Dst) L g1 (scSub _ a a)) as [(g2, b)|]; [|auto].
    cbv zeta.
    match goal with |- dLT (dropEqual _ _ _ _ _ _ _ _ _ ?v K) = _ /\ _ => set (dv2 := v) end.
    specialize (IH dv2 K). cbv zeta in IH.
    assert (S : dLT (dv2 K) = dLT (dv0 K) /\ dGT (dv2 K) = dGT (dv0 K) /\ (dEQ (dv2 K) = true -> dEQ (dv0 K) = true)).
    { unfold dv2. destruct (seConstPart _ Q _) as [k|]; [|auto].
      cbv zeta. destruct (_ =? 0); [auto|]. destruct (_ =? 0); [auto|].
      destruct (depthIn srcNest L) as [Lv|]; [|auto]. destruct (depthIn dstNest L); [|auto].
      unfold setLevel. destruct (Nat.eqb_spec K Lv) as [E|NE]; [|auto]. subst K.
      unfold dropEQ, dand, dNE; cbn. rewrite !andb_true_r, andb_false_r. split; [auto|split; [auto|discriminate]]. }
    destruct IH as (I1 & I2 & I3), S as (S1 & S2 & S3). rewrite I1, I2. auto. }
  unfold gcdMIVtest in H.
  assert (triv : forall i, Some (i, dv) = Some (ind, dv') -> forall K,
     dLT (dv' K) = dLT (dv K) /\ dGT (dv' K) = dGT (dv K) /\ (dEQ (dv' K) = true -> dEQ (dv K) = true)).
  { intros i T. assert (dv' = dv) by congruence. subst. auto. }
  destruct (coeffGCD _ Q (eRecs _ Src) 0) as [g0|]; [|eauto].
  destruct (coeffGCD _ Q (eRecs _ Dst) g0) as [g1|]; [|eauto].
  destruct (negb (seEnclosing _ Or (eStart _ Src) (eStart _ Dst))); [eauto|].
  cbv zeta in H.
  match type of H with (match ?m with _ => _ end) = _ => destruct m as [[([C|], X)|]|] end;
    [|eauto|eauto|discriminate].
  destruct (C =? 0); [eauto|]. destruct (Z.gcd g1 X =? 0); [discriminate|].
  destruct (negb (Z.rem C (Z.gcd g1 X) =? 0)); [eauto|].
  assert (E : dv' = dropEqual _ Q srcNest dstNest Src Dst C X (eRecs _ Src) dv) by congruence.
  rewrite E. intro K. apply DE.
Qed.
Print Assumptions C31_only_equal_removed.

(** C32.  Levels computed for the nests: if the subscripts are equal at a pair of
    iteration vectors within bounds of the loops, and the known directions are
    right for it, then the Banerjee test does not answer 'independent' and the
    reported directions are right for the pair at each common loop. *)
Theorem C32_banerjee_sound : forall Env (Or : oracle Env) (UB : loop -> option (scev Env)),
  soundOracle Or ->
  forall s d common, NoDup (s ++ d ++ common) ->
  forall lv, establishNestingLevels (s ++ common) (d ++ common) = Some lv ->
  forall (Src Dst : expr Env), chainOk Src -> chainOk Dst ->
  forall Loops dv ind dv',
  banerjeeMIVtest _ Or UB (s ++ common) (d ++ common) lv Loops Src Dst dv = Some (ind, dv') ->
  forall e x y,
  inNest UB e (s ++ common) x -> inNest UB e (d ++ common) y ->
  conflict e Src Dst x y -> admits common dv x y ->
  ind = false /\ admits common dv' x y.
Proof.
  intros Env Or UB SO s d common ND lv EL Src Dst OS OD Loops dv ind dv' H e x y BX BY C A.
  rewrite establish_ok in EL by exact ND. injection EL as <-.
  eapply (banerjee_ok Or SO UB e s d common x y BX BY Src Dst Loops dv ind dv' OS OD H C A).
Qed.
Print Assumptions C32_banerjee_sound.

(** The levels: the number of common loops and of all different loops. *)
Theorem C32_nesting_levels : forall s d common, NoDup (s ++ d ++ common) ->
  exists lv, establishNestingLevels (s ++ common) (d ++ common) = Some lv /\
  CommonLevels lv = length common /\ SrcLevels lv = length (s ++ common) /\
  MaxLevels lv = length (s ++ d ++ common) /\
  (forall L, In L (s ++ common) -> exists K, mapSrcLoop (s ++ common) L = Some K /\ (1 <= K <= SrcLevels lv)%nat) /\
  (forall L, In L (d ++ common) -> exists K, mapDstLoop lv (d ++ common) L = Some K /\ (1 <= K <= MaxLevels lv)%nat) /\
  (forall L L' K, mapSrcLoop (s ++ common) L = Some K -> mapDstLoop lv (d ++ common) L' = Some K -> L = L').
Proof.
  intros s d common ND. rewrite establish_ok by exact ND.
  eexists. split; [reflexivity|]. cbn [CommonLevels SrcLevels MaxLevels].
  split; [reflexivity|]. split; [now rewrite app_length|]. split; [rewrite !app_length; lia|].
  assert (DI : forall nest L, In L nest -> exists K, depthIn nest L = Some K).
  { induction nest as [|a l IH]; intros L I; [destruct I|]. cbn [depthIn].
    destruct (Nat.eqb_spec a L) as [E|NE]; [eauto|]. destruct I as [I|I]; [contradiction|auto]. }
  split; [|split].
  - intros L I. destruct (DI _ _ I) as (K & E). exists K. split; [exact E|].
    apply depthIn_range in E. rewrite app_length in E. exact E.
  - intros L I. destruct (DI _ _ I) as (K & E). unfold mapDstLoop. rewrite E.
    eexists. split; [reflexivity|]. apply depthIn_range in E. rewrite app_length in E.
    cbn [CommonLevels SrcLevels]. destruct (Nat.ltb_spec (length common) K); lia.
  - intros L L' K E E'. unfold mapSrcLoop in E. unfold mapDstLoop in E'.
    destruct (depthIn (d ++ common) L') as [D|] eqn:ED; [|discriminate].
    pose proof (depthIn_range _ _ _ E) as R. pose proof (depthIn_range _ _ _ ED) as R'.
    rewrite app_length in R, R'. cbn [CommonLevels SrcLevels] in E'.
    apply depthIn_atDepth in E. apply depthIn_atDepth in ED.
    destruct (Nat.ltb_spec (length common) D) as [LT|GE].
    + injection E' as E'. lia.
    + injection E' as E'. subst D.
      apply (proj1 (atDepth_app s common K L GE)) in E. apply (proj1 (atDepth_app d common K L' GE)) in ED.
      eapply atDepth_inj; eassumption.
Qed.
Print Assumptions C32_nesting_levels.

(** Both tests in turn. *)
Theorem C32_testMIV_sound : forall Env (Or : oracle Env) (Q : miv Env) (UB : loop -> option (scev Env)),
  soundOracle Or -> soundQueries Q ->
  forall s d common, NoDup (s ++ d ++ common) ->
  forall lv, establishNestingLevels (s ++ common) (d ++ common) = Some lv ->
  forall (Src Dst : expr Env), chainOk Src -> chainOk Dst ->
  forall Loops dv ind dv',
  testMIV _ Or Q UB (s ++ common) (d ++ common) lv Loops Src Dst dv = Some (ind, dv') ->
  forall e x y,
  inNest UB e (s ++ common) x -> inNest UB e (d ++ common) y ->
  conflict e Src Dst x y -> admits common dv x y ->
  ind = false /\ admits common dv' x y.
Proof.
  intros Env Or Q UB SO SQ s d common ND lv EL Src Dst OS OD Loops dv ind dv' H e x y BX BY C A.
  unfold testMIV in H.
  destruct (gcdMIVtest _ Or Q (s ++ common) (d ++ common) Src Dst dv) as [([|], dv1)|] eqn:G; [| |discriminate].
  - exfalso. destruct (C31_gcd_sound _ _ _ SO SQ _ _ _ ND _ _ OS OD _ _ _ G) as (G1 & _).
    exact (G1 eq_refl e x y C).
  - destruct (C31_gcd_sound _ _ _ SO SQ _ _ _ ND _ _ OS OD _ _ _ G) as (_ & G2 & _).
    exact (C32_banerjee_sound _ _ _ SO _ _ _ ND _ EL _ _ OS OD _ _ _ _ H e x y BX BY C (G2 e x y C A)).
Qed.
Print Assumptions C32_testMIV_sound.

(** C33.  The new constraint holds for each pair of iterations (within the constant
    bound of the loop, if any) which satisfies both constraints, and implies
    one of them; the result 'unchanged' means the first one is kept. *)
Theorem C33_intersection : forall Env (Or : oracle Env), soundOracle Or ->
  forall CUB (X Y R : constr Env) changed,
  intersectConstraints _ Or CUB X Y = Some (R, changed) ->
  (forall e i j, inLoopC CUB i -> inLoopC CUB j ->
     constrHolds e X i j -> constrHolds e Y i j -> constrHolds e R i j) /\
  (R = CEmpty _ -> forall e i j, inLoopC CUB i -> inLoopC CUB j ->
     ~ (constrHolds e X i j /\ constrHolds e Y i j)) /\
  (forall e i j, constrHolds e R i j -> constrHolds e X i j \/ constrHolds e Y i j) /\
  (changed = false -> R = X).
Proof.
  intros Env Or SO CUB X Y R ch H. destruct (intersect_ok Or SO _ _ _ _ _ H) as [P C].
  split; [|split; [|split]].
  - intros e i j. apply (P e i j).
  - intros -> e i j I J [A B]. exact (proj1 (P e i j) I J A B).
  - intros e i j. apply (P e i j).
  - exact C.
Qed.
Print Assumptions C33_intersection.
(** The result is defined for each first constraint, if the second one is neither
    a point nor unknown. *)
Theorem C33_intersection_total : forall Env (Or : oracle Env), soundOracle Or ->
  forall (e : Env) CUB X Y, isPointC _ Y = false -> isAnyC _ Y = false ->
  exists R changed, intersectConstraints _ Or CUB X Y = Some (R, changed).
Proof. intros Env Or SO e CUB X Y. apply intersect_total; assumption. Qed.
Print Assumptions C33_intersection_total.
(** "For all kinds of constraints" is false: if the second constraint is unknown and
    the first one is not, llvm_unreachable is executed (line 594). *)
Theorem C33_intersection_with_unknown_refuted : forall Env (Or : oracle Env) CUB,
  exists X : constr Env, X <> CAny _ /\ intersectConstraints _ Or CUB X (CAny _) = None.
Proof.
  intros. exists (CDistance _ (scC _ 0)). split; [discriminate|reflexivity].
Qed.
Print Assumptions C33_intersection_with_unknown_refuted.

(** Propagation of constraints of loops, which hold for the pair of iteration
    vectors, keeps the conflict; no assertion fails. *)
Theorem C33_propagation : forall Env (Or : oracle Env) (Q : miv Env), soundOracle Or ->
  forall (cs : list (loop * constr Env)) (Src Dst : expr Env) e x y,
  (forall L c, In (L, c) cs -> properLine e c /\ constrHolds e c (x L) (y L)) ->
  exists changed Src' Dst' inexact,
  propagate _ Or Q Src Dst cs = Some (changed, Src', Dst', inexact) /\
  (conflict e Src Dst x y -> conflict e Src' Dst' x y).
Proof.
  intros Env Or Q SO cs Src Dst e x y H.
  assert (F : Forall (fun lc => properLine e (snd lc) /\ constrHolds e (snd lc) (x (fst lc)) (y (fst lc))) cs).
  { apply Forall_forall. intros (L, c) I. cbn. apply H. exact I. }
  destruct (propagate_total Or Q SO cs Src Dst e x y F) as ([[[ch S'] D'] ix] & E).
  exists ch, S', D', ix. split; [exact E|]. eapply propagate_kept; eassumption.
Qed.
Print Assumptions C33_propagation.
(** One constraint: no conflict appears either, and if the result is still exact
    ('consistent') then the new pair does not depend on the loop. *)
Theorem C33_propagation_of_one : forall Env (Or : oracle Env) (Q : miv Env), soundOracle Or ->
  (forall recs start L, seInvariantIn _ Q recs start L = true -> ~ In L (map fst recs)) ->
  forall (Src Dst : expr Env) L c p, chainOk Src -> chainOk Dst ->
  propagateOne _ Or Q Src Dst L c = Some p ->
  (forall e x y, properLine e c -> constrHolds e c (x L) (y L) ->
     (forall a b k, c = CLine _ a b k -> a e <> 0 \/ isZero _ Or a = true) ->
     (conflict e Src Dst x y <-> conflict e (pSrc _ p) (pDst _ p) x y)) /\
  chainOk (pSrc _ p) /\ chainOk (pDst _ p) /\
  (pChanged _ p = true -> pInexact _ p = false ->
   forall e x x' y y', (forall M, M <> L -> x M = x' M) -> (forall M, M <> L -> y M = y' M) ->
   (conflict e (pSrc _ p) (pDst _ p) x y <-> conflict e (pSrc _ p) (pDst _ p) x' y')) /\
  (pChanged _ p = false -> pSrc _ p = Src /\ pDst _ p = Dst).
Proof.
  intros Env Or Q SO IS Src Dst L c p OS OD H.
  destruct (propagateOne_chain Or Q SO IS _ _ _ _ _ OS OD H) as (C1 & C2 & C3).
  split; [|split; [exact C1|split; [exact C2|split]]].
  - intros e x y PL CH NA. split.
    + eapply propagateOne_kept; eassumption.
    + eapply propagateOne_exact; eassumption.
  - intros CHG EX e x x' y y' XX YY. destruct (C3 CHG EX e) as [F1 F2]. unfold conflict.
    rewrite (independent_of _ L e x x' C1 F1 XX), (independent_of _ L e y y' C2 F2 YY). reflexivity.
  - destruct c; cbn [propagateOne] in H.
    + injection H as <-. auto.
    + injection H as <-. discriminate.
    + injection H as <-. unfold propagateDistance. cbv zeta. destruct (isZero _ Or _); cbn; [auto|discriminate].
    + unfold propagateLine in H. cbv zeta in H.
      repeat match type of H with
      | (if ?c then _ else _) = _ => destruct c
      | (match ?o with Some _ => _ | None => _ end) = _ => destruct o
      end; try discriminate; injection H as <-; cbn; auto; discriminate.
    + injection H as <-. auto.
Qed.
Print Assumptions C33_propagation_of_one.

(** The direction of a level is updated rightly for pairs which satisfy the
    constraint, and the constraint must not be empty. *)
Theorem C33_direction_update : forall Env (Or : oracle Env), soundOracle Or ->
  forall (Level : dventry Env) c,
  (c = CEmpty _ -> updateDirection _ Or Level c = None) /\
  (c <> CEmpty _ -> exists Level', updateDirection _ Or Level c = Some Level' /\
     (forall e i j, constrHolds e c i j ->
        (dirAdmits (dvDir _ Level) i j -> dirAdmits (dvDir _ Level') i j) /\
        (distOk Level e i j -> distOk Level' e i j)) /\
     (c <> CAny _ -> dvScalar _ Level' = false)).
Proof.
  intros Env Or SO Level c. split; [intros ->; reflexivity|]. intro N.
  assert (E : exists Level', updateDirection _ Or Level c = Some Level').
  { destruct c; cbn; eauto. now destruct N. }
  destruct E as (Level' & E). exists Level'. split; [exact E|]. split.
  - intros e i j CH. destruct (updateDirection_ok Or SO _ _ _ e i j E CH) as (A & B & _). auto.
  - intro NA. destruct c; cbn in E; try (injection E as <-; reflexivity).
    + discriminate.
    + now destruct NA.
Qed.
Print Assumptions C33_direction_update.

(** ** Concrete cases *)
Definition bq : miv bool := {|
  seConstPart := seConst _ boolOracle;
  seSum := fun _ => None;
  seIsMul := fun _ => false;
  seInvariantIn := fun recs _ L => negb (existsb (fun p => Nat.eqb (fst p) L) recs) |}.
Example bq_sound : soundQueries bq.
Proof.
  split.
  - cbn [seConstPart bq]. intros x c H e. rewrite (so_const _ boolOracle_sound _ _ H e). apply Z.divide_refl.
  - intros x ops H. discriminate.
Qed.
Example bq_invariant : forall recs start L, seInvariantIn _ bq recs start L = true -> ~ In L (map fst recs).
Proof.
  intros recs start L H I. cbn in H. apply negb_true_iff in H.
  apply in_map_iff in I. destruct I as (p & E & I).
  assert (T : existsb (fun p => Nat.eqb (fst p) L) recs = true).
  { apply existsb_exists. exists p. split; [exact I|]. apply Nat.eqb_eq. exact E. }
  congruence.
Qed.
Definition k (c : Z) : scev bool := scC bool c.
(* A[3*i + 2*j] and A[i' + 2*j' - 1] (the comment at line 2553) *)
Definition srcEx := mkExpr bool [(1%nat, k 2); (0%nat, k 3)] (k 0).
Definition dstEx := mkExpr bool [(1%nat, k 2); (0%nat, k 1)] (k (-1)).
Definition ubEx (n : loop) : option (scev bool) := Some (k 9).
Example C31_sample_equal_removed :
  exists dv', gcdMIVtest _ boolOracle bq [1%nat; 0%nat] [1%nat; 0%nat] srcEx dstEx (fun _ => dALL)
    = Some (false, dv') /\ dEQ (dv' 1%nat) = false /\ dEQ (dv' 2%nat) = true
    /\ conflict true srcEx dstEx (fun L => if Nat.eqb L 0 then 0 else 0) (fun L => if Nat.eqb L 0 then 1 else 0).
Proof. eexists. split; [reflexivity|]. vm_compute. auto. Qed.
Example C31_sample_independent :
  exists dv', gcdMIVtest _ boolOracle bq [1%nat; 0%nat] [1%nat; 0%nat]
    (mkExpr bool [(1%nat, k 2); (0%nat, k 4)] (k 0)) (mkExpr bool [(1%nat, k 6); (0%nat, k 8)] (k 3)) (fun _ => dALL)
    = Some (true, dv').
Proof. eexists. reflexivity. Qed.
(* A[10*i + j] and A[10*i' + j' + 10] with 0 <= i, j <= 9: i' = i - 1 *)
Definition srcB := mkExpr bool [(1%nat, k 1); (0%nat, k 10)] (k 0).
Definition dstB := mkExpr bool [(1%nat, k 1); (0%nat, k 10)] (k 10).
Example C32_sample_levels : establishNestingLevels [1%nat; 0%nat] [1%nat; 0%nat] = Some (mkLevels 2 2 2).
Proof. reflexivity. Qed.
Example C32_sample :
  exists dv', banerjeeMIVtest _ boolOracle ubEx [1%nat; 0%nat] [1%nat; 0%nat] (mkLevels 2 2 2)
      (fun _ => true) srcB dstB (fun _ => dALL) = Some (false, dv')
  /\ dv' 1%nat = dGTonly
  /\ conflict true srcB dstB (fun L => if Nat.eqb L 0 then 5 else 3) (fun L => if Nat.eqb L 0 then 4 else 3)
  /\ inNest ubEx true [1%nat; 0%nat] (fun L => if Nat.eqb L 0 then 5 else 3).
Proof.
  eexists. split; [vm_compute; reflexivity|]. split; [vm_compute; reflexivity|].
  split; [vm_compute; reflexivity|].
  intros L I. unfold inLoop, ubEx, k, scC. destruct (Nat.eqb L 0); lia.
Qed.
Example C32_sample_independent :
  exists dv', banerjeeMIVtest _ boolOracle ubEx [1%nat; 0%nat] [2%nat; 0%nat] (mkLevels 1 2 3)
      (fun _ => true) srcB (mkExpr bool [(2%nat, k 1); (0%nat, k 10)] (k 100)) (fun _ => dALL)
    = Some (true, dv').
Proof. eexists. vm_compute. reflexivity. Qed.
(* the lines i + i' = 4 and i - i' = 0 meet at the point (2, 2) *)
Example C33_sample_point :
  intersectConstraints _ boolOracle (Some 9) (CLine _ (k 1) (k 1) (k 4)) (CDistance _ (k 0))
    = Some (CPoint _ (scC _ 2) (scC _ 2), true).
Proof. vm_compute. reflexivity. Qed.
Example C33_sample_empty :
  intersectConstraints _ boolOracle (Some 9) (CLine _ (k 1) (k 1) (k 5)) (CDistance _ (k 0))
    = Some (CEmpty _, true).
Proof. vm_compute. reflexivity. Qed.
(* i' = i + 1 in A[10*i + j], A[10*i' + j']: j - j' = 10 remains *)
Example C33_sample_propagation :
  exists p, propagateOne _ boolOracle bq srcB (mkExpr bool [(1%nat, k 1); (0%nat, k 10)] (k 0)) 0%nat
    (CDistance _ (k (-1))) = Some p /\ pChanged _ p = true /\ pInexact _ p = false
    /\ map fst (eRecs _ (pSrc _ p)) = [1%nat] /\ map fst (eRecs _ (pDst _ p)) = [1%nat]
    /\ eStart _ (pSrc _ p) true = -10
    /\ constrHolds true (CDistance _ (k (-1))) 3 4.
Proof. eexists. split; [vm_compute; reflexivity|]. vm_compute. tauto. Qed.
