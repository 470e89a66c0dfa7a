(** Proofs about the driver of dependence tests. *)
From Coq Require Import ZArith Bool List Arith Lia.
From Verif Require Import DepModel DepSpec DepProof DepExactProof MIVModel MIVSpec MIVGcdProof
  MIVBanerjeeProof MIVConstrProof DepDriverModel DepDriverSpec Prop_Dep Prop_MIV.
Import ListNotations.
Local Open Scope Z_scope.

Lemma forEach_inv {S} (f : nat -> S -> res S) (I : S -> Prop) l :
  (forall n s, In n l -> I s -> match f n s with Go s' => I s' | Disproved => False | _ => True end) ->
  forall s, I s -> match forEach f l s with Go s' => I s' | Disproved => False | _ => True end.
Proof.
  induction l as [|n l IH]; intros H s Is; cbn [forEach]; [exact Is|].
  pose proof (H n s (or_introl eq_refl) Is) as Hn.
  destruct (f n s) as [| | |s']; cbn [bind]; auto.
  apply IH; [|exact Hn]. intros k t Ik. apply H. now right.
Qed.

Section P.
Context {Env : Type} (Or : oracle Env) (Q : miv Env) (same : scev Env -> scev Env -> bool)
  (UB : loop -> option (scev Env)) (Bits : Z).
Hypothesis SO : soundOracle Or.
Hypothesis SQ : soundQueries Q.
Hypothesis SS : soundSame Or same.
Hypothesis ENC : forall a b, seEnclosing _ Or a b = true.
Hypothesis BITS : 2 <= Bits.
Variables (s d common : list loop) (outDepth : loop -> nat).
Hypothesis ND : NoDup (s ++ d ++ common).
Let srcNest := s ++ common.
Let dstNest := d ++ common.
Let lv := mkLevels (length common) (length s + length common) (length s + length d + length common).
Variables (e : Env) (x y : loop -> Z) (m : Z).
Let all := s ++ d ++ common.
Hypothesis BX : inNest UB e all x.
Hypothesis BY : inNest UB e all y.
Hypothesis MX : boundedBy UB m e all x.
Hypothesis MY : boundedBy UB m e all y.

Definition dvOk (dv : dvec Env) : Prop := rightFor common dv e x y.

Lemma in_src L : In L srcNest -> In L all.
Proof. unfold srcNest, all. rewrite !in_app_iff. tauto. Qed.
Lemma in_dst L : In L dstNest -> In L all.
Proof. unfold dstNest, all. rewrite !in_app_iff. tauto. Qed.
Lemma in_common L : In L common -> In L all.
Proof. unfold all. rewrite !in_app_iff. tauto. Qed.
Lemma atDepth_In nest K L : atDepth nest K L -> In L nest.
Proof. intros [_ H]. apply nth_error_In in H. now apply in_rev in H. Qed.
Lemma depthIn_some nest L : In L nest -> exists K, depthIn nest L = Some K.
Proof.
  induction nest as [|a l IH]; intro I; [destruct I|]. cbn [depthIn].
  destruct (Nat.eqb_spec a L) as [E|NE]; [eauto|]. destruct I as [I|I]; [contradiction|auto].
Qed.
Lemma contains_in nest L : contains nest L = true -> In L nest.
Proof. unfold contains. destruct (depthIn nest L) eqn:E; [|discriminate]. intros _. eapply depthIn_In; exact E. Qed.

(* a level of a loop *)
Definition levelOf (L : loop) (K : nat) : Prop :=
  In L all /\ ((K <= length common)%nat -> atDepth common K L) /\
  (mapSrcLoop srcNest L = Some K \/ mapDstLoop lv dstNest L = Some K).
Lemma mapSrc_level L : contains srcNest L = true -> levelOf L (mapSrc srcNest outDepth L).
Proof.
  intro C. pose proof (contains_in _ _ C) as I. split; [now apply in_src|].
  unfold mapSrc, mapSrcLoop. destruct (depthIn_some _ _ I) as (K & E). rewrite E. split; [|now left]. intro LE.
  apply depthIn_atDepth in E. now apply (proj1 (atDepth_app s common K L LE)) in E.
Qed.
Lemma mapDst_level L : contains dstNest L = true -> levelOf L (mapDst dstNest outDepth lv L).
Proof.
  intro C. pose proof (contains_in _ _ C) as I. split; [now apply in_dst|].
  unfold mapDst, mapDstLoop. destruct (depthIn_some _ _ I) as (K & E). rewrite E.
  split; [|now right].
  cbn [CommonLevels SrcLevels lv]. destruct (Nat.ltb_spec (length common) K); intro LE; [lia|].
  apply depthIn_atDepth in E. now apply (proj1 (atDepth_app d common K L LE)) in E.
Qed.

Lemma dvOk_set dv K v :
  dvOk dv ->
  (forall L, atDepth common K L -> dirAdmits (dvDir _ v) (x L) (y L) /\ distOk v e (x L) (y L)) ->
  dvOk (setLevel dv K v).
Proof.
  intros H V J L A. unfold setLevel. destruct (Nat.eqb_spec J K) as [E|NE]; [subst J; auto|auto].
Qed.
Lemma dvOk_admits dv : dvOk dv -> admits common (fun K => dvDir _ (dv K)) x y.
Proof. intros H K L A. apply (H K L A). Qed.
Lemma dvOk_with dv dd : dvOk dv -> admits common dd x y -> dvOk (withDirs _ dv dd).
Proof. intros H D K L A. split; [exact (D K L A)|]. intros X EX. exact (proj2 (H K L A) X EX). Qed.

Lemma gcdLift_ok Src Dst dv : chainOk Src -> chainOk Dst -> conflict e Src Dst x y -> dvOk dv ->
  match gcdLift _ Or Q srcNest dstNest Src Dst dv with Go dv' => dvOk dv' | Disproved => False | _ => True end.
Proof.
  intros CS CD CF H. unfold gcdLift, lift.
  destruct (gcdMIVtest _ Or Q srcNest dstNest Src Dst _) as [([|], dd)|] eqn:G; [| |exact I].
  - destruct (gcdMIVtest_ok Or Q SO SQ _ _ _ _ _ _ _ _ e x y ND CS CD G CF). discriminate.
  - destruct (gcdMIVtest_ok Or Q SO SQ _ _ _ _ _ _ _ _ e x y ND CS CD G CF) as [_ A].
    apply dvOk_with; [exact H|]. apply A. now apply dvOk_admits.
Qed.

Lemma inLoopC_const L i : inLoop (UB L) e i -> inLoopC (constUB _ Or UB L) i.
Proof.
  intros [A B]. split; [exact A|]. unfold constUB. destruct (UB L) as [U|]; [|exact I].
  destruct (seConst _ Or U) as [u|] eqn:E; [|exact I]. now rewrite (so_const _ SO _ _ E e) in B.
Qed.
Lemma constUB_le L u : In L all -> constUB _ Or UB L = Some u -> u <= m.
Proof.
  intros I E. unfold constUB in E. destruct (UB L) as [U|] eqn:EU; [|discriminate].
  rewrite <- (so_const _ SO _ _ E e). exact (proj2 (MX L I) U EU).
Qed.

(* what is known after a test of a SIV subscript: the constraint *)
Definition newOk (L : loop) (oc : option (constr Env)) : Prop :=
  exists c, oc = Some c /\ constrHolds e c (x L) (y L) /\ properLine e c.

Lemma strong_constr Coeff sc dc ub dv : Coeff e <> 0 ->
  tIndep _ (strongSIV _ Or Coeff sc dc ub dv) = false ->
  exists c, tConstr _ (strongSIV _ Or Coeff sc dc ub dv) = Some c /\ properLine e c.
Proof.
  intro NZ. unfold strongSIV. rewrite ENC. cbn [negb]. cbv zeta.
  match goal with |- context [if ?c then mkT _ true _ _ _ else _] => destruct c end; [discriminate|].
  unfold strongSIVsym. cbv zeta.
  destruct (seConst _ Or (scSub _ sc dc)) as [cd|]; [destruct (seConst _ Or Coeff) as [cc|]|].
  1: destruct (Z.rem cd cc =? 0); cbn [negb]; [|discriminate]; intros _; eexists; split; [reflexivity|exact I].
  all: destruct (isZero _ Or _); intros _; eexists; (split; [reflexivity|]); cbn [setDistance properLine]; auto;
    destruct (isOne _ Or Coeff); cbn [setDistance properLine]; auto.
Qed.
Lemma crossing_constr Coeff sc dc ub dv : Coeff e <> 0 ->
  exists c, tConstr _ (weakCrossingSIV _ Or Coeff sc dc ub dv) = Some c /\ properLine e c.
Proof.
  intro NZ. exists (CLine _ Coeff Coeff (scSub _ dc sc)). split; [|cbn; auto].
  unfold weakCrossingSIV. rewrite ENC. cbn [negb]. cbv zeta.
  repeat match goal with |- context [if ?c then _ else _] => destruct c; cbn [tConstr]; try reflexivity
    | |- context [match ?o with Some _ => _ | None => _ end] => destruct o; cbn [tConstr]; try reflexivity end.
Qed.
Lemma zeroDst_constr Coeff sc dc ub b dv : Coeff e <> 0 ->
  exists c, tConstr _ (weakZeroDstSIV _ Or Coeff sc dc ub b dv) = Some c /\ properLine e c.
Proof.
  intro NZ. exists (CLine _ Coeff (scC _ 0) (scSub _ dc sc)). split; [|cbn; auto].
  unfold weakZeroDstSIV. rewrite ENC. cbn [negb]. cbv zeta.
  repeat match goal with |- context [if ?c then _ else _] => destruct c; cbn [tConstr]; try reflexivity
    | |- context [match ?o with Some _ => _ | None => _ end] => destruct o; cbn [tConstr]; try reflexivity end.
Qed.
Lemma zeroSrc_constr Coeff sc dc ub b dv : Coeff e <> 0 ->
  exists c, tConstr _ (weakZeroSrcSIV _ Or Coeff sc dc ub b dv) = Some c /\ properLine e c.
Proof.
  intro NZ. exists (CLine _ (scC _ 0) Coeff (scSub _ sc dc)). split; [|cbn; auto].
  unfold weakZeroSrcSIV. rewrite ENC. cbn [negb]. cbv zeta.
  repeat match goal with |- context [if ?c then _ else _] => destruct c; cbn [tConstr]; try reflexivity
    | |- context [match ?o with Some _ => _ | None => _ end] => destruct o; cbn [tConstr]; try reflexivity end.
Qed.

(* the exact test *)
Lemma exact_ok L a b Src Dst dv r :
  eRecs _ Src = [(L, a)] -> eRecs _ Dst = [(L, b)] -> In L all ->
  same a b = false -> same a (scNeg _ b) = false ->
  tame Or Bits m e Src Dst -> conflict e Src Dst x y ->
  dirAdmits (dvDir _ dv) (x L) (y L) ->
  exactSIVtest _ Or UB Bits a b (eStart _ Src) (eStart _ Dst) L dv = Some r ->
  answerOk dv r e (x L) (y L) /\ exists c, tConstr _ r = Some c /\ properLine e c.
Proof.
  intros ES ED IL NS NN T CF DA H. unfold exactSIVtest in H. rewrite ENC in H. cbn [negb] in H.
  assert (NZ : a e <> 0). { apply (t_step _ _ _ _ _ _ T L a). rewrite ES, ED. cbn. auto. }
  assert (NZb : b e <> 0). { apply (t_step _ _ _ _ _ _ T L b). rewrite ES, ED. cbn. auto. }
  assert (EQ : a e * x L - b e * y L = eStart _ Dst e - eStart _ Src e).
  { unfold conflict, value in CF. rewrite ES, ED in CF. cbn [recsValue] in CF. lia. }
  cbv zeta in H.
  set (line := Some (CLine _ a (scNeg _ b) (scSub _ (eStart _ Dst) (eStart _ Src)))) in *.
  assert (LH : forall c, line = Some c -> constrHolds e c (x L) (y L)).
  { intros c E. injection E as <-. cbn. unfold scNeg, scSub. lia. }
  assert (PL : exists c, line = Some c /\ properLine e c).
  { eexists. split; [reflexivity|]. cbn. auto. }
  assert (triv : Some (mkT _ false dv line None) = Some r ->
     answerOk dv r e (x L) (y L) /\ exists c, tConstr _ r = Some c /\ properLine e c).
  { intro E. injection E as <-. split; [|exact PL]. split; cbn [tIndep tDV tConstr]; auto. }
  destruct (seConst _ Or (scSub _ (eStart _ Dst) (eStart _ Src))) as [CD|] eqn:ECD; [|auto].
  destruct (seConst _ Or a) as [AM|] eqn:EA; [|auto].
  destruct (seConst _ Or b) as [BM|] eqn:EB; [|auto].
  pose proof (so_const _ SO _ _ ECD e) as VD. pose proof (so_const _ SO _ _ EA e) as VA.
  pose proof (so_const _ SO _ _ EB e) as VB. unfold scSub in VD.
  assert (N1 : AM <> BM). { intro E. rewrite <- E in EB. rewrite (ss_const _ _ SS _ _ _ EA EB) in NS. discriminate. }
  assert (N2 : AM <> - BM).
  { intro E. rewrite E in EA. assert (S : same a (scNeg _ b) = true); [|congruence].
    apply (ss_neg _ _ SS a b (- BM)); [exact EA|]. now rewrite Z.opp_involutive. }
  assert (SM : (Z.abs AM + Z.abs BM) * (Z.abs CD + 1) + m + 1 < 2 ^ (Bits - 1)).
  { rewrite <- VA, <- VB, <- VD. apply (t_small _ _ _ _ _ _ T L a L b); rewrite ES, ED; cbn; auto. }
  pose proof (t_coprime _ _ _ _ _ _ T L a b AM BM ES ED EA EB N1 N2) as CP.
  assert (I1 : inLoopC (constUB _ Or UB L) (x L)) by (apply inLoopC_const; apply BX; exact IL).
  assert (I2 : inLoopC (constUB _ Or UB L) (y L)) by (apply inLoopC_const; apply BY; exact IL).
  assert (X1 : x L <= m) by (apply MX; exact IL). assert (Y1 : y L <= m) by (apply MY; exact IL).
  assert (U1 : forall u, constUB _ Or UB L = Some u -> u <= m) by (intros u E; exact (constUB_le L u IL E)).
  assert (EQ' : AM * x L - BM * y L = CD) by (rewrite <- VA, <- VB, <- VD; exact EQ).
  assert (AM0 : AM <> 0) by congruence. assert (BM0 : BM <> 0) by congruence.
  destruct (C28_exact_siv_independent_partial Bits BITS AM BM CD (constUB _ Or UB L) m (x L) (y L)
             AM0 BM0 SM I1 I2 X1 Y1 U1 EQ') as (dd & ES1).
  rewrite ES1 in H.
  destruct (C28_exact_siv_directions_partial Bits BITS AM BM CD (constUB _ Or UB L) m (x L) (y L) dd
             AM0 BM0 N1 SM I1 I2 X1 Y1 U1 EQ' ES1) as [_ DD].
  specialize (DD CP).
  assert (DD' : dirAdmits (dvDir _ (andDir _ dv dd)) (x L) (y L)).
  { cbn [andDir setDir dvDir]. apply dirAdmits_and; assumption. }
  assert (NE : dempty (dvDir _ (andDir _ dv dd)) = false).
  { destruct DD' as (A & B & C). unfold dempty.
    destruct (Z.lt_trichotomy (x L) (y L)) as [LT|[E|GT]].
    - rewrite (A LT). reflexivity.
    - rewrite (B E). now rewrite orb_true_r.
    - rewrite C by lia. now rewrite orb_true_r. }
  rewrite NE in H. injection H as <-.
  split; [|exact PL]. split; cbn [tIndep tDV tConstr]; auto.
Qed.

(* the state after a test of a SIV subscript *)
Definition sivOk (r : res (dvec Env * option nat * cons Env)) : Prop :=
  match r with
  | Go (dv, oL, nc) => dvOk dv /\
      forall K, oL = Some K -> levelOf (snd nc) K /\
        constrHolds e (fst nc) (x (snd nc)) (y (snd nc)) /\ properLine e (fst nc)
  | Disproved => False
  | _ => True
  end.
Lemma sivOk_finish Src Dst dv Level r nc L :
  chainOk Src -> chainOk Dst -> conflict e Src Dst x y -> dvOk dv ->
  levelOf L Level ->
  tIndep _ r = false ->
  (forall c, tConstr _ r = Some c -> constrHolds e c (x L) (y L)) ->
  ((Level <= length common)%nat ->
     dirAdmits (dvDir _ (tDV _ r)) (x L) (y L) /\ distOk (tDV _ r) e (x L) (y L)) ->
  (exists c, tConstr _ r = Some c /\ properLine e c) ->
  forall b, b = false ->
  sivOk (if tIndep _ r then Disproved
         else bind (gcdLift _ Or Q srcNest dstNest Src Dst (setLevel dv Level (tDV _ r))) (fun dv' =>
           if b : bool then Disproved else Go (dv', Some Level, setNew _ nc (tConstr _ r) L))).
Proof.
  intros CS CD CF H LO A1 A2 A3 (c & EC & PC) b ->. rewrite A1.
  assert (H1 : dvOk (setLevel dv Level (tDV _ r))).
  { apply dvOk_set; [exact H|]. intros L' A.
    pose proof (atDepth_range _ _ _ A) as R.
    pose proof (atDepth_inj _ _ _ _ A (proj1 (proj2 LO) (proj2 R))) as ->. apply A3. apply R. }
  pose proof (gcdLift_ok Src Dst _ CS CD CF H1) as G.
  destruct (gcdLift _ Or Q srcNest dstNest Src Dst (setLevel dv Level (tDV _ r))) as [| | |dv']; cbn [bind]; auto.
  split; [exact G|]. intros K EK. injection EK as <-. rewrite EC. cbn [setNew fst snd].
  split; [exact LO|]. split; [now apply A2|exact PC].
Qed.
Lemma zeroDst_frame Coeff sc dc ub dv :
  let r := weakZeroDstSIV _ Or Coeff sc dc ub false in
  tIndep _ (r dv) = tIndep _ (r (dvInit _)) /\ tConstr _ (r dv) = tConstr _ (r (dvInit _)).
Proof.
  unfold weakZeroDstSIV. rewrite ENC. cbn [negb]. cbv zeta.
  repeat match goal with |- context [if ?c then _ else _] => destruct c; cbn [tConstr tIndep]; auto
    | |- context [match ?o with Some _ => _ | None => _ end] => destruct o; cbn [tConstr tIndep]; auto end.
Qed.
Lemma zeroSrc_frame Coeff sc dc ub dv :
  let r := weakZeroSrcSIV _ Or Coeff sc dc ub false in
  tIndep _ (r dv) = tIndep _ (r (dvInit _)) /\ tConstr _ (r dv) = tConstr _ (r (dvInit _)).
Proof.
  unfold weakZeroSrcSIV. rewrite ENC. cbn [negb]. cbv zeta.
  repeat match goal with |- context [if ?c then _ else _] => destruct c; cbn [tConstr tIndep]; auto
    | |- context [match ?o with Some _ => _ | None => _ end] => destruct o; cbn [tConstr tIndep]; auto end.
Qed.
Lemma admitsAll i j : dirAdmits (dvDir _ (dvInit Env)) i j.
Proof. repeat split. Qed.

Lemma testSIV_ok Src Dst dv nc :
  chainOk Src -> chainOk Dst -> tame Or Bits m e Src Dst -> conflict e Src Dst x y -> dvOk dv ->
  sivOk (testSIV _ Or Q same UB Bits srcNest dstNest outDepth lv Src Dst dv nc).
Proof.
  intros CS CD T CF H. unfold testSIV.
  destruct (eRecs _ Src) as [|(L, a) [|? ?]] eqn:ES; destruct (eRecs _ Dst) as [|(L', b) [|? ?]] eqn:ED; try exact I.
  - (* [] , [b] *)
    destruct (contains dstNest L') eqn:CT; cbn [negb].
    2:{ split; [exact H|discriminate]. }
    pose proof (mapDst_level L' CT) as LO. set (Level := mapDst dstNest outDepth lv L') in *.
    assert (IL : In L' all) by apply LO.
    assert (NZ : b e <> 0). { apply (t_step _ _ _ _ _ _ T L' b). rewrite ES, ED. cbn. auto. }
    assert (EQ : eStart _ Src e = eStart _ Dst e + b e * y L').
    { unfold conflict, value in CF. rewrite ES, ED in CF. cbn [recsValue] in CF. lia. }
    cbn [CommonLevels lv]. cbv zeta.
    pose proof (zeroSrc_constr b (eStart _ Src) (eStart _ Dst) (UB L') (Nat.leb Level (length common)) (dv Level) NZ) as PC.
    set (r := weakZeroSrcSIV _ _ _ _ _ _ _ _) in *.
    assert (AO : exists dvx, answerOk dvx (weakZeroSrcSIV _ Or b (eStart _ Src) (eStart _ Dst) (UB L') (Nat.leb Level (length common)) dvx) e (x L') (y L') /\
       ((Level <= length common)%nat -> dvx = dv Level) /\ ((length common < Level)%nat -> dvx = dvInit _)).
    { destruct (Nat.leb_spec Level (length common)) as [LE|GT].
      - exists (dv Level). split; [|split; [auto|lia]].
        refine (C29_weak_zero_src_partial _ Or SO _ _ _ _ _ _ e _ _ NZ _ _ _ EQ _).
        + apply BX; exact IL. + intros _. apply BX; exact IL. + apply BY; exact IL.
        + apply (H Level L'). now apply LO.
      - exists (dvInit _). split; [|split; [lia|auto]].
        refine (C29_weak_zero_src_partial _ Or SO _ _ _ _ _ _ e _ _ NZ _ _ _ EQ (admitsAll _ _)).
        + apply BX; exact IL. + intros _. apply BX; exact IL. + apply BY; exact IL. }
    destruct AO as (dvx & [O1 O2 O3 O4] & E1 & E2).
    pose proof (sivOk_finish Src Dst dv Level r nc L' CS CD CF H LO) as F.
    specialize (fun a b c => F a b c PC false eq_refl). cbv beta iota in F.
    apply F; unfold r.
    + destruct (Nat.leb_spec Level (length common)) as [LE|GT].
      * rewrite (E1 LE) in O1. exact O1.
      * rewrite (E2 GT) in O1. rewrite (proj1 (zeroSrc_frame _ _ _ _ _)). exact O1.
    + intros c EC. destruct (Nat.leb_spec Level (length common)) as [LE|GT].
      * rewrite (E1 LE) in O4. now apply O4.
      * rewrite (E2 GT) in O4. rewrite (proj2 (zeroSrc_frame _ _ _ _ _)) in EC. now apply O4.
    + intro LE. rewrite (E1 LE) in O2, O3. split; [exact O2|]. apply O3. apply (H Level L'). now apply LO.
  - (* [a], [] *)
    destruct (contains srcNest L) eqn:CT; cbn [negb].
    2:{ split; [exact H|discriminate]. }
    pose proof (mapSrc_level L CT) as LO. set (Level := mapSrc srcNest outDepth L) in *.
    assert (IL : In L all) by apply LO.
    assert (NZ : a e <> 0). { apply (t_step _ _ _ _ _ _ T L a). rewrite ES, ED. cbn. auto. }
    assert (EQ : eStart _ Src e + a e * x L = eStart _ Dst e).
    { unfold conflict, value in CF. rewrite ES, ED in CF. cbn [recsValue] in CF. lia. }
    cbn [CommonLevels lv]. cbv zeta.
    pose proof (zeroDst_constr a (eStart _ Src) (eStart _ Dst) (UB L) (Nat.leb Level (length common)) (dv Level) NZ) as PC.
    set (r := weakZeroDstSIV _ _ _ _ _ _ _ _) in *.
    assert (AO : exists dvx, answerOk dvx (weakZeroDstSIV _ Or a (eStart _ Src) (eStart _ Dst) (UB L) (Nat.leb Level (length common)) dvx) e (x L) (y L) /\
       ((Level <= length common)%nat -> dvx = dv Level) /\ ((length common < Level)%nat -> dvx = dvInit _)).
    { destruct (Nat.leb_spec Level (length common)) as [LE|GT].
      - exists (dv Level). split; [|split; [auto|lia]].
        refine (C29_weak_zero_dst_partial _ Or SO _ _ _ _ _ _ e _ _ NZ _ _ _ EQ _).
        + apply BY; exact IL. + intros _. apply BY; exact IL. + apply BX; exact IL.
        + apply (H Level L). now apply LO.
      - exists (dvInit _). split; [|split; [lia|auto]].
        refine (C29_weak_zero_dst_partial _ Or SO _ _ _ _ _ _ e _ _ NZ _ _ _ EQ (admitsAll _ _)).
        + apply BY; exact IL. + intros _. apply BY; exact IL. + apply BX; exact IL. }
    destruct AO as (dvx & [O1 O2 O3 O4] & E1 & E2).
    pose proof (sivOk_finish Src Dst dv Level r nc L CS CD CF H LO) as F.
    specialize (fun a b c => F a b c PC false eq_refl). cbv beta iota in F.
    apply F; unfold r.
    + destruct (Nat.leb_spec Level (length common)) as [LE|GT].
      * rewrite (E1 LE) in O1. exact O1.
      * rewrite (E2 GT) in O1. rewrite (proj1 (zeroDst_frame _ _ _ _ _)). exact O1.
    + intros c EC. destruct (Nat.leb_spec Level (length common)) as [LE|GT].
      * rewrite (E1 LE) in O4. now apply O4.
      * rewrite (E2 GT) in O4. rewrite (proj2 (zeroDst_frame _ _ _ _ _)) in EC. now apply O4.
    + intro LE. rewrite (E1 LE) in O2, O3. split; [exact O2|]. apply O3. apply (H Level L). now apply LO.
  - (* both *)
    destruct (contains srcNest L) eqn:CT; cbn [andb negb].
    2:{ split; [exact H|discriminate]. }
    destruct (contains dstNest L') eqn:CT'; cbn [andb negb].
    2:{ split; [exact H|discriminate]. }
    destruct (Nat.eqb_spec L L') as [E|NE]; cbn [negb]; [|exact I]. subst L'.
    pose proof (mapSrc_level L CT) as LO. set (Level := mapSrc srcNest outDepth L) in *.
    assert (IL : In L all) by apply LO. cbn [CommonLevels lv]. cbv zeta.
    destruct (Nat.leb_spec 1 Level); cbn [andb negb]; [|exact I].
    destruct (Nat.leb_spec Level (length common)) as [LE|GT]; cbn [negb]; [|exact I].
    destruct (t_step _ _ _ _ _ _ T L a) as [NZ SG]. { rewrite ES, ED. cbn. auto. }
    assert (NZb : b e <> 0). { apply (t_step _ _ _ _ _ _ T L b). rewrite ES, ED. cbn. auto. }
    assert (EQ : eStart _ Src e + a e * x L = eStart _ Dst e + b e * y L).
    { unfold conflict, value in CF. rewrite ES, ED in CF. cbn [recsValue] in CF. lia. }
    destruct (H Level L (proj1 (proj2 LO) LE)) as [DA DO].
    assert (SY : symbolicRDIV _ Or a b (eStart _ Src) (eStart _ Dst) (UB L) (UB L) = false).
    { apply (C30_symbolic_rdiv _ Or SO _ _ _ _ _ _ e (x L) (y L)); [apply BX; exact IL|apply BY; exact IL|exact EQ]. }
    assert (FIN : forall r, answerOk (dv Level) r e (x L) (y L) ->
        (exists c, tConstr _ r = Some c /\ properLine e c) ->
        sivOk (if tIndep _ r then Disproved
          else bind (gcdLift _ Or Q srcNest dstNest Src Dst (setLevel dv Level (tDV _ r))) (fun dv' =>
            if symbolicRDIV _ Or a b (eStart _ Src) (eStart _ Dst) (UB L) (UB L) then Disproved
            else Go (dv', Some Level, setNew _ nc (tConstr _ r) L)))).
    { intros r [O1 O2 O3 O4] PC. apply (sivOk_finish Src Dst dv Level r nc L CS CD CF H LO O1 O4); auto. }
    destruct (same a b) eqn:SA.
    + assert (AO : answerOk (dv Level) (strongSIV _ Or a (eStart _ Src) (eStart _ Dst) (UB L) (dv Level)) e (x L) (y L)).
      { assert (EQ' : eStart _ Src e + a e * x L = eStart _ Dst e + a e * y L) by (rewrite EQ; now rewrite (ss_eq _ _ SS _ _ SA e)).
        exact (C26_strong_siv_partial _ Or SO a _ _ _ _ e _ _ SG NZ (BX L IL) (BY L IL) EQ' DA). }
      apply FIN; [exact AO|]. apply strong_constr; [exact NZ|apply AO].
    + destruct (same a (scNeg _ b)) eqn:SN.
      * assert (AO : answerOk (dv Level) (weakCrossingSIV _ Or a (eStart _ Src) (eStart _ Dst) (UB L) (dv Level)) e (x L) (y L)).
        { assert (EQ' : eStart _ Src e + a e * x L = eStart _ Dst e - a e * y L).
          { rewrite EQ. pose proof (ss_eq _ _ SS _ _ SN e) as V. unfold scNeg in V. rewrite V. lia. }
          exact (C27_weak_crossing_partial _ Or SO a _ _ _ _ e _ _ NZ (BX L IL) (BY L IL) EQ' DA). }
        apply FIN; [exact AO|]. apply crossing_constr; exact NZ.
      * destruct (exactSIVtest _ Or UB Bits a b (eStart _ Src) (eStart _ Dst) L (dv Level)) as [r|] eqn:ER; [|exact I].
        destruct (exact_ok L a b Src Dst (dv Level) r ES ED IL SA SN T CF DA ER) as [AO PC].
        apply FIN; assumption.
Qed.

Lemma testRDIV_ok Src Dst dv :
  chainOk Src -> chainOk Dst -> tame Or Bits m e Src Dst -> conflict e Src Dst x y -> dvOk dv ->
  incl (map fst (eRecs _ Src)) all -> incl (map fst (eRecs _ Dst)) all ->
  match testRDIV _ Or Q UB Bits srcNest dstNest Src Dst dv with
  | Go dv' => dvOk dv' | Disproved => False | _ => True end.
Proof.
  intros CS CD T CF H IS ID. unfold testRDIV.
  match goal with |- context [match ?o with Some _ => _ | None => Undef end] => destruct o as [[[[a b] L] L']|] eqn:EO end; [|exact I].
  assert (FACT : a e <> 0 /\ b e <> 0 /\ In L all /\ In L' all /\
     (Z.abs (a e) + Z.abs (b e)) * (Z.abs (eStart _ Dst e - eStart _ Src e) + 1) + m + 1 < 2 ^ (Bits - 1) /\
     exists i j, inLoop (UB L) e i /\ inLoop (UB L') e j /\ i <= m /\ j <= m /\
       eStart _ Src e + a e * i = eStart _ Dst e + b e * j).
  { unfold conflict, value in CF.
    destruct (eRecs _ Src) as [|(L1, a1) [|(L2, a2) [|? ?]]] eqn:ES;
    destruct (eRecs _ Dst) as [|(M1, b1) [|(M2, b2) [|? ?]]] eqn:ED; try discriminate;
      injection EO as <- <- <- <-; cbn [recsValue] in CF.
    - assert (I1 : In M1 all) by (apply ID; cbn; auto). assert (I2 : In M2 all) by (apply ID; cbn; auto).
      destruct (t_step _ _ _ _ _ _ T M1 b1) as [Z1 _]; [rewrite ES, ED; cbn; auto|].
      destruct (t_step _ _ _ _ _ _ T M2 b2) as [Z2 _]; [rewrite ES, ED; cbn; auto|].
      pose proof (t_small _ _ _ _ _ _ T M1 b1 M2 b2) as SM. rewrite ES, ED in SM.
      specialize (SM (or_introl eq_refl) (or_intror (or_introl eq_refl))). unfold scNeg. rewrite Z.abs_opp.
      split; [lia|]. split; [exact Z2|]. split; [exact I1|]. split; [exact I2|]. split; [exact SM|].
      exists (y M1), (y M2). split; [apply BY; exact I1|]. split; [apply BY; exact I2|].
      split; [apply MY; exact I1|]. split; [apply MY; exact I2|]. lia.
    - assert (I1 : In L1 all) by (apply IS; cbn; auto). assert (I2 : In M1 all) by (apply ID; cbn; auto).
      destruct (t_step _ _ _ _ _ _ T L1 a1) as [Z1 _]; [rewrite ES, ED; cbn; auto|].
      destruct (t_step _ _ _ _ _ _ T M1 b1) as [Z2 _]; [rewrite ES, ED; cbn; auto|].
      pose proof (t_small _ _ _ _ _ _ T L1 a1 M1 b1) as SM. rewrite ES, ED in SM.
      specialize (SM (or_introl eq_refl) (or_intror (or_introl eq_refl))).
      split; [exact Z1|]. split; [exact Z2|]. split; [exact I1|]. split; [exact I2|]. split; [exact SM|].
      exists (x L1), (y M1). split; [apply BX; exact I1|]. split; [apply BY; exact I2|].
      split; [apply MX; exact I1|]. split; [apply MY; exact I2|]. lia.
    - assert (I1 : In L1 all) by (apply IS; cbn; auto). assert (I2 : In L2 all) by (apply IS; cbn; auto).
      destruct (t_step _ _ _ _ _ _ T L1 a1) as [Z1 _]; [rewrite ES, ED; cbn; auto|].
      destruct (t_step _ _ _ _ _ _ T L2 a2) as [Z2 _]; [rewrite ES, ED; cbn; auto|].
      pose proof (t_small _ _ _ _ _ _ T L2 a2 L1 a1) as SM. rewrite ES, ED in SM.
      specialize (SM (or_intror (or_introl eq_refl)) (or_introl eq_refl)). unfold scNeg. rewrite Z.abs_opp.
      split; [exact Z2|]. split; [lia|]. split; [exact I2|]. split; [exact I1|]. split; [exact SM|].
      exists (x L2), (x L1). split; [apply BX; exact I2|]. split; [apply BX; exact I1|].
      split; [apply MX; exact I2|]. split; [apply MX; exact I1|]. lia. }
  destruct FACT as (Z1 & Z2 & I1 & I2 & SM & i & j & B1 & B2 & M1 & M2 & EQ).
  assert (EX : forall r, exactRDIVtest _ Or UB Bits a b (eStart _ Src) (eStart _ Dst) L L' = Some r -> r = false).
  { unfold exactRDIVtest. rewrite ENC. cbn [negb]. cbv zeta. intros r R.
    destruct (seConst _ Or (scSub _ (eStart _ Dst) (eStart _ Src))) as [C|] eqn:EC; [|congruence].
    destruct (seConst _ Or a) as [AM|] eqn:EA; [|congruence].
    destruct (seConst _ Or b) as [BM|] eqn:EB; [|congruence].
    pose proof (so_const _ SO _ _ EC e) as VD. pose proof (so_const _ SO _ _ EA e) as VA.
    pose proof (so_const _ SO _ _ EB e) as VB. unfold scSub in VD.
    rewrite VA in Z1. rewrite VB in Z2. rewrite VA, VB, VD in SM.
    assert (E' : AM * i - BM * j = C) by (rewrite <- VA, <- VB, <- VD; lia).
    rewrite (C30_exact_rdiv_partial Bits BITS AM BM C _ _ m i j Z1 Z2 SM (inLoopC_const L i B1)
              (inLoopC_const L' j B2) M1 M2 (fun u E => constUB_le L u I1 E) (fun u E => constUB_le L' u I2 E) E') in R.
    congruence. }
  destruct (exactRDIVtest _ Or UB Bits a b (eStart _ Src) (eStart _ Dst) L L') as [[|]|]; [|  |exact I].
  { specialize (EX true eq_refl). discriminate. }
  pose proof (gcdLift_ok Src Dst dv CS CD CF H) as G.
  destruct (gcdLift _ Or Q srcNest dstNest Src Dst dv) as [| | |dv']; cbn [bind]; auto.
  rewrite (C30_symbolic_rdiv _ Or SO _ _ _ _ _ _ e i j B1 B2 EQ). exact G.
Qed.

Lemma testSIV_ok' Src Dst dv nc :
  chainOk Src -> chainOk Dst -> tameSimple Or Bits m e Src Dst -> conflict e Src Dst x y -> dvOk dv ->
  sivOk (testSIV _ Or Q same UB Bits srcNest dstNest outDepth lv Src Dst dv nc).
Proof.
  intros CS CD T CF H. destruct (Nat.leb_spec (length (eRecs _ Src ++ eRecs _ Dst)) 2) as [LE|GT].
  - apply testSIV_ok; auto.
  - unfold testSIV. destruct (eRecs _ Src) as [|(L, a) [|? ?]]; destruct (eRecs _ Dst) as [|(L', b) [|? ?]]; cbn in GT; try exact I; lia.
Qed.
Lemma testRDIV_ok' Src Dst dv :
  chainOk Src -> chainOk Dst -> tameSimple Or Bits m e Src Dst -> conflict e Src Dst x y -> dvOk dv ->
  incl (map fst (eRecs _ Src)) all -> incl (map fst (eRecs _ Dst)) all ->
  match testRDIV _ Or Q UB Bits srcNest dstNest Src Dst dv with
  | Go dv' => dvOk dv' | Disproved => False | _ => True end.
Proof.
  intros CS CD T CF H IS ID. destruct (Nat.leb_spec (length (eRecs _ Src ++ eRecs _ Dst)) 2) as [LE|GT].
  - apply testRDIV_ok; auto.
  - unfold testRDIV. destruct (eRecs _ Src) as [|(L, a) [|(L2, a2) [|? ?]]]; destruct (eRecs _ Dst) as [|(L', b) [|(L3, b3) [|? ?]]]; cbn in GT; try exact I; lia.
Qed.
Lemma testMIV_ok Src Dst Loops dv :
  chainOk Src -> chainOk Dst -> conflict e Src Dst x y -> dvOk dv ->
  match testMIVLift _ Or Q UB srcNest dstNest lv Src Dst Loops dv with
  | Go dv' => dvOk dv' | Disproved => False | _ => True end.
Proof.
  intros CS CD CF H. unfold testMIVLift, lift.
  assert (EL : establishNestingLevels (s ++ common) (d ++ common) = Some lv) by (apply establish_ok; exact ND).
  assert (B1 : inNest UB e (s ++ common) x) by (intros L I; apply BX; apply in_src; exact I).
  assert (B2 : inNest UB e (d ++ common) y) by (intros L I; apply BY; apply in_dst; exact I).
  destruct (testMIV _ Or Q UB srcNest dstNest lv Loops Src Dst _) as [(ind, dd)|] eqn:ET; [|exact I].
  destruct (C32_testMIV_sound _ Or Q UB SO SQ s d common ND lv EL Src Dst CS CD _ _ _ _ ET e x y B1 B2 CF
             (dvOk_admits dv H)) as [-> A].
  now apply dvOk_with.
Qed.
Lemma testZIV_ok Src Dst dv :
  eRecs _ Src = [] -> eRecs _ Dst = [] -> conflict e Src Dst x y -> dvOk dv ->
  match testZIVLift _ Or Src Dst dv with Go dv' => dvOk dv' | Disproved => False | _ => True end.
Proof.
  intros ES ED CF H. unfold testZIVLift. unfold conflict, value in CF. rewrite ES, ED in CF.
  cbn [recsValue] in CF. rewrite (C26_ziv _ Or SO _ _ e) by lia. exact H.
Qed.

(** *** Groups of coupled subscripts *)
Lemma levelOf_inj L L' K : levelOf L K -> levelOf L' K -> L = L'.
Proof.
  intros (_ & _ & A) (_ & _ & B).
  destruct (C32_nesting_levels s d common ND) as (lv' & EL & _ & _ & _ & _ & _ & X).
  rewrite (establish_ok s d common ND) in EL. injection EL as EL. fold lv in EL. rewrite <- EL in X.
  fold srcNest dstNest in X.
  destruct A as [A|A]; destruct B as [B|B].
  - unfold mapSrcLoop in *. apply depthIn_atDepth in A. apply depthIn_atDepth in B. eapply atDepth_inj; eassumption.
  - exact (X L L' K A B).
  - symmetry. exact (X L' L K B A).
  - unfold mapDstLoop in *.
    destruct (depthIn dstNest L) as [D|] eqn:E1; [|discriminate].
    destruct (depthIn dstNest L') as [D'|] eqn:E2; [|discriminate].
    assert (D = D').
    { cbn [CommonLevels SrcLevels lv] in *.
      destruct (Nat.ltb_spec (length common) D); destruct (Nat.ltb_spec (length common) D');
        injection A as A; injection B as B; lia. }
    subst D'. apply depthIn_atDepth in E1. apply depthIn_atDepth in E2. eapply atDepth_inj; eassumption.
Qed.

Lemma intersect_shape CUB X Y R ch : intersectConstraints _ Or CUB X Y = Some (R, ch) ->
  properLine e X -> properLine e Y -> properLine e R.
Proof.
  intros H PX PY. unfold intersectConstraints, intersectLines in H. cbv zeta in H.
  repeat match type of H with
  | (if ?c then _ else _) = _ => destruct c
  | Some (if ?c then _ else _) = _ => destruct c
  | (match ?o with Some _ => _ | None => _ end) = _ => destruct o
  | Some (match ?o with Some _ => _ | None => _ end) = _ => destruct o
  | (let '(_, _) := ?o in _) = _ => destruct o
  | (match ?o with (_, _) => _ end) = _ => destruct o
  end; try discriminate; injection H as <- _; auto; exact I.
Qed.
Lemma intersect_any CUB X Y R ch : intersectConstraints _ Or CUB X Y = Some (R, ch) ->
  isAnyC _ X = true -> R = (if ch then Y else X).
Proof.
  intros H A. unfold intersectConstraints in H. rewrite A in H.
  destruct (isPointC _ Y); [discriminate|]. destruct (isAnyC _ Y); injection H as <- <-; reflexivity.
Qed.

(* loops of chains *)
Lemma zeroCoeff_incl (recs : list (loop * scev Env)) L : incl (map fst (zeroCoeffIn _ recs L)) (map fst recs).
Proof.
  induction recs as [|(M, a) recs IH]; [apply incl_refl|]. cbn [zeroCoeffIn].
  destruct (Nat.eqb M L); cbn [map fst]; intros z I; [now right|].
  destruct I as [I|I]; [now left|right; exact (IH z I)].
Qed.
Lemma addToCoeff_incl recs start L V : incl (map fst (addToCoeffIn _ Or Q recs start L V)) (L :: map fst recs).
Proof.
  induction recs as [|(M, a) recs IH]; [apply incl_refl|]. cbn [addToCoeffIn].
  destruct (Nat.eqb M L).
  - cbv zeta. destruct (isZero _ Or _); cbn [map fst]; intros z I; cbn; tauto.
  - destruct (seInvariantIn _ Q _ _ _); cbn [map fst]; intros z I; [exact I|].
    destruct I as [I|I]; [cbn; tauto|]. apply IH in I. cbn in *. tauto.
Qed.
Lemma propagateOne_incl Src Dst L c p : propagateOne _ Or Q Src Dst L c = Some p ->
  incl (map fst (eRecs _ Src)) all -> incl (map fst (eRecs _ Dst)) all -> (c = CAny _ \/ In L all) ->
  incl (map fst (eRecs _ (pSrc _ p))) all /\ incl (map fst (eRecs _ (pDst _ p))) all.
Proof.
  intros H IS ID IL.
  assert (MM : forall recs V, map fst (map (fun p : loop * scev Env => (fst p, scMul _ (snd p) V)) recs) = map fst recs).
  { intros. rewrite map_map. reflexivity. }
  assert (ZI : forall (recs : list (loop * scev Env)), incl (map fst recs) all -> incl (map fst (zeroCoeffIn _ recs L)) all).
  { intros recs X. eapply incl_tran; [apply zeroCoeff_incl|exact X]. }
  assert (AI : forall recs start V, In L all -> incl (map fst recs) all -> incl (map fst (addToCoeffIn _ Or Q recs start L V)) all).
  { intros recs start V X Y. eapply incl_tran; [apply addToCoeff_incl|]. intros z [Z|Z]; [now subst|auto]. }
  destruct c; cbn [propagateOne] in H.
  - injection H as <-. auto.
  - injection H as <-. cbn. auto.
  - injection H as <-. destruct IL as [IL|IL]; [discriminate|]. unfold propagateDistance. cbv zeta.
    destruct (isZero _ Or _); cbn; auto.
  - destruct IL as [IL|IL]; [discriminate|]. unfold propagateLine in H. cbv zeta in H.
    repeat match type of H with
    | (if ?c then _ else _) = _ => destruct c
    | (match ?o with Some _ => _ | None => _ end) = _ => destruct o
    end; try discriminate; injection H as <-; cbn; auto.
    split; [apply ZI|apply AI; [exact IL|]]; rewrite MM; assumption.
  - injection H as <-. auto.
Qed.

Hypothesis INVQ : forall recs start L, seInvariantIn _ Q recs start L = true -> ~ In L (map fst recs).

Definition chains (Src Dst : expr Env) : Prop :=
  chainOk Src /\ chainOk Dst /\ incl (map fst (eRecs _ Src)) all /\ incl (map fst (eRecs _ Dst)) all /\
  conflict e Src Dst x y.
Definition lcOk (lc : loop * constr Env) : Prop :=
  properLine e (snd lc) /\ constrHolds e (snd lc) (x (fst lc)) (y (fst lc)) /\
  (snd lc = CAny _ \/ In (fst lc) all).
Lemma propagateOne_ok Src Dst L c p : propagateOne _ Or Q Src Dst L c = Some p ->
  lcOk (L, c) -> chains Src Dst -> chains (pSrc _ p) (pDst _ p).
Proof.
  intros H (A & B & C) (CS & CD & IS & ID & CF). cbn [fst snd] in *.
  destruct (propagateOne_chain Or Q SO INVQ _ _ _ _ _ CS CD H) as (C1 & C2 & _).
  destruct (propagateOne_incl _ _ _ _ _ H IS ID C) as (C3 & C4).
  split; [exact C1|]. split; [exact C2|]. split; [exact C3|]. split; [exact C4|].
  exact (propagateOne_kept Or Q SO _ _ _ _ _ e x y H A B CF).
Qed.
Lemma propagate_ok cs : forall Src Dst ch S' D' ix, propagate _ Or Q Src Dst cs = Some (ch, S', D', ix) ->
  Forall lcOk cs -> chains Src Dst -> chains S' D'.
Proof.
  induction cs as [|(L, c) cs IH]; intros Src Dst ch S' D' ix H F C; cbn [propagate] in H.
  - injection H as <- <- <- <-. exact C.
  - destruct (propagateOne _ Or Q Src Dst L c) as [p|] eqn:E; [|discriminate].
    destruct (propagate _ Or Q (pSrc _ p) (pDst _ p) cs) as [[[[ch' S2] D2] ix']|] eqn:EP; [|discriminate].
    injection H as <- <- <- <-. inversion F as [|? ? F1 F2]; subst.
    exact (IH _ _ _ _ _ _ EP F2 (propagateOne_ok _ _ _ _ _ E F1 C)).
Qed.

Lemma classify_ZIV (Src Dst : expr Env) Loops : classifyPair _ srcNest dstNest outDepth lv Src Dst = Some (ZIV, Loops) ->
  eRecs _ Src = [] /\ eRecs _ Dst = [].
Proof.
  unfold classifyPair. cbv zeta.
  match goal with |- context [forallb ?f ?l && forallb ?g ?k] => destruct (forallb f l) eqn:F1; destruct (forallb g k) eqn:F2 end;
    cbn [andb]; try discriminate.
  set (SL := levelsOf Env _ Src). set (DL := levelsOf Env _ Dst). intro H.
  assert (Z : countBits (NL lv) (orBits SL DL) = 0%nat).
  { destruct (Nat.eqb_spec (countBits (NL lv) (orBits SL DL)) 0); [assumption|].
    destruct (Nat.eqb _ 1); [discriminate|]. destruct (_ && _); discriminate. }
  unfold countBits in Z. apply length_zero_iff_nil in Z.
  assert (NO : forall K, (K < NL lv)%nat -> orBits SL DL K = false).
  { intros K LK. apply not_true_is_false. intro T.
    assert (X : In K (setBits (NL lv) (orBits SL DL))) by (apply filter_In; split; [apply in_seq; lia|exact T]).
    rewrite Z in X. destruct X. }
  split.
  - destruct (eRecs _ Src) as [|(L, a) l] eqn:ES; [reflexivity|exfalso]. cbn [forallb fst] in F1.
    apply andb_true_iff in F1. destruct F1 as [F1 _]. apply Nat.ltb_lt in F1.
    specialize (NO _ F1). unfold orBits, SL, levelsOf in NO. rewrite ES in NO. cbn [existsb fst] in NO.
    rewrite Nat.eqb_refl in NO. discriminate.
  - destruct (eRecs _ Dst) as [|(L, a) l] eqn:ES; [reflexivity|exfalso]. cbn [forallb fst] in F2.
    apply andb_true_iff in F2. destruct F2 as [F2 _]. apply Nat.ltb_lt in F2.
    specialize (NO _ F2). unfold orBits, DL, levelsOf in NO. rewrite ES in NO. cbn [existsb fst] in NO.
    rewrite Nat.eqb_refl, orb_true_r in NO. discriminate.
Qed.

Section Groups.
Variable n : nat.
Variable pt : parts Env.
Notation tameS := (tameState Or Bits m e n).
Definition cplP (P : nat) : Prop := exists SI, (SI < n)%nat /\ ptCpl _ pt SI = true /\ pGroup _ (ptPairs _ pt SI) P = true.
Definition mv (P : nat) : Prop := cplP P /\ pCls _ (ptPairs _ pt P) <> SIV.
Definition pairOk (p : pair Env) : Prop :=
  match pSub _ p with
  | Linear _ Src Dst => chains Src Dst /\
      classifyPair _ srcNest dstNest outDepth lv Src Dst = Some (pCls _ p, pLoops _ p)
  | NonLinear _ _ => True
  end.
Definition consOk (K : nat) (c : cons Env) : Prop :=
  constrHolds e (fst c) (x (snd c)) (y (snd c)) /\ properLine e (fst c) /\
  (fst c = CAny _ \/ levelOf (snd c) K).

Record Inv (t : st Env) : Prop := {
  v_dv : dvOk (sDV _ t);
  v_cons : forall K, consOk K (sCons _ t K);
  v_pairs : forall P, (P < n)%nat -> pairOk (sPairs _ t P);
  v_same : forall P, sPairs _ t P = ptPairs _ pt P \/ mv P;
  v_group : forall P, pGroup _ (sPairs _ t P) = pGroup _ (ptPairs _ pt P);
  v_mivs : forall P, sMivs _ t P = true -> mv P;
  v_levels : forall K, sLevels _ t K = true -> exists L, levelOf L K }.
Definition good (r : res (st Env)) : Prop := match r with Go t => Inv t | Disproved => False | _ => True end.

Lemma sivStep_ok SJ t : (SJ < n)%nat -> tameS t -> Inv t ->
  good (sivStep _ Or Q same UB Bits srcNest dstNest outDepth lv SJ t).
Proof.
  intros LN TM V. unfold sivStep. pose proof (v_pairs t V SJ LN) as PO. unfold pairOk in PO.
  destruct (pSub _ (sPairs _ t SJ)) as [Src Dst|] eqn:EPS; [|exact I].
  destruct PO as ((CS & CD & IS & ID & CF) & CP).
  pose proof (testSIV_ok' Src Dst (sDV _ t) (sNew _ t) CS CD (TM _ _ _ LN EPS) CF (v_dv t V)) as T.
  destruct (testSIV _ Or Q same UB Bits srcNest dstNest outDepth lv Src Dst (sDV _ t) (sNew _ t)) as [| | |[[dv oL] nc]]; cbn [bind]; auto.
  destruct T as [T1 T2]. destruct oL as [Level|]; [|exact I].
  destruct (T2 Level eq_refl) as (T3 & T4 & T5). clear T2.
  pose proof (v_cons t V Level) as CO. destruct (sCons _ t Level) as [X LX] eqn:EX.
  destruct CO as (X1 & X2 & X3). cbn [fst snd] in X1, X2, X3.
  destruct (intersectConstraints _ Or (constUB _ Or UB LX) X (fst nc)) as [[R ch]|] eqn:EI; [|exact I].
  assert (RO : consOk Level (R, if isAnyC _ X then snd nc else LX)).
  { split; [|split]; cbn [fst snd].
    - destruct (isAnyC _ X) eqn:AX.
      + rewrite (intersect_any _ _ _ _ _ EI AX). destruct ch; [exact T4|]. destruct X; try discriminate. exact I.
      + destruct X3 as [X3|X3]; [subst X; discriminate|].
        pose proof (levelOf_inj _ _ _ X3 T3) as EL.
        destruct (C33_intersection _ Or SO _ _ _ _ _ EI) as (A & _).
        apply A; [apply inLoopC_const, BX, X3|apply inLoopC_const, BY, X3|exact X1|]. rewrite EL. exact T4.
    - exact (intersect_shape _ _ _ _ _ EI X2 T5).
    - destruct (isAnyC _ X) eqn:AX; [right; exact T3|].
      destruct X3 as [X3|X3]; [subst X; discriminate|right; exact X3]. }
  destruct (ch && isEmptyC _ R) eqn:DE.
  { apply andb_true_iff in DE. destruct DE as [_ DE]. destruct R; try discriminate. destruct RO as [RO _]. exact RO. }
  split; cbn [sDV sCons sPairs sMivs sSivs sLevels].
  - exact T1.
  - intro K. destruct ch; [|exact (v_cons t V K)]. unfold setLevel. destruct (Nat.eqb_spec K Level) as [E|NE]; [|exact (v_cons t V K)].
    subst K. exact RO.
  - exact (v_pairs t V).
  - exact (v_same t V).
  - exact (v_group t V).
  - exact (v_mivs t V).
  - intro K. unfold addBit, setLevel. destruct (Nat.eqb_spec K Level) as [E|NE]; [intros _; subst; eauto|exact (v_levels t V K)].
Qed.

Lemma propStep_ok SJ t : (SJ < n)%nat -> mv SJ -> Inv t ->
  good (propStep _ Or Q srcNest dstNest outDepth lv SJ t).
Proof.
  intros LN M V. unfold propStep. cbv zeta. pose proof (v_pairs t V SJ LN) as PO. unfold pairOk in PO.
  destruct (pSub _ (sPairs _ t SJ)) as [Src Dst|]; [|exact I].
  destruct PO as (C & CP).
  set (cs := map _ _).
  destruct (propagate _ Or Q Src Dst cs) as [[[[[|] S'] D'] ix]|] eqn:EP; [|exact V|exact I].
  assert (F : Forall lcOk cs).
  { unfold cs. apply Forall_forall. intros lc IL. apply in_map_iff in IL. destruct IL as (K & <- & _).
    destruct (v_cons t V K) as (A & B & D). split; [exact B|]. split; [exact A|]. cbn [fst snd].
    destruct D as [D|D]; [now left|right; apply D]. }
  pose proof (propagate_ok _ _ _ _ _ _ _ EP F C) as C'.
  destruct (classifyPair _ srcNest dstNest outDepth lv S' D') as [[c Loops]|] eqn:EC; [|exact I].
  set (ps := setLevel (sPairs _ t) SJ _).
  assert (PS1 : forall P, (P < n)%nat -> pairOk (ps P)).
  { intros P LP. unfold ps, setLevel. destruct (Nat.eqb_spec P SJ) as [E|NE]; [|exact (v_pairs t V P LP)].
    subst P. unfold pairOk. cbn [pSub pCls pLoops]. auto. }
  assert (PS2 : forall P, ps P = ptPairs _ pt P \/ mv P).
  { intro P. unfold ps, setLevel. destruct (Nat.eqb_spec P SJ) as [E|NE]; [right; now subst|exact (v_same t V P)]. }
  assert (PS3 : forall P, pGroup _ (ps P) = pGroup _ (ptPairs _ pt P)).
  { intro P. unfold ps, setLevel. destruct (Nat.eqb_spec P SJ) as [E|NE]; [subst; cbn|]; exact (v_group t V _). }
  assert (MV1 : forall P, setLevel (sMivs _ t) SJ false P = true -> mv P).
  { intro P. unfold setLevel. destruct (Nat.eqb P SJ); [discriminate|exact (v_mivs t V P)]. }
  destruct c.
  - destruct (classify_ZIV _ _ _ EC) as [Z1 Z2]. destruct C' as (? & ? & ? & ? & CF').
    pose proof (testZIV_ok S' D' (sDV _ t) Z1 Z2 CF' (v_dv t V)) as TZ.
    destruct (testZIVLift _ Or S' D' (sDV _ t)) as [| | |dv]; cbn [bind]; auto.
    split; cbn [sDV sCons sPairs sMivs sSivs sLevels]; auto; try apply V.
  - split; cbn [sDV sCons sPairs sMivs sSivs sLevels]; auto; try apply V.
  - split; cbn [sDV sCons sPairs sMivs sSivs sLevels]; auto; try apply V.
  - split; cbn [sDV sCons sPairs sMivs sSivs sLevels]; auto; try apply V.
Qed.

Lemma setBits_iff k b K : In K (setBits k b) <-> (K < k)%nat /\ b K = true.
Proof. unfold setBits. rewrite filter_In, in_seq. split; intros [A B]; (split; [lia|exact B]). Qed.
Lemma good_bind (r : res (st Env)) f : good r -> (forall t, r = Go t -> Inv t -> good (f t)) -> good (bind r f).
Proof. intros A B. destruct r as [| | |a]; cbn [bind]; auto. Qed.
Lemma forEach_good f l : forall t, Inv t ->
  (forall k u, In k l -> Inv u -> In u (course f l t) -> good (f k u)) -> good (forEach f l t).
Proof.
  induction l as [|k l IH]; intros t V H; cbn [forEach]; [exact V|].
  apply good_bind.
  - apply H; [now left|exact V|cbn; auto].
  - intros t1 E V1. apply IH; [exact V1|]. intros k' u IK U IU. apply H; [now right|exact U|].
    cbn [course]. right. rewrite E. exact IU.
Qed.
Lemma course_last f l : forall t t', forEach f l t = Go t' -> In t' (@course (st Env) f l t).
Proof.
  induction l as [|k l IH]; intros t t' H; cbn [forEach course] in *.
  - injection H as <-. now left.
  - right. destruct (f k t) as [| | |t1]; cbn [bind] in H; try discriminate. apply IH. exact H.
Qed.
Notation courseR := (courseOfRounds Or Q same UB Bits srcNest dstNest outDepth lv n).
Lemma rounds_ok fuel : forall t, Inv t -> (forall u, In u (courseR fuel t) -> Inv u -> tameS u) ->
  good (rounds _ Or Q same UB Bits srcNest dstNest outDepth lv n fuel t).
Proof.
  induction fuel as [|fuel IH]; intros t V TM; cbn [rounds courseOfRounds] in *;
    (destruct (anyBits n (sSivs _ t)); [|exact V]); [exact I|].
  assert (V0 : Inv (clearChanged _ t)) by (destruct V; split; assumption).
  apply good_bind.
  - apply forEach_good; [exact V0|]. intros k u IK U IU. apply setBits_iff in IK.
    apply sivStep_ok; [apply IK| |exact U]. apply TM; [|exact U]. right. apply in_or_app. left. exact IU.
  - intros t1 E1 V1. rewrite E1 in TM. destruct (sChanged _ t1).
    + apply good_bind.
      * apply forEach_good; [exact V1|]. intros k u IK U IU. apply setBits_iff in IK.
        apply propStep_ok; [apply IK|exact (v_mivs t1 V1 k (proj2 IK))|exact U].
      * intros t2 E2 V2. rewrite E2 in TM. apply IH; [exact V2|]. intros u IU U. apply TM; [|exact U].
        right. apply in_or_app. right. apply in_or_app. right. exact IU.
    + cbn [bind]. apply IH; [exact V1|]. intros u IU U. apply TM; [|exact U]. right. apply in_or_app. right. exact IU.
Qed.
Lemma rounds_last fuel : forall t t', rounds _ Or Q same UB Bits srcNest dstNest outDepth lv n fuel t = Go t' ->
  In t' (courseR fuel t).
Proof.
  induction fuel as [|fuel IH]; intros t t' H; cbn [rounds courseOfRounds] in *; (destruct (anyBits n (sSivs _ t)); [|injection H as <-; now left]);
    [discriminate|].
  right. apply in_or_app. right.
  destruct (forEach (sivStep _ Or Q same UB Bits srcNest dstNest outDepth lv) _ _) as [| | |t1]; cbn [bind] in H; try discriminate.
  destruct (sChanged _ t1).
  - apply in_or_app. right. destruct (forEach (propStep _ Or Q srcNest dstNest outDepth lv) _ _) as [| | |t2]; cbn [bind] in H; try discriminate.
    apply IH. exact H.
  - cbn [bind] in H. apply IH. exact H.
Qed.
(* steps which keep the subscripts *)
Lemma forEach_keep f l (A : st Env -> Prop) : (forall k u, In k l -> A u -> Inv u -> good (f k u) /\ forall u', f k u = Go u' -> A u') ->
  forall t, A t -> Inv t -> good (forEach f l t) /\ forall t', forEach f l t = Go t' -> A t'.
Proof.
  induction l as [|k l IH]; intros H t At V; cbn [forEach].
  - split; [exact V|]. intros t' E. injection E as <-. exact At.
  - destruct (H k t (or_introl eq_refl) At V) as [H1 H2].
    destruct (f k t) as [| | |t1]; cbn [bind]; [split; [exact I|discriminate]|split; [exact I|discriminate]|destruct H1|].
    apply IH; [|apply H2; reflexivity|exact H1]. intros j u IJ. apply H. now right.
Qed.
Lemma rdivStep_ok SJ t : (SJ < n)%nat -> tameS t -> Inv t -> good (rdivStep _ Or Q UB Bits srcNest dstNest SJ t).
Proof.
  intros LN TM V. unfold rdivStep. cbv zeta. pose proof (v_pairs t V SJ LN) as PO. unfold pairOk in PO.
  destruct (pSub _ (sPairs _ t SJ)) as [Src Dst|] eqn:EPS; [|exact V].
  destruct PO as ((CS & CD & IS & ID & CF) & CP).
  destruct (pCls _ (sPairs _ t SJ)); try exact V.
  pose proof (testRDIV_ok' Src Dst (sDV _ t) CS CD (TM _ _ _ LN EPS) CF (v_dv t V) IS ID) as T.
  destruct (testRDIV _ Or Q UB Bits srcNest dstNest Src Dst (sDV _ t)) as [| | |dv]; cbn [bind]; auto.
  destruct V. split; cbn [sDV sCons sPairs sMivs sSivs sLevels]; auto.
  intros P. unfold setLevel. destruct (Nat.eqb P SJ); [discriminate|auto].
Qed.
Lemma rdivStep_pairs SJ t t' : rdivStep _ Or Q UB Bits srcNest dstNest SJ t = Go t' -> sPairs _ t' = sPairs _ t.
Proof.
  unfold rdivStep. cbv zeta. destruct (pSub _ (sPairs _ t SJ)); [|intro H; injection H as <-; reflexivity].
  destruct (pCls _ (sPairs _ t SJ)); try (intro H; injection H as <-; reflexivity).
  destruct (testRDIV _ Or Q UB Bits srcNest dstNest _ _ (sDV _ t)) as [| | |dv]; cbn [bind]; try discriminate.
  intro H; injection H as <-; reflexivity.
Qed.
Lemma mivStep_ok SJ t : (SJ < n)%nat -> Inv t -> good (mivStep _ Or Q UB srcNest dstNest lv SJ t).
Proof.
  intros LN V. unfold mivStep. cbv zeta. pose proof (v_pairs t V SJ LN) as PO. unfold pairOk in PO.
  destruct (pSub _ (sPairs _ t SJ)) as [Src Dst|]; [|exact I].
  destruct PO as ((CS & CD & IS & ID & CF) & CP).
  destruct (pCls _ (sPairs _ t SJ)); try exact I.
  pose proof (testMIV_ok Src Dst (pLoops _ (sPairs _ t SJ)) (sDV _ t) CS CD CF (v_dv t V)) as T.
  destruct (testMIVLift _ Or Q UB srcNest dstNest lv Src Dst _ (sDV _ t)) as [| | |dv]; cbn [bind]; auto.
  destruct V. split; cbn [sDV sCons sPairs sMivs sSivs sLevels]; auto.
Qed.
Lemma dirStep_ok SJ t L : levelOf L SJ -> (SJ <= length common)%nat -> Inv t -> good (dirStep _ Or SJ t).
Proof.
  intros LO LE V. unfold dirStep.
  destruct (updateDirection _ Or (sDV _ t SJ) (fst (sCons _ t SJ))) as [v|] eqn:EU; [|exact I].
  pose proof (proj1 (proj2 LO) LE) as AD.
  destruct (v_cons t V SJ) as (A & B & C).
  assert (OK : dirAdmits (dvDir _ v) (x L) (y L) /\ distOk v e (x L) (y L)).
  { destruct (v_dv t V SJ L AD) as [D1 D2].
    destruct C as [C|C].
    - rewrite C in EU. cbn [updateDirection] in EU. injection EU as <-. auto.
    - pose proof (levelOf_inj _ _ _ C LO) as EL. rewrite EL in A.
      destruct (updateDirection_ok Or SO _ _ _ e _ _ EU A) as (U1 & U2 & _). auto. }
  rewrite (dirAdmits_notempty _ _ _ (proj1 OK)).
  destruct V. split; cbn [sDV sCons sPairs sMivs sSivs sLevels]; auto.
  apply dvOk_set; [assumption|]. intros L' A'. rewrite (atDepth_inj _ _ _ _ A' AD). exact OK.
Qed.
Lemma groupStep_ok SI t : (SI < n)%nat -> ptCpl _ pt SI = true -> Inv t ->
  (forall u, In u (courseR (S n) (groupStart _ SI t)) -> Inv u -> tameS u) ->
  good (groupStep _ Or Q same UB Bits srcNest dstNest outDepth lv n SI t).
Proof.
  intros LN CP V TM. unfold groupStep.
  assert (V0 : Inv (groupStart _ SI t)).
  { unfold groupStart. cbv zeta. split; cbn [sDV sCons sPairs sMivs sSivs sLevels]; try apply V.
    + intros P H. apply andb_true_iff in H. destruct H as [H1 H2].
      destruct (v_same t V P) as [E|M]; [|exact M]. split.
      * exists SI. split; [exact LN|]. split; [exact CP|]. rewrite <- (v_group t V SI). exact H1.
      * rewrite <- E. destruct (pCls _ (sPairs _ t P)); discriminate.
    + discriminate. }
  apply good_bind.
  - apply rounds_ok; [exact V0|exact TM].
  - intros t1 E1 V1. pose proof (TM t1 (rounds_last _ _ _ E1) V1) as TM1.
    apply good_bind.
    + apply (forEach_keep _ _ (fun u => sPairs _ u = sPairs _ t1)); [|reflexivity|exact V1].
      intros k u IK EU U. apply setBits_iff in IK. split.
      * apply rdivStep_ok; [apply IK| |exact U]. intros P Src Dst LP. rewrite EU. apply TM1. exact LP.
      * intros u' E'. rewrite (rdivStep_pairs _ _ _ E'). exact EU.
    + intros t2 _ V2. apply good_bind.
      * apply forEach_good; [exact V2|]. intros k u IK U _. apply setBits_iff in IK. apply mivStep_ok; [apply IK|exact U].
      * intros t3 _ V3. apply forEach_good; [exact V3|]. intros k u IK U _.
        apply filter_In in IK. destruct IK as [IK LE]. apply setBits_iff in IK. destruct IK as [_ IK].
        apply Nat.leb_le in LE. cbn [CommonLevels lv] in LE.
        destruct (v_levels t3 V3 k IK) as (L & LO). exact (dirStep_ok k u L LO LE U).
Qed.

Definition sepGood (r : res (dvec Env * cons Env)) : Prop :=
  match r with Go (dv, _) => dvOk dv | Disproved => False | _ => True end.
Hypothesis pt_pairs : forall P, (P < n)%nat -> pairOk (ptPairs _ pt P).
Hypothesis pt_tame : forall P Src Dst, (P < n)%nat -> pSub _ (ptPairs _ pt P) = Linear _ Src Dst -> tameSimple Or Bits m e Src Dst.
Lemma sepStep_ok SI t : (SI < n)%nat -> dvOk (fst t) ->
  sepGood (sepStep _ Or Q same UB Bits srcNest dstNest outDepth lv (ptPairs _ pt) SI t).
Proof.
  intros LN V. destruct t as [dv nc]. cbn [fst] in V. unfold sepStep. pose proof (pt_pairs SI LN) as PO. unfold pairOk in PO.
  destruct (pSub _ (ptPairs _ pt SI)) as [Src Dst|] eqn:EPS; [|exact I].
  destruct PO as ((CS & CD & IS & ID & CF) & CP).
  destruct (pCls _ (ptPairs _ pt SI)) eqn:EC.
  - destruct (classify_ZIV _ _ _ CP) as [Z1 Z2].
    pose proof (testZIV_ok Src Dst dv Z1 Z2 CF V) as T.
    destruct (testZIVLift _ Or Src Dst dv) as [| | |dv']; cbn [bind]; auto.
  - pose proof (testSIV_ok' Src Dst dv nc CS CD (pt_tame _ _ _ LN EPS) CF V) as T.
    destruct (testSIV _ Or Q same UB Bits srcNest dstNest outDepth lv Src Dst dv nc) as [| | |[[dv' oL] nc']]; cbn [bind]; auto. apply T.
  - pose proof (testRDIV_ok' Src Dst dv CS CD (pt_tame _ _ _ LN EPS) CF V IS ID) as T.
    destruct (testRDIV _ Or Q UB Bits srcNest dstNest Src Dst dv) as [| | |dv']; cbn [bind]; auto.
  - pose proof (testMIV_ok Src Dst (pLoops _ (ptPairs _ pt SI)) dv CS CD CF V) as T.
    destruct (testMIVLift _ Or Q UB srcNest dstNest lv Src Dst _ dv) as [| | |dv']; cbn [bind]; auto.
Qed.
Lemma sep_ok l : (forall k, In k l -> (k < n)%nat) -> forall t, dvOk (fst t) ->
  sepGood (forEach (sepStep _ Or Q same UB Bits srcNest dstNest outDepth lv (ptPairs _ pt)) l t).
Proof.
  intros H t V. pose proof (forEach_inv (sepStep _ Or Q same UB Bits srcNest dstNest outDepth lv (ptPairs _ pt))
    (fun t => dvOk (fst t)) l) as F.
  assert (X : match forEach (sepStep _ Or Q same UB Bits srcNest dstNest outDepth lv (ptPairs _ pt)) l t with
    | Go s' => dvOk (fst s') | Disproved => False | _ => True end).
  { apply F; [|exact V]. intros k u IK U. pose proof (sepStep_ok k u (H k IK) U) as G1. unfold sepGood in G1.
    destruct (sepStep _ _ _ _ _ _ _ _ _ _ _ _ _) as [| | |[dv' nc']]; auto. }
  unfold sepGood. destruct (forEach _ l t) as [| | |[dv' nc']]; auto.
Qed.

Lemma groups_inv l : forall t, (forall k, In k l -> (k < n)%nat /\ ptCpl _ pt k = true) -> Inv t ->
  (forall u, In u (courseOfGroups Or Q same UB Bits srcNest dstNest outDepth lv n l t) -> Inv u -> tameS u) ->
  good (forEach (groupStep _ Or Q same UB Bits srcNest dstNest outDepth lv n) l t).
Proof.
  induction l as [|k l IH]; intros t HL V TM; cbn [forEach]; [exact V|]. cbn [courseOfGroups] in TM.
  apply good_bind.
  - apply groupStep_ok; [apply HL; now left|apply HL; now left|exact V|].
    intros u IU U. apply TM; [apply in_or_app; now left|exact U].
  - intros t1 E1 V1. rewrite E1 in TM. apply IH; [intros j IJ; apply HL; now right|exact V1|].
    intros u IU U. apply TM; [apply in_or_app; now right|exact U].
Qed.
Lemma groups_ok dv nc : dvOk dv ->
  (forall u, In u (courseOfGroups Or Q same UB Bits srcNest dstNest outDepth lv n (setBits n (ptCpl _ pt)) (groupsStart _ dv nc (ptPairs _ pt))) ->
     Inv u -> tameS u) ->
  good (forEach (groupStep _ Or Q same UB Bits srcNest dstNest outDepth lv n) (setBits n (ptCpl _ pt))
          (groupsStart _ dv nc (ptPairs _ pt))).
Proof.
  intros V TM. apply groups_inv; [|  |exact TM].
  - intros k IK. apply setBits_iff in IK. exact IK.
  - unfold groupsStart. split; cbn [sDV sCons sPairs sMivs sSivs sLevels]; try discriminate; auto.
    intro K. split; [exact I|]. split; [exact I|]. now left.
Qed.
End Groups.

Lemma dvOk_scalars k ps dv : dvOk dv -> dvOk (clearScalars _ lv k ps dv).
Proof.
  intros H K L A. unfold clearScalars. destruct (H K L A) as [D1 D2].
  destruct (_ && _); [|auto]. split; [exact D1|]. exact D2.
Qed.
Definition fullOk (PLI : bool) (f : full Env) : Prop :=
  rightFor common (fDV _ f) e x y /\ (fLoopIndependent _ f = false -> PLI = false \/ carried common x y).
Lemma finish_ok PLI dv : dvOk dv -> (PLI = true \/ carried common x y) ->
  match finish _ lv PLI dv with Go f => fullOk PLI f | Disproved => False | _ => True end.
Proof.
  intros H C. unfold finish. destruct PLI.
  - split; [exact H|]. cbn [fLoopIndependent]. intro F. right.
    assert (X : exists K, In K (commonLevels lv) /\ dEQ (dvDir _ (dv K)) = false).
    { destruct (existsb (fun K => negb (dEQ (dvDir _ (dv K)))) (commonLevels lv)) eqn:Y.
      - apply existsb_exists in Y. destruct Y as (K & I1 & I2). exists K. split; [exact I1|]. now apply negb_true_iff.
      - exfalso. assert (Z : forallb (fun K => dEQ (dvDir _ (dv K))) (commonLevels lv) = true); [|congruence].
        apply forallb_forall. intros K I1. destruct (dEQ (dvDir _ (dv K))) eqn:Z; [reflexivity|exfalso].
        assert (W : existsb (fun K => negb (dEQ (dvDir _ (dv K)))) (commonLevels lv) = true)
          by (apply existsb_exists; exists K; rewrite Z; auto). congruence. }
    destruct X as (K & IK & E). unfold commonLevels in IK. cbn [CommonLevels lv] in IK. apply in_seq in IK.
    destruct (nth_error (rev common) (K - 1)) as [L|] eqn:EN.
    2:{ apply nth_error_None in EN. rewrite rev_length in EN. lia. }
    assert (A : atDepth common K L) by (split; [lia|exact EN]).
    exists L. split; [eapply atDepth_In; exact A|]. intro XY. destruct (H K L A) as [(_ & D & _) _].
    rewrite (D XY) in E. discriminate.
  - destruct C as [C|C]; [discriminate|].
    destruct (forallb (fun K => isEQonly (dvDir _ (dv K))) (commonLevels lv)) eqn:F.
    + destruct C as (L & IL & NE). apply in_rev in IL. apply In_nth_error in IL. destruct IL as (k & EN).
      assert (A : atDepth common (S k) L) by (split; [lia|]; replace (S k - 1)%nat with k by lia; exact EN).
      pose proof (atDepth_range _ _ _ A) as R.
      rewrite forallb_forall in F. specialize (F (S k)). unfold commonLevels in F. cbn [CommonLevels lv] in F.
      rewrite in_seq in F. specialize (F ltac:(lia)). unfold isEQonly in F.
      apply andb_true_iff in F. destruct F as [F F3]. apply andb_true_iff in F. destruct F as [F1 F2].
      apply negb_true_iff in F2, F3. destruct (H _ _ A) as [(D1 & D2 & D3) _].
      destruct (Z.lt_trichotomy (x L) (y L)) as [Z|[Z|Z]]; [rewrite (D1 Z) in F2; discriminate|contradiction|].
      rewrite D3 in F3 by lia. discriminate.
    + split; [exact H|]. auto.
Qed.
End P.
