(** Proofs about the GCD test. *)
From Coq Require Import ZArith Znumtheory Bool List Arith Lia.
From Verif Require Import DepModel DepSpec DepProof MIVModel MIVSpec.
Import ListNotations.
Local Open Scope Z_scope.

(** Depths *)
Lemma depthIn_atDepth nest L K : depthIn nest L = Some K -> atDepth nest K L.
Proof.
  induction nest as [|a l IH]; cbn [depthIn]; [discriminate|].
  destruct (Nat.eqb_spec a L) as [E|NE]; intro H.
  - assert (K = length (a :: l)) by congruence. subst K a. split; cbn [length rev]; [lia|].
    rewrite nth_error_app2; rewrite rev_length; [|lia].
    replace (S (length l) - 1 - length l)%nat with 0%nat by lia. reflexivity.
  - destruct (IH H) as [P Q]. split; [exact P|]. cbn [rev].
    rewrite nth_error_app1; [exact Q|]. apply nth_error_Some. congruence.
Qed.
Lemma depthIn_In nest L K : depthIn nest L = Some K -> In L nest.
Proof.
  intro H. apply depthIn_atDepth in H. destruct H as [_ H]. apply in_rev.
  eapply nth_error_In; exact H.
Qed.
Lemma depthIn_range nest L K : depthIn nest L = Some K -> (1 <= K <= length nest)%nat.
Proof.
  intro H. apply depthIn_atDepth in H. destruct H as [P H].
  assert (X : nth_error (rev nest) (K - 1) <> None) by congruence.
  apply nth_error_Some in X. rewrite rev_length in X. lia.
Qed.
Lemma atDepth_app s common K L : (K <= length common)%nat ->
  atDepth (s ++ common) K L <-> atDepth common K L.
Proof.
  intro H. unfold atDepth. rewrite rev_app_distr.
  split; intros [P Q]; split; auto.
  - rewrite nth_error_app1 in Q; [exact Q|]. rewrite rev_length. lia.
  - rewrite nth_error_app1; [exact Q|]. rewrite rev_length. lia.
Qed.
Lemma atDepth_range nest K L : atDepth nest K L -> (1 <= K <= length nest)%nat.
Proof.
  intros [P H]. assert (X : nth_error (rev nest) (K - 1) <> None) by congruence.
  apply nth_error_Some in X. rewrite rev_length in X. lia.
Qed.
Lemma atDepth_inj nest K L L' : atDepth nest K L -> atDepth nest K L' -> L = L'.
Proof. intros [_ A] [_ B]. congruence. Qed.
Lemma depthIn_skip s common L : ~ In L s -> depthIn (s ++ common) L = depthIn common L.
Proof.
  induction s as [|a s IH]; intro N; [reflexivity|]. cbn [app depthIn].
  destruct (Nat.eqb_spec a L) as [E|NE]; [|apply IH; cbn in N; tauto].
  exfalso. apply N. left. exact E.
Qed.

Section G.
Context {Env : Type} (Or : oracle Env) (Q : miv Env).
Hypothesis SO : soundOracle Or.
Hypothesis SQ : soundQueries Q.

Lemma gcd_abs_div g c : (Z.gcd g (Z.abs c) | g) /\ (Z.gcd g (Z.abs c) | c).
Proof.
  split; [apply Z.gcd_divide_l|]. apply Z.divide_abs_r, Z.gcd_divide_r.
Qed.

Lemma coeffGCD_ok recs : forall g g' e x, coeffGCD _ Q recs g = Some g' ->
  (g' | g) /\ (g' | recsValue recs e x).
Proof.
  induction recs as [|(L, c) recs IH]; intros g g' e x H; cbn [coeffGCD recsValue] in *.
  - assert (g' = g) by congruence. subst. split; [apply Z.divide_refl|apply Z.divide_0_r].
  - destruct (seConstPart _ Q c) as [k|] eqn:E; [|discriminate].
    destruct (IH _ _ e x H) as [P R]. destruct (gcd_abs_div g k) as [D1 D2]. split.
    + exact (Z.divide_trans _ _ _ P D1).
    + apply Z.divide_add_r; [|exact R]. apply Z.divide_mul_l.
      eapply Z.divide_trans; [exact P|]. eapply Z.divide_trans; [exact D2|].
      exact (sq_part _ SQ _ _ E e).
Qed.

Lemma sumGCD_ok ops : forall C g C' g' e,
  sumGCD _ Or Q ops C g = Some (Some (Some C', g')) ->
  (g' | g) /\
  (g' | fold_right (fun o s => o e + s) 0 ops + (match C with Some c => c | None => 0 end) - C') /\
  (match C with Some c => C' = c | None => True end).
Proof.
  induction ops as [|o ops IH]; intros C g C' g' e H; cbn [sumGCD fold_right] in *.
  - assert (C = Some C') by congruence. assert (g' = g) by congruence. subst.
    split; [apply Z.divide_refl|]. split; [|reflexivity].
    replace (0 + C' - C') with 0 by lia. apply Z.divide_0_r.
  - destruct (seConst _ Or o) as [c|] eqn:E.
    + destruct C as [c0|]; [discriminate|]. destruct (IH _ _ _ _ e H) as (P & R & T).
      split; [exact P|]. split; [|exact I].
      pose proof (so_const _ SO _ _ E e) as EC. rewrite EC. subst C'.
      match goal with R : (_ | ?a) |- (_ | ?b) => replace b with a by lia end. exact R.
    + destruct (seIsMul _ Q o); [|discriminate].
      destruct (seConstPart _ Q o) as [k|] eqn:K; [|discriminate].
      destruct (IH _ _ _ _ e H) as (P & R & T). destruct (gcd_abs_div g k) as [D1 D2].
      split; [exact (Z.divide_trans _ _ _ P D1)|]. split; [|exact T].
      match goal with |- (_ | ?a + ?b + ?c - ?d) => replace (a + b + c - d) with (a + (b + c - d)) by lia end.
      apply Z.divide_add_r; [|exact R].
      eapply Z.divide_trans; [exact P|]. eapply Z.divide_trans; [exact D2|].
      exact (sq_part _ SQ _ _ K e).
Qed.

Lemma delta_ok Delta C g e :
  (match seSum _ Q Delta with
   | Some ops => sumGCD _ Or Q ops (seConst _ Or Delta) 0
   | None => Some (Some (seConst _ Or Delta, 0))
   end) = Some (Some (Some C, g)) ->
  (g | Delta e - C).
Proof.
  destruct (seSum _ Q Delta) as [ops|] eqn:E; intro H.
  - destruct (sumGCD_ok _ _ _ _ _ e H) as (_ & R & T).
    destruct (seConst _ Or Delta) as [c|] eqn:F.
    + rewrite (so_const _ SO _ _ F e). subst C. replace (c - c) with 0 by lia. apply Z.divide_0_r.
    + rewrite (sq_sum _ SQ _ _ E e).
      match goal with R : (_ | ?a) |- (_ | ?b) => replace b with a by lia end. exact R.
  - assert (F : seConst _ Or Delta = Some C) by congruence.
    rewrite (so_const _ SO _ _ F e). replace (C - C) with 0 by lia. apply Z.divide_0_r.
Qed.

(* the value without the recurrence of one loop *)
Fixpoint others (recs : list (loop * scev Env)) (L : loop) (e : Env) (x : loop -> Z) : Z :=
  match recs with
  | [] => 0
  | (L', c) :: recs => (if Nat.eqb L L' then 0 else c e * x L') + others recs L e x
  end.
Lemma others_none recs L e x : ~ In L (map fst recs) -> recsValue recs e x = others recs L e x.
Proof.
  induction recs as [|(L', c) recs IH]; intro N; cbn [recsValue others map] in *; [reflexivity|].
  destruct (Nat.eqb_spec L L') as [E|NE].
  - exfalso. apply N. left. cbn. congruence.
  - rewrite IH; [reflexivity|]. intro I. apply N. right. exact I.
Qed.
Lemma others_split recs L c e x : NoDup (map fst recs) -> In (L, c) recs ->
  recsValue recs e x = c e * x L + others recs L e x.
Proof.
  induction recs as [|(L', c') recs IH]; intros N I; [destruct I|].
  cbn [map fst] in N. inversion N as [|? ? N1 N2]; subst.
  cbn [recsValue others]. destruct (Nat.eqb_spec L L') as [E|NE].
  - subst L'. assert (c' = c).
    { destruct I as [I|I]; [congruence|]. exfalso. apply N1. apply (in_map fst) in I. exact I. }
    subst c'. rewrite (others_none _ _ _ _ N1). lia.
  - rewrite IH; [lia|exact N2|]. destruct I as [I|I]; [|exact I]. congruence.
Qed.

(* the inner loops of the second phase *)
Lemma innerGCD_ok recs : forall L g C0 g' C e x,
  NoDup (map fst recs) ->
  innerGCD _ Q recs L g C0 = Some (g', C) -> 0 <= g ->
  0 <= g' /\ (g' | g) /\ (g' | others recs L e x) /\
  (g' <> 1 -> ((~ In L (map fst recs) -> C = C0) /\ (forall c, In (L, c) recs -> C = c))).
Proof.
  induction recs as [|(L', c) recs IH]; intros L g C0 g' C e x N H G; cbn [innerGCD others map fst] in *.
  - assert (g' = g) by congruence. assert (C = C0) by congruence. subst.
    split; [exact G|]. split; [apply Z.divide_refl|]. split; [apply Z.divide_0_r|].
    intros _. split; [reflexivity|]. intros ? [].
  - inversion N as [|? ? N1 N2]; subst.
    destruct (Z.eqb_spec g 1) as [E1|NE1].
    { assert (g' = 1) by congruence. subst g'. split; [lia|]. split; [apply Z.divide_1_l|].
      split; [apply Z.divide_1_l|]. intro X. now destruct X. }
    destruct (Nat.eqb_spec L L') as [E|NE].
    + subst L'. destruct (IH _ _ _ _ _ e x N2 H G) as (P0 & P & R & T).
      split; [exact P0|]. split; [exact P|]. split; [cbn [Z.add]; exact R|].
      intro X. destruct (T X) as [T1 T2]. split; [intro Y; exfalso; apply Y; left; reflexivity|].
      intros c' [I|I].
      * rewrite (T1 N1). congruence.
      * exfalso. apply N1. apply (in_map fst) in I. exact I.
    + destruct (seConstPart _ Q c) as [k|] eqn:K; [|discriminate].
      destruct (IH _ _ _ _ _ e x N2 H (Z.gcd_nonneg _ _)) as (P0 & P & R & T).
      destruct (gcd_abs_div g k) as [D1 D2].
      split; [exact P0|]. split; [exact (Z.divide_trans _ _ _ P D1)|]. split.
      * apply Z.divide_add_r; [|exact R]. apply Z.divide_mul_l.
        eapply Z.divide_trans; [exact P|]. eapply Z.divide_trans; [exact D2|].
        exact (sq_part _ SQ _ _ K e).
      * intro X. destruct (T X) as [T1 T2]. split.
        -- intro Y. apply T1. intro I. apply Y. right. exact I.
        -- intros c' [I|I]; [congruence|auto].
Qed.

Lemma dirAdmits_dropEQ d i i' : i <> i' -> dirAdmits d i i' -> dirAdmits (dropEQ d) i i'.
Proof.
  intros N H. unfold dropEQ. apply dirAdmits_and; [exact H|].
  repeat split; cbn; intros; try reflexivity. lia.
Qed.

Lemma rem_divide a g : g <> 0 -> (g | a) -> Z.rem a g = 0.
Proof. intros N D. apply Z.rem_divide; assumption. Qed.

Section Second.
Variables (s d common : list loop).
Hypothesis ND : NoDup (s ++ d ++ common).
Variables (Src Dst : expr Env) (e : Env) (x y : loop -> Z) (C X : Z).
Hypothesis OkS : chainOk Src.
Hypothesis OkD : chainOk Dst.
Hypothesis CF : conflict e Src Dst x y.
Hypothesis DX : (X | scSub _ (eStart _ Dst) (eStart _ Src) e - C).
Hypothesis X0 : 0 <= X.

Lemma dropEqual_ok recs : forall dv, incl recs (eRecs _ Src) ->
  admits common dv x y ->
  admits common (dropEqual _ Q (s ++ common) (d ++ common) Src Dst C X recs dv) x y.
Proof.
  induction recs as [|(L, a) recs IH]; intros dv I A; cbn [dropEqual]; [exact A|].
  destruct (innerGCD _ Q (eRecs _ Src) L X a) as [(g1, ca)|] eqn:E1; [|exact A].
  destruct (innerGCD _ Q (eRecs _ Dst) L g1 (scSub _ a a)) as [(g2, b)|] eqn:E2; [|exact A].
  assert (IL : In (L, a) (eRecs _ Src)) by (apply I; left; reflexivity).
  apply IH; [intros p J; apply I; right; exact J|].
  destruct (seConstPart _ Q (scSub _ a b)) as [k|] eqn:K; [|exact A].
  destruct (Z.eqb_spec (Z.gcd g2 (Z.abs k)) 0) as [Z0|NZ]; [exact A|].
  destruct (Z.eqb_spec (Z.rem C (Z.gcd g2 (Z.abs k))) 0) as [R0|NR]; [exact A|].
  destruct (depthIn (s ++ common) L) as [Lv|] eqn:D1; [|exact A].
  destruct (depthIn (d ++ common) L) as [Ld|] eqn:D2; [|exact A].
  destruct (innerGCD_ok _ _ _ _ _ _ e x OkS E1 X0) as (G1 & G1X & G1O & _).
  destruct (innerGCD_ok _ _ _ _ _ _ e y OkD E2 G1) as (G2 & G2G & G2O & GB).
  destruct (gcd_abs_div g2 k) as [F1 F2].
  set (g := Z.gcd g2 (Z.abs k)) in *.
  assert (NE : x L <> y L).
  { intro EQ. apply NR. apply rem_divide; [exact NZ|].
    assert (g2 <> 1).
    { intro G21. apply NR. unfold g. rewrite G21. rewrite Z.gcd_1_l. apply Z.rem_1_r. }
    destruct (GB H) as [B1 B2].
    assert (VD : recsValue (eRecs _ Dst) e y = b e * y L + others (eRecs _ Dst) L e y).
    { destruct (in_dec Nat.eq_dec L (map fst (eRecs _ Dst))) as [J|J].
      - apply in_map_iff in J. destruct J as ((L', c) & EL & J). cbn in EL. subst L'.
        rewrite (B2 _ J). apply others_split; assumption.
      - rewrite (B1 J). rewrite (others_none _ _ _ _ J). unfold scSub. lia. }
    pose proof (others_split _ _ _ e x OkS IL) as VS.
    unfold conflict, value in CF. rewrite VS, VD in CF.
    assert (HK : (g | a e - b e)).
    { eapply Z.divide_trans; [exact F2|]. exact (sq_part _ SQ _ _ K e). }
    assert (HX : (g | scSub _ (eStart _ Dst) (eStart _ Src) e - C)).
    { apply Z.divide_trans with X; [|exact DX]. apply Z.divide_trans with g2; [exact F1|].
      exact (Z.divide_trans _ _ _ G2G G1X). }
    assert (HS : (g | others (eRecs _ Src) L e x)).
    { apply Z.divide_trans with g2; [exact F1|]. exact (Z.divide_trans _ _ _ G2G G1O). }
    assert (HD : (g | others (eRecs _ Dst) L e y)).
    { eapply Z.divide_trans; [exact F1|]. exact G2O. }
    unfold scSub in HX.
    replace C with ((a e - b e) * x L + others (eRecs _ Src) L e x
                    - others (eRecs _ Dst) L e y
                    - (eStart _ Dst e - eStart _ Src e - C)).
    - apply Z.divide_sub_r; [|exact HX]. apply Z.divide_sub_r; [|exact HD].
      apply Z.divide_add_r; [|exact HS]. apply Z.divide_mul_l. exact HK.
    - rewrite <- EQ in CF. rewrite Z.mul_sub_distr_r. lia. }
  (* the level of the loop is common *)
  intros J M AJ. unfold setLevel. destruct (Nat.eqb_spec J Lv) as [EJ|NJ]; [|exact (A J M AJ)].
  subst J. pose proof (depthIn_atDepth _ _ _ D1) as AD.
  pose proof (atDepth_range _ _ _ AJ) as RJ.
  apply (proj1 (atDepth_app s common Lv L (proj2 RJ))) in AD.
  assert (M = L) by (eapply atDepth_inj; eassumption). subst M.
  apply dirAdmits_dropEQ; [exact NE|]. exact (A _ _ AJ).
Qed.
End Second.

Lemma coeffGCD_nonneg recs : forall g g', 0 <= g -> coeffGCD _ Q recs g = Some g' -> 0 <= g'.
Proof.
  induction recs as [|(L, c) recs IH]; intros g g' G H; cbn [coeffGCD] in H.
  - assert (g' = g) by congruence. lia.
  - destruct (seConstPart _ Q c); [|discriminate]. eapply IH; [|exact H]. apply Z.gcd_nonneg.
Qed.
Lemma sumGCD_nonneg ops : forall C g C' g', 0 <= g ->
  sumGCD _ Or Q ops C g = Some (Some (C', g')) -> 0 <= g'.
Proof.
  induction ops as [|o ops IH]; intros C g C' g' G H; cbn [sumGCD] in H.
  - assert (g' = g) by congruence. lia.
  - destruct (seConst _ Or o); [destruct C; [discriminate|]; eapply IH; eassumption|].
    destruct (seIsMul _ Q o); [|discriminate]. destruct (seConstPart _ Q o); [|discriminate].
    eapply IH; [|exact H]. apply Z.gcd_nonneg.
Qed.

Lemma gcdMIVtest_ok s d common Src Dst dv ind dv' e x y :
  NoDup (s ++ d ++ common) -> chainOk Src -> chainOk Dst ->
  gcdMIVtest _ Or Q (s ++ common) (d ++ common) Src Dst dv = Some (ind, dv') ->
  conflict e Src Dst x y ->
  ind = false /\ (admits common dv x y -> admits common dv' x y).
Proof.
  intros ND OkS OkD H CF. unfold gcdMIVtest in H.
  assert (triv : Some (false, dv) = Some (ind, dv') ->
                 ind = false /\ (admits common dv x y -> admits common dv' x y)).
  { intro T. assert (ind = false) by congruence. assert (dv' = dv) by congruence. subst. auto. }
  destruct (coeffGCD _ Q (eRecs _ Src) 0) as [g0|] eqn:E0; [|exact (triv H)].
  destruct (coeffGCD _ Q (eRecs _ Dst) g0) as [g1|] eqn:E1; [|exact (triv H)].
  destruct (negb (seEnclosing _ Or (eStart _ Src) (eStart _ Dst))); [exact (triv H)|].
  cbv zeta in H.
  match type of H with (match ?m with _ => _ end) = _ => destruct m as [[([C|], X)|]|] eqn:ED end;
    [|exact (triv H)|exact (triv H)|discriminate].
  destruct (Z.eqb_spec C 0) as [C0|NC]; [exact (triv H)|].
  destruct (Z.eqb_spec (Z.gcd g1 X) 0) as [G0|NG]; [discriminate|].
  pose proof (delta_ok _ _ _ e ED) as DX.
  assert (X0 : 0 <= X).
  { destruct (seSum _ Q _) as [ops|].
    - eapply sumGCD_nonneg; [|exact ED]. lia.
    - assert (X = 0) by congruence. lia. }
  assert (R0 : Z.rem C (Z.gcd g1 X) = 0).
  { apply rem_divide; [exact NG|].
    destruct (coeffGCD_ok _ _ _ e x E0) as [_ R1].
    destruct (coeffGCD_ok _ _ _ e y E1) as [R2 R3].
    pose proof (Z.gcd_divide_l g1 X) as L1. pose proof (Z.gcd_divide_r g1 X) as L2.
    set (g := Z.gcd g1 X) in *.
    unfold conflict, value in CF. unfold scSub in DX.
    replace C with (recsValue (eRecs _ Src) e x - recsValue (eRecs _ Dst) e y
                    - (eStart _ Dst e - eStart _ Src e - C)) by lia.
    apply Z.divide_sub_r; [apply Z.divide_sub_r|].
    - apply Z.divide_trans with g1; [exact L1|]. exact (Z.divide_trans _ _ _ R2 R1).
    - exact (Z.divide_trans _ _ _ L1 R3).
    - exact (Z.divide_trans _ _ _ L2 DX). }
  rewrite R0 in H. cbn [Z.eqb negb] in H.
  assert (ind = false) by congruence. split; [assumption|]. intro A.
  assert (ED' : dv' = dropEqual _ Q (s ++ common) (d ++ common) Src Dst C X (eRecs _ Src) dv) by congruence.
  rewrite ED'. apply dropEqual_ok with (e := e); auto. apply incl_refl.
Qed.
End G.
