(** Proofs about the reversal of loops. *)
From Coq Require Import ZArith List Bool Arith Lia.
From Verif Require Import ReversalModel ReversalSpec.
Import ListNotations.
Local Open Scope Z_scope.

Fixpoint seqZ (i s : Z) (n : nat) : list Z := match n with O => [] | S n => i :: seqZ (i + s) s n end.
Lemma seqZ_snoc s n : forall i, seqZ i s (S n) = seqZ i s n ++ [i + Z.of_nat n * s].
Proof.
  induction n as [|n IH]; intros i; [cbn; f_equal; ring|].
  change (seqZ i s (S (S n))) with (i :: seqZ (i + s) s (S n)). rewrite IH. cbn [seqZ app]. f_equal. f_equal. f_equal. lia.
Qed.
Lemma seqZ_rev s n : forall i, rev (seqZ i s n) = seqZ (i + (Z.of_nat n - 1) * s) (- s) n.
Proof.
  induction n as [|n IH]; intros i; [reflexivity|]. rewrite seqZ_snoc, rev_app_distr, IH. cbn [rev app seqZ].
  replace (i + (Z.of_nat (S n) - 1) * s) with (i + Z.of_nat n * s) by lia. f_equal. f_equal. lia.
Qed.

Lemma noInd_eval fit vars i j e : noInd e -> eval fit vars i e = eval fit vars j e.
Proof.
  induction e as [| | |o a IHa b IHb|e IH|e IH]; cbn [noInd eval]; try reflexivity; try tauto.
  - intros [A B]. rewrite (IHa A), (IHb B). reflexivity.
  - intros H. rewrite (IH H). reflexivity.
Qed.

Section Loop.
Variable fit : arith.
Variable vars : nat -> Z.
Variable l : forLoop.
Variable C : Z -> bool.
Variable s : Z.
Hypothesis Hfit : forall z z', fit z = Some z' -> z' = z.
Hypothesis HC : forall i, eval fit vars i (fCond l) = Some (b2z (C i)).
Hypothesis HI : forall i, evalIncr fit vars i (fInc l) = fit (i + s).

Lemma iterate_done fuel : forall i vs f, iterate fuel fit vars l i = Done vs f ->
  exists n, vs = seqZ i s n /\ f = i + Z.of_nat n * s /\ C f = false /\
  forall k, (k < n)%nat -> C (i + Z.of_nat k * s) = true.
Proof.
  induction fuel as [|fuel IH]; intros i vs f; cbn [iterate]; [discriminate|].
  rewrite HC. destruct (C i) eqn:Ci; cbn [b2z]; [change (1 =? 0) with false|change (0 =? 0) with true]; cbv iota.
  - rewrite HI. destruct (fit (i + s)) as [i'|] eqn:Ef; [|discriminate]. apply Hfit in Ef. subst i'.
    destruct (iterate fuel fit vars l (i + s)) as [vs' f'| |] eqn:Ei; try discriminate.
    intros [= <- <-]. destruct (IH _ _ _ Ei) as (n & -> & -> & Cf & Hk). exists (S n).
    split; [reflexivity|]. split; [lia|]. split; [exact Cf|].
    intros [|k] Hk'; [rewrite Z.mul_0_l, Z.add_0_r; exact Ci|].
    rewrite <- (Hk k) by lia. f_equal. lia.
  - intros [= <- <-]. exists 0%nat. rewrite Z.mul_0_l, Z.add_0_r. split; [reflexivity|]. split; [reflexivity|].
    split; [exact Ci|]. intros k Hk. lia.
Qed.
Lemma iterate_run n : forall i,
  (forall k, (k < n)%nat -> C (i + Z.of_nat k * s) = true /\ fit (i + Z.of_nat (S k) * s) = Some (i + Z.of_nat (S k) * s)) ->
  C (i + Z.of_nat n * s) = false ->
  iterate (S n) fit vars l i = Done (seqZ i s n) (i + Z.of_nat n * s).
Proof.
  induction n as [|n IH]; intros i H H0.
  - cbn [iterate]. rewrite HC. rewrite Z.mul_0_l, Z.add_0_r in *. rewrite H0. reflexivity.
  - change (iterate (S (S n)) fit vars l i) with
      (match eval fit vars i (fCond l) with
       | None => UB
       | Some c => if c =? 0 then Done [] i
         else match evalIncr fit vars i (fInc l) with
              | None => UB
              | Some i' => match iterate (S n) fit vars l i' with Done vs f => Done (i :: vs) f | o => o end
              end
       end).
    rewrite HC. destruct (H 0%nat ltac:(lia)) as [C0 F0]. rewrite Z.mul_0_l, Z.add_0_r in C0. rewrite C0.
    change (b2z true =? 0) with false. cbv iota. rewrite HI. replace (Z.of_nat 1 * s) with s in F0 by lia. rewrite F0.
    rewrite IH.
    + cbn [seqZ]. f_equal. lia.
    + intros k Hk. destruct (H (S k) ltac:(lia)) as [C1 F1].
      replace (i + s + Z.of_nat k * s) with (i + Z.of_nat (S k) * s) by lia.
      replace (i + s + Z.of_nat (S k) * s) with (i + Z.of_nat (S (S k)) * s) by lia. split; assumption.
    + rewrite <- H0. f_equal. lia.
Qed.
End Loop.

(** ** texts *)
Lemma append_tight x o r : tight x -> (prec o <= 9)%nat -> append x o r = EBin o x r.
Proof.
  destruct x; cbn [append tight]; try reflexivity. intros H Ho.
  destruct (Nat.ltb_spec (prec o0) (prec o)); [lia|reflexivity].
Qed.
Lemma prepend_tight o x : tight x -> (prec o < 9)%nat -> join EInd o x = EBin o EInd x.
Proof.
  destruct x; cbn [join append tight]; try reflexivity. intros H Ho.
  destruct (Nat.leb_spec (prec o0) (prec o)); [lia|reflexivity].
Qed.
Lemma tight_append x o r : tight x -> prec o = 9%nat -> tight (append x o r).
Proof. intros H Ho. rewrite append_tight by (try exact H; lia). cbn [tight]. lia. Qed.

(** ** the reversed loop *)
Section Rev.
Variable w : Z.
Hypothesis Hw : 3 <= w.
Variable vars : nat -> Z.
Notation fit := (signedN w).
Definition P : Z := 2 ^ (w - 3).
Lemma P_pos : 1 <= P.
Proof. unfold P. pose proof (Z.pow_pos_nonneg 2 (w - 3)). lia. Qed.
Lemma P4 : 2 ^ (w - 1) = 4 * P.
Proof. unfold P. replace (w - 1) with (2 + (w - 3)) by lia. rewrite Z.pow_add_r by lia. reflexivity. Qed.
Lemma fit_eq z z' : fit z = Some z' -> z' = z.
Proof. unfold signedN. destruct (_ && _); [intros [= ->]; reflexivity|discriminate]. Qed.
Lemma fit_small z : - (4 * P) <= z < 4 * P -> fit z = Some z.
Proof.
  intros H. unfold signedN. rewrite P4. destruct (Z.leb_spec (- (4 * P)) z); [|lia].
  destruct (Z.ltb_spec z (4 * P)); [reflexivity|lia].
Qed.
Definition small (z : Z) : Prop := - P <= z <= P.

Variable c : canonLoop.
Variables vi vb : Z.
Hypothesis Nb : noInd (cBound c).
Hypothesis Ni : noInd (cInit c).
Hypothesis Ns : match incrExpr (cInc c) with Some e => noInd e | None => True end.
Hypothesis Ei : eval fit vars 0 (cInit c) = Some vi.
Hypothesis Eb : eval fit vars 0 (cBound c) = Some vb.
Variable s : Z.
Hypothesis Es : stepOf fit vars (cInc c) = Some s.
Hypothesis Si : small vi.
Hypothesis Sb : small vb.
Hypothesis Ss : small s.
Hypothesis Ti : tight (cInit c).
Hypothesis Tb : tight (cBound c).
Hypothesis Cmp : isComparison (cOp c).

Definition holds (i : Z) : bool :=
  if upward c then (if strictCond (cOp c) then i <? vb else i <=? vb)
  else (if strictCond (cOp c) then vb <? i else vb <=? i).
Lemma source_cond i : eval fit vars i (fCond (toFor c)) = Some (b2z (holds i)).
Proof.
  assert (B : eval fit vars i (cBound c) = Some vb) by (rewrite <- Eb; apply noInd_eval; exact Nb).
  unfold toFor, holds, upward. cbn [fCond]. destruct (cRevCond c); cbn [eval]; rewrite B; destruct (cOp c); cbn in *; try tauto; reflexivity.
Qed.
Lemma source_incr i : evalIncr fit vars i (fInc (toFor c)) = fit (i + s).
Proof.
  cbn [toFor fInc]. destruct (cInc c) as [up|sub e|e|e|e]; cbn [incrExpr stepOf evalIncr] in *.
  - injection Es as <-. destruct up; f_equal.
  - rewrite (noInd_eval fit vars i 0 e Ns). destruct (eval fit vars 0 e) as [x|]; [|discriminate]. injection Es as <-.
    destruct sub; f_equal; lia.
  - cbn [eval]. rewrite (noInd_eval fit vars i 0 e Ns), Es. reflexivity.
  - cbn [eval]. rewrite (noInd_eval fit vars i 0 e Ns), Es. cbn [evalOp]. f_equal; lia.
  - cbn [eval]. rewrite (noInd_eval fit vars i 0 e Ns). destruct (eval fit vars 0 e) as [x|]; [|discriminate]. injection Es as <-.
    cbn [evalOp]. f_equal; lia.
Qed.
Lemma new_incr i : evalIncr fit vars i (newIncr (cInc c)) = fit (i - s).
Proof.
  pose proof P_pos as PP. unfold small in *.
  destruct (cInc c) as [up|sub e|e|e|e]; cbn [incrExpr stepOf evalIncr newIncr] in *.
  - injection Es as <-. destruct up; cbn [negb]; f_equal; lia.
  - rewrite (noInd_eval fit vars i 0 e Ns). destruct (eval fit vars 0 e) as [x|]; [|discriminate]. injection Es as <-.
    destruct sub; cbn [negb]; f_equal; lia.
  - cbn [eval]. rewrite (noInd_eval fit vars i 0 e Ns), Es. rewrite (fit_small (- s)) by lia. cbn [evalOp]. f_equal; lia.
  - cbn [eval]. rewrite (noInd_eval fit vars i 0 e Ns), Es. rewrite (fit_small (- s)) by lia. cbn [evalOp]. f_equal; lia.
  - cbn [eval]. rewrite (noInd_eval fit vars i 0 e Ns). destruct (eval fit vars 0 e) as [x|]; [|discriminate]. injection Es as <-.
    rewrite (fit_small (- x)) by lia. cbn [evalOp]. f_equal; lia.
Qed.

Variables Start Step End : option Z.
(** constants found by the analysis; [n] is the number of iterations *)
Variable n : nat.
Hypothesis KStart : match Start with Some z => z = vi | None => True end.
Hypothesis KStep : match Step with Some z => z = s | None => True end.
Hypothesis KEnd : match End with Some z => z = vi + Z.of_nat n * s | None => True end.
Definition initText : expr := match Start with Some z => ENum z | None => cInit c end.
Lemma initText_tight : tight initText.
Proof. unfold initText. destruct Start; [exact Logic.I|exact Ti]. Qed.
Lemma initText_eval i : eval fit vars i initText = Some vi.
Proof.
  unfold initText. destruct Start as [z|].
  - cbn [eval]. rewrite KStart. apply fit_small. unfold small in Si. pose proof P_pos. lia.
  - rewrite <- Ei. apply noInd_eval. exact Ni.
Qed.
Variable l : forLoop.
Hypothesis Tr : transformLoop c Start Step End = Some l.
Definition newHolds (i : Z) : bool := if upward c then vi <=? i else i <=? vi.
Lemma new_cond i : eval fit vars i (fCond l) = Some (b2z (newHolds i)).
Proof.
  unfold transformLoop in Tr. fold initText in Tr. destruct (newCond (cOp c)) as [[o x]|] eqn:Eo; [|discriminate].
  injection Tr as <-. cbn [fCond]. unfold newHolds, upward.
  assert (Po : (prec o <= 8)%nat) by (destruct (cOp c); cbn in Eo; try discriminate; injection Eo as <- <-; cbn; lia).
  destruct (cRevCond c).
  - rewrite append_tight by (try apply initText_tight; lia). cbn [eval]. rewrite initText_eval.
    destruct (cOp c); cbn in Eo, Cmp; try tauto; injection Eo as <- <-; reflexivity.
  - rewrite prepend_tight by (try apply initText_tight; lia). cbn [eval]. rewrite initText_eval.
    destruct (cOp c); cbn in Eo, Cmp; try tauto; injection Eo as <- <-; reflexivity.
Qed.
Lemma new_inc : fInc l = newIncr (cInc c).
Proof. unfold transformLoop in Tr. destruct (newCond (cOp c)) as [[o x]|]; [|discriminate]. injection Tr as <-. reflexivity. Qed.

(** facts about the original execution *)
Hypothesis Hdir : if upward c then 0 < s else s < 0.
Hypothesis Hend : holds (vi + Z.of_nat n * s) = false.
Hypothesis Hin : forall k, (k < n)%nat -> holds (vi + Z.of_nat k * s) = true.
(** an exclusive condition agrees with the operator of the increment; there are iterations
    or the step is one or all is known *)
Hypothesis Hexcl : strictCond (cOp c) = true -> incrSub (cInc c) = upward c.
Hypothesis Hn : (0 < n)%nat \/ incrExpr (cInc c) = None \/ (Step <> None /\ End <> None).
(** the last value *)
Definition lastI : Z := vi + (Z.of_nat n - 1) * s.

Definition edge : Z := if strictCond (cOp c) then (if upward c then vb - 1 else vb + 1) else vb.
Lemma holds_edge i : holds i = if upward c then i <=? edge else edge <=? i.
Proof.
  unfold holds, edge. destruct (upward c), (strictCond (cOp c)); try reflexivity.
  - destruct (Z.ltb_spec i vb), (Z.leb_spec i (vb - 1)); try reflexivity; lia.
  - destruct (Z.ltb_spec vb i), (Z.leb_spec (vb + 1) i); try reflexivity; lia.
Qed.
Lemma n_pos_range : (0 < n)%nat ->
  if upward c then lastI <= edge < lastI + s else lastI + s < edge <= lastI.
Proof.
  intros H. pose proof (Hin (n - 1)%nat ltac:(lia)) as H1. pose proof Hend as H2. rewrite holds_edge in *.
  unfold lastI. replace (Z.of_nat (n - 1)) with (Z.of_nat n - 1) in H1 by lia.
  destruct (upward c).
  - apply Z.leb_le in H1. apply Z.leb_gt in H2. lia.
  - apply Z.leb_le in H1. apply Z.leb_gt in H2. lia.
Qed.
Lemma quot_last : (0 < n)%nat -> Z.quot (edge - vi) s = Z.of_nat n - 1.
Proof.
  intros H. pose proof (n_pos_range H) as R. unfold lastI in R. set (k := Z.of_nat n - 1) in *.
  assert (K : 0 <= k) by lia. clearbody k.
  destruct (upward c).
  - rewrite Z.quot_div_nonneg by nia. symmetry. apply (Z.div_unique _ _ _ (edge - vi - k * s)); [left; lia|ring].
  - rewrite <- (Z.opp_involutive (edge - vi)), <- (Z.opp_involutive s) at 1.
    rewrite Z.quot_opp_opp by lia. rewrite Z.quot_div_nonneg by nia.
    symmetry. apply (Z.div_unique _ _ _ (- (edge - vi) - k * - s)); [left; lia|ring].
Qed.
Lemma edge_small : - P - 1 <= edge <= P + 1.
Proof. unfold edge, small in *. destruct (strictCond _), (upward c); lia. Qed.
Lemma last_bounds : (0 < n)%nat -> - P - 1 <= lastI <= P + 1.
Proof.
  intros H. pose proof (n_pos_range H) as R. pose proof edge_small. unfold small in *. unfold lastI in *.
  destruct (upward c); nia.
Qed.

Lemma new_init old : exists v, eval fit vars old (fInit l) = Some v /\
  (v = lastI \/ n = 0%nat /\ newHolds v = false).
Proof.
  pose proof P_pos as PP. pose proof edge_small as ES.
  pose proof last_bounds as LB0. pose proof n_pos_range as NP0. pose proof quot_last as QL0. pose proof holds_edge as HE0.
  pose proof initText_eval as IE0. pose proof initText_tight as IT0. pose proof fit_small as FS0. unfold small in *.
  unfold transformLoop in Tr. fold initText in Tr. destruct (newCond (cOp c)) as [[o Exclude]|] eqn:Eo; [|discriminate].
  assert (EX : Exclude = strictCond (cOp c)) by (destruct (cOp c); cbn in Eo; try discriminate; injection Eo as <- <-; reflexivity).
  injection Tr as <-. cbn [fInit]. 
  assert (B : eval fit vars old (cBound c) = Some vb) by (rewrite <- Eb; apply noInd_eval; exact Nb).
  assert (NR : (n = 0)%nat -> lastI = vi - s) by (intros N0; unfold lastI; rewrite N0; change (Z.of_nat 0) with 0; ring).
  destruct End as [e|]; [destruct Step as [st|]|].
  { exists lastI. split; [|left; reflexivity]. cbn [eval]. rewrite KEnd, KStep.
    replace (vi + Z.of_nat n * s - s) with lastI by (unfold lastI; ring). apply FS0.
    destruct (Nat.eq_dec n 0) as [En|En]; [rewrite (NR En); lia|]. pose proof (LB0 ltac:(lia)). lia. }
  all: assert (Hn' : (0 < n)%nat \/ incrExpr (cInc c) = None) by (destruct Hn as [?|[?|[? ?]]]; [left; assumption|right; assumption|congruence]).
  all: clear Hn.
  all: assert (G : forall Incr, incrExpr (cInc c) = Some Incr -> exists s0, eval fit vars old Incr = Some s0 /\ (s0 = s \/ s0 = - s)) by
   (intros Incr EI; destruct (cInc c) as [up|sub q|q|q|q]; cbn [incrExpr stepOf] in *; try discriminate; injection EI as <-;
    rewrite (noInd_eval fit vars old 0 q Ns); destruct (eval fit vars 0 q) as [y|]; try discriminate; injection Es as <-;
    exists y; split; try reflexivity; try (destruct sub); lia).
  all: assert (SU : strictCond (cOp c) = true -> incrSub (cInc c) = upward c) by exact Hexcl.
  all: assert (EU : incrExpr (cInc c) = None -> upward c = incrSub (cInc c) /\ s = if upward c then 1 else -1) by
   (intros EI; destruct (cInc c) as [up|sub q|q|q|q]; cbn [incrExpr stepOf incrSub] in *; try discriminate; injection Es as <-;
    destruct (upward c), up; try lia; split; reflexivity).
  all: assert (EE : eval fit vars old (if Exclude then append (cBound c) (if incrSub (cInc c) then OSub else OAdd) (ENum 1) else cBound c) = Some edge) by
   (unfold edge; rewrite EX; destruct (strictCond (cOp c)) eqn:SC; [|exact B];
    rewrite append_tight by (try exact Tb; destruct (incrSub (cInc c)); cbn; lia); cbn [eval]; rewrite B; rewrite SU by reflexivity;
    destruct (upward c); cbn [eval]; rewrite (FS0 1) by lia; cbn [evalOp]; apply FS0; lia).
  all: assert (TE : tight (if Exclude then append (cBound c) (if incrSub (cInc c) then OSub else OAdd) (ENum 1) else cBound c)) by
   (destruct Exclude; [apply tight_append; [exact Tb|destruct (incrSub (cInc c)); reflexivity]|exact Tb]).
  all: destruct (incrExpr (cInc c)) as [Incr|] eqn:EI.
  all: try (destruct Hn' as [Hn'|]; [|discriminate]).
  all: try (exists edge; split; [exact EE|];
    destruct EU as [_ Es1]; [reflexivity|];
    destruct (Nat.eq_dec n 0) as [En|En];
    [right; split; [exact En|]; pose proof Hend as HE; rewrite En in HE; change (Z.of_nat 0) with 0 in HE; rewrite Z.mul_0_l, Z.add_0_r, HE0 in HE; unfold newHolds;
     destruct (upward c); exact HE
    |left; pose proof (NP0 ltac:(lia)) as R; rewrite Es1 in R; destruct (upward c); lia]).
  all: exists lastI; split; [|left; reflexivity].
  all: destruct (G Incr eq_refl) as (s0 & E0 & S0); pose proof (QL0 Hn') as Q; pose proof (LB0 Hn') as LB;
    assert (Ns0 : s <> 0) by (destruct (upward c); lia);
    assert (LQ : (Z.of_nat n - 1) * s = lastI - vi) by (unfold lastI; ring);
    assert (QB : - (2 * P + 1) <= Z.of_nat n - 1 <= 2 * P + 1) by (destruct (upward c); nia).
  all: assert (SQ : forall x, eval fit vars old x = Some (edge - vi) -> eval fit vars old (scaled Incr x) = Some (lastI - vi)) by
   (intros x Ex; unfold scaled; cbn [join append prec Nat.leb Nat.ltb eval]; rewrite Ex, E0; cbn [evalOp];
    destruct (Z.eqb_spec s0 0); [lia|];
    destruct S0 as [-> | ->];
    [rewrite Q, FS0 by lia; rewrite LQ; apply FS0; lia
    |rewrite Z.quot_opp_r by lia; rewrite Q, FS0 by lia; replace (- (Z.of_nat n - 1) * - s) with (lastI - vi) by lia; apply FS0; lia]).
  all: assert (SQ' : forall x, eval fit vars old x = Some (vi - edge) -> eval fit vars old (scaled Incr x) = Some (vi - lastI)) by
   (intros x Ex; unfold scaled; cbn [join append prec Nat.leb Nat.ltb eval]; rewrite Ex, E0; cbn [evalOp];
    replace (vi - edge) with (- (edge - vi)) by ring; rewrite Z.quot_opp_l by (destruct S0; lia);
    destruct (Z.eqb_spec s0 0); [lia|];
    destruct S0 as [-> | ->];
    [rewrite Q, FS0 by lia; replace (- (Z.of_nat n - 1) * s) with (vi - lastI) by lia; apply FS0; lia
    |rewrite Z.quot_opp_r by lia; rewrite Q, Z.opp_involutive, FS0 by lia; replace ((Z.of_nat n - 1) * - s) with (vi - lastI) by lia; apply FS0; lia]).
  all: destruct (incrSub (cInc c)) eqn:ESub.
  all: match goal with |- context [EBin OMul (EBin ODiv (EPar ?x) (EPar ?i)) (EPar ?i)] =>
      change (EBin OMul (EBin ODiv (EPar x) (EPar i)) (EPar i)) with (scaled i x) end.
  all: rewrite append_tight by (try apply IT0; cbn; lia).
  all: match goal with |- eval _ _ _ (EBin ?o ?a (scaled _ ?x)) = _ => 
      change (eval fit vars old (EBin o a (scaled Incr x))) with
       (match eval fit vars old a, eval fit vars old (scaled Incr x) with Some y, Some z => evalOp fit o y z | _, _ => None end) end.
  all: rewrite IE0.
  all: try (rewrite SQ; [cbn [evalOp]; replace (vi + (lastI - vi)) with lastI by ring; apply FS0; lia|];
    rewrite append_tight by (try exact TE; cbn; lia); cbn [eval]; rewrite EE, IE0; cbn [evalOp]; apply FS0; lia).
  all: rewrite SQ'; [cbn [evalOp]; replace (vi - (vi - lastI)) with lastI by ring; apply FS0; lia|];
    rewrite append_tight by (try apply IT0; cbn; lia); cbn [eval]; rewrite EE, IE0; cbn [evalOp]; apply FS0; lia.
Qed.

Lemma reversed_run old : exists f', run (S n) fit vars old l = Done (rev (seqZ vi s n)) f'.
Proof.
  pose proof P_pos as PP. unfold small in *.
  destruct (new_init old) as (v & Ev & Hv). unfold run. rewrite Ev.
  assert (HI : forall i, evalIncr fit vars i (fInc l) = fit (i + - s)).
  { intros i. rewrite new_inc, new_incr. f_equal. }
  destruct Hv as [-> | [N0 Hv]].
  - exists (vi - s). rewrite seqZ_rev. fold lastI.
    rewrite (iterate_run fit vars l newHolds (- s) new_cond HI).
    + f_equal. unfold lastI. ring.
    + intros k Hk. pose proof (last_bounds ltac:(lia)) as LB. unfold lastI in *. unfold newHolds.
      assert (0 <= (Z.of_nat n - 1 - Z.of_nat k)) by lia.
      split.
      * destruct (upward c); apply Z.leb_le; nia.
      * apply fit_small. 
        assert (Z.of_nat (S k) = Z.of_nat k + 1) as -> by lia.
        destruct (upward c); nia.
    + unfold newHolds, lastI. destruct (upward c); apply Z.leb_gt; nia.
  - rewrite N0. exists v. cbn [seqZ rev]. unfold run. cbn [iterate]. rewrite new_cond, Hv. reflexivity.
Qed.
End Rev.
