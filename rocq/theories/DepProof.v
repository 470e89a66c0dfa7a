From Coq Require Import ZArith Bool List Lia ZifyBool.
From Verif Require Import DepModel DepSpec.
Import ListNotations.
Open Scope Z_scope.

Section P.
Context {Env : Type} (O : oracle Env) (HO : soundOracle O).

Lemma isZero_sound x : isZero _ O x = true -> forall e, x e = 0.
Proof.
  unfold isZero. destruct (seConst Env O x) as [c|] eqn:E; [|discriminate].
  intros H e. rewrite (so_const O HO x c E). lia.
Qed.
Lemma isOne_sound x : isOne _ O x = true -> forall e, x e = 1.
Proof.
  unfold isOne. destruct (seConst Env O x) as [c|] eqn:E; [|discriminate].
  intros H e. rewrite (so_const O HO x c E). lia.
Qed.

Lemma isKnownPredicate_sound p X Y :
  isKnownPredicate _ O p X Y = true -> forall e, cmpP p (X e) (Y e).
Proof.
  unfold isKnownPredicate. destruct (seEnclosing Env O X Y); simpl; [|discriminate].
  destruct (sePred Env O p X Y) eqn:E.
  - intros _. apply (so_pred O HO); auto.
  - intros H e; destruct p; simpl.
    + apply isZero_sound with (e:=e) in H. unfold scSub in H. lia.
    + apply (so_nonzero O HO) with (e:=e) in H. unfold scSub in H. lia.
    + apply (so_nonneg O HO) with (e:=e) in H. unfold scSub in H. lia.
    + apply (so_nonpos O HO) with (e:=e) in H. unfold scSub in H. lia.
    + apply (so_pos O HO) with (e:=e) in H. unfold scSub in H. lia.
    + apply (so_neg O HO) with (e:=e) in H. unfold scSub in H. lia.
Qed.

Lemma dirAdmits_and a b i i' :
  dirAdmits a i i' -> dirAdmits b i i' -> dirAdmits (dand a b) i i'.
Proof.
  unfold dirAdmits, dand; simpl. intros (A1&A2&A3) (B1&B2&B3).
  repeat split; intros H; apply andb_true_iff; split; auto.
Qed.
Lemma dirAdmits_notempty d i i' : dirAdmits d i i' -> dempty d = false.
Proof.
  unfold dirAdmits, dempty. intros (A1&A2&A3).
  destruct (Z_lt_le_dec i i').
  - rewrite A1 by lia; auto.
  - destruct (Z.eq_dec i i').
    + rewrite A2 by lia; destruct (dLT d); auto.
    + rewrite A3 by lia; destruct (dLT d), (dEQ d); auto.
Qed.

Lemma testZIV_ok Src Dst e : Src e = Dst e -> testZIV _ O Src Dst = false.
Proof.
  intros H. unfold testZIV.
  destruct (isKnownPredicate Env O ICMP_EQ Src Dst); auto.
  destruct (isKnownPredicate Env O ICMP_NE Src Dst) eqn:E; auto.
  apply isKnownPredicate_sound with (e:=e) in E. simpl in E. contradiction.
Qed.

Ltac sc := unfold scSub, scNeg, scMul, scAdd, scC, scMax, scUDiv in *; simpl in *.

Lemma strongSIVsym_ok Coeff Delta dv e i i' :
  Coeff e <> 0 -> Delta e = Coeff e * (i' - i) ->
  dirAdmits (dvDir _ dv) i i' ->
  answerOk dv (strongSIVsym _ O Coeff Delta dv) e i i'.
Proof.
  intros Hnz HD Hdir. unfold strongSIVsym.
  destruct (isZero Env O Delta) eqn:Ez.
  - pose proof (isZero_sound _ Ez e) as H0. rewrite H0 in HD.
    assert (i = i') by nia. subst i'.
    split; simpl; auto.
    + apply dirAdmits_and; auto. repeat split; auto; lia.
    + intros _ D HD'. simpl in HD'. inversion HD'. subst. lia.
    + intros c Hc. inversion Hc. simpl. unfold scNeg. lia.
  - split; simpl; auto.
    + apply dirAdmits_and; [destruct (isOne Env O Coeff); auto|].
      assert (Hp : seNonPos Env O Delta = true -> Delta e <= 0) by (intros; apply (so_nonpos O HO); auto).
      assert (Hn : seNonNeg Env O Delta = true -> 0 <= Delta e) by (intros; apply (so_nonneg O HO); auto).
      assert (Hz : seNonZero Env O Delta = true -> Delta e <> 0) by (intros; apply (so_nonzero O HO); auto).
      assert (Cp : seNonPos Env O Coeff = true -> Coeff e <= 0) by (intros; apply (so_nonpos O HO); auto).
      assert (Cn : seNonNeg Env O Coeff = true -> 0 <= Coeff e) by (intros; apply (so_nonneg O HO); auto).
      repeat split; simpl; intros Hrel.
      * assert (Hs : (Delta e > 0 /\ Coeff e > 0) \/ (Delta e < 0 /\ Coeff e < 0)) by nia.
        destruct (seNonPos Env O Delta), (seNonPos Env O Coeff), (seNonNeg Env O Delta),
          (seNonNeg Env O Coeff); simpl; auto; exfalso;
          repeat match goal with H : true = true -> _ |- _ => specialize (H eq_refl) end; lia.
      * destruct (seNonZero Env O Delta); auto. exfalso.
        apply Hz; auto. subst. rewrite HD. lia.
      * assert (Hs : (Delta e < 0 /\ Coeff e > 0) \/ (Delta e > 0 /\ Coeff e < 0)) by nia.
        destruct (seNonPos Env O Delta), (seNonPos Env O Coeff), (seNonNeg Env O Delta),
          (seNonNeg Env O Coeff); simpl; auto; exfalso;
          repeat match goal with H : true = true -> _ |- _ => specialize (H eq_refl) end; lia.
    + destruct (isOne Env O Coeff) eqn:E1; auto.
      intros _ D HD'. simpl in HD'. inversion HD'. subst.
      rewrite HD, (isOne_sound _ E1). lia.
    + intros c Hc. inversion Hc. destruct (isOne Env O Coeff) eqn:E1; simpl; unfold scNeg.
      * rewrite HD, (isOne_sound _ E1). lia.
      * lia.
Qed.

Lemma strongSIV_ok Coeff SrcConst DstConst UB dv e i i' :
  (seNonNeg _ O Coeff = true \/ forall e, Coeff e <= 0) ->
  Coeff e <> 0 ->
  inLoop UB e i -> inLoop UB e i' ->
  SrcConst e + Coeff e * i = DstConst e + Coeff e * i' ->
  dirAdmits (dvDir _ dv) i i' ->
  answerOk dv (strongSIV _ O Coeff SrcConst DstConst UB dv) e i i'.
Proof.
  intros Hsign Hnz Hi Hi' Heq Hdir. unfold strongSIV.
  destruct (seEnclosing Env O SrcConst DstConst); simpl;
    [|split; simpl; auto; discriminate].
  set (Delta := scSub Env SrcConst DstConst).
  assert (HD : Delta e = Coeff e * (i' - i)) by (unfold Delta; sc; lia).
  match goal with |- context [if ?b then mkT _ true _ _ _ else _] => destruct b eqn:Etoo end.
  { exfalso. destruct UB as [U|]; [|discriminate].
    apply isKnownPredicate_sound with (e:=e) in Etoo. simpl in Etoo.
    destruct Hi as [Hi0 HiU], Hi' as [Hi'0 Hi'U].
    assert (Hab : (if seNonNeg Env O Delta then Delta else scNeg Env Delta) e
                  <= Z.abs (Delta e)).
    { destruct (seNonNeg Env O Delta); sc; lia. }
    assert (Hc : (if seNonNeg Env O Coeff then Coeff else scNeg Env Coeff) e
                 = Z.abs (Coeff e)).
    { destruct (seNonNeg Env O Coeff) eqn:E.
      - pose proof (so_nonneg O HO _ E e). lia.
      - destruct Hsign as [|Hs]; [congruence|]. pose proof (Hs e). sc. lia. }
    unfold scMul in Etoo. rewrite Hc in Etoo. rewrite HD in Hab.
    rewrite Z.abs_mul in Hab.
    assert (Z.abs (i' - i) <= U e) by lia.
    assert (Z.abs (Coeff e) * Z.abs (i' - i) <= Z.abs (Coeff e) * U e)
      by (apply Z.mul_le_mono_nonneg_l; lia).
    lia. }
  destruct (seConst Env O Delta) as [cd|] eqn:Ed;
  [destruct (seConst Env O Coeff) as [cc|] eqn:Ec|];
    [|apply strongSIVsym_ok; auto|apply strongSIVsym_ok; auto].
    pose proof (so_const O HO _ _ Ed e) as H1. pose proof (so_const O HO _ _ Ec e) as H2.
    rewrite H1, H2 in HD.
    assert (Hcc : cc <> 0) by lia.
    assert (Hr : Z.rem cd cc = 0) by (rewrite HD, Z.mul_comm; apply Z.rem_mul; auto).
    assert (Hq : Z.quot cd cc = i' - i) by (rewrite HD, Z.mul_comm; apply Z.quot_mul; auto).
    rewrite Hr, Hq. simpl.
    split; simpl; auto.
    + apply dirAdmits_and; auto. unfold dirAdmits.
      destruct (Z.gtb_spec (i' - i) 0); [simpl; repeat split; auto; lia|].
      destruct (Z.ltb_spec (i' - i) 0); simpl; repeat split; auto; lia.
    + intros _ D HD'. simpl in HD'. inversion HD'. reflexivity.
    + intros c Hc. inversion Hc. simpl. unfold scNeg, scC. lia.
Qed.


Ltac brk := repeat (match goal with
  | |- context [if ?b then _ else _] => destruct b
  | |- context [match seConst ?a ?b ?x with _ => _ end] => destruct (seConst a b x) end; simpl);
  split; intros; congruence.

Lemma rem_of_mul c k : c <> 0 -> Z.rem (c * k) c = 0 /\ Z.quot (c * k) c = k.
Proof. intros. rewrite Z.mul_comm. split; [apply Z.rem_mul|apply Z.quot_mul]; auto. Qed.

Lemma weakCrossingSIV_ok Coeff SrcConst DstConst UB dv e i i' :
  Coeff e <> 0 ->
  inLoop UB e i -> inLoop UB e i' ->
  SrcConst e + Coeff e * i = DstConst e - Coeff e * i' ->
  dirAdmits (dvDir _ dv) i i' ->
  answerOk dv (weakCrossingSIV _ O Coeff SrcConst DstConst UB dv) e i i'.
Proof.
  intros Hnz Hi Hi' Heq Hdir. unfold weakCrossingSIV.
  destruct (seEnclosing Env O SrcConst DstConst); simpl;
    [|split; simpl; auto; discriminate].
  set (Delta0 := scSub Env DstConst SrcConst).
  assert (HD : Delta0 e = Coeff e * (i + i')) by (unfold Delta0; sc; lia).
  assert (Hline : forall c, Some (CLine Env Coeff Coeff Delta0) = Some c -> constrHolds e c i i').
  { intros c Hc. inversion Hc. simpl. lia. }
  assert (H0 : 0 <= i /\ 0 <= i') by (split; [apply Hi|apply Hi']).
  destruct (isZero Env O Delta0) eqn:Ez.
  { pose proof (isZero_sound _ Ez e) as Hz. rewrite Hz in HD.
    assert (i + i' = 0) by nia.
    assert (Ha : dirAdmits (dand (dvDir Env dv) dEQonly) i i')
      by (apply dirAdmits_and; auto; repeat split; simpl; auto; lia).
    rewrite (dirAdmits_notempty _ _ _ Ha).
    split; simpl; auto.
    intros _ D HD'. simpl in HD'. inversion HD'. subst. lia. }
  destruct (seConst Env O Coeff) as [cc0|] eqn:Ec; [|split; simpl; auto].
  pose proof (so_const O HO _ _ Ec e) as Hcc.
  rewrite (so_const_neg O HO _ _ Ec).
  set (cc := if cc0 <? 0 then - cc0 else cc0).
  set (Delta := if cc0 <? 0 then scNeg Env Delta0 else Delta0).
  assert (Hccpos : cc > 0) by (unfold cc; destruct (Z.ltb_spec cc0 0); lia).
  assert (HDe : Delta e = cc * (i + i')).
  { unfold Delta, cc. destruct (Z.ltb_spec cc0 0); unfold scNeg; rewrite HD, Hcc; lia. }
  clearbody cc Delta.
  destruct (seConst Env O Delta) as [cd|] eqn:Ed; [|split; simpl; auto].
  pose proof (so_const O HO _ _ Ed e) as Hcd.
  destruct (seNeg Env O Delta) eqn:En.
  { exfalso. pose proof (so_neg O HO _ En e). nia. }
  assert (Htail : forall s, answerOk dv
     (if negb (Z.rem cd cc =? 0)
      then mkT Env true (setSplitable Env dv true) (Some (CLine Env Coeff Coeff Delta0)) s
      else if negb (Z.rem (cd ÷ cc) 2 =? 0)
           then mkT Env false (andDir Env (setSplitable Env dv true) dNE) (Some (CLine Env Coeff Coeff Delta0)) s
           else mkT Env false (setSplitable Env dv true) (Some (CLine Env Coeff Coeff Delta0)) s) e i i').
  { intros s. assert (Hcdv : cd = cc * (i + i')) by lia.
    destruct (rem_of_mul cc (i + i')) as [Hr Hq]; [lia|].
    rewrite Hcdv, Hr, Hq. simpl.
    destruct (Z.rem (i + i') 2 =? 0) eqn:E2; simpl.
    - split; simpl; auto.
    - split; simpl; auto. apply dirAdmits_and; auto.
      repeat split; simpl; auto. intros ->. exfalso.
      assert (Hq2 : i' + i' = 2 * i') by lia. rewrite Hq2 in E2.
      destruct (rem_of_mul 2 i') as [Hr2 _]; [lia|]. rewrite Hr2 in E2. discriminate. }
  destruct UB as [U|]; [|apply Htail].
  destruct Hi as [_ HiU], Hi' as [_ Hi'U].
  match goal with |- context [isKnownPredicate Env O ICMP_SGT ?a ?b] =>
    destruct (isKnownPredicate Env O ICMP_SGT a b) eqn:Eg end.
  { exfalso. apply isKnownPredicate_sound with (e:=e) in Eg. unfold scMul, scC in Eg. simpl in Eg. nia. }
  match goal with |- context [isKnownPredicate Env O ICMP_EQ ?a ?b] =>
    destruct (isKnownPredicate Env O ICMP_EQ a b) eqn:Ee end; [|apply Htail].
  apply isKnownPredicate_sound with (e:=e) in Ee. unfold scMul, scC in Ee. simpl in Ee.
  assert (i = U e /\ i' = U e) as [Hu1 Hu2] by nia.
  assert (Ha : dirAdmits (dand (dvDir Env dv) dEQonly) i i')
    by (apply dirAdmits_and; auto; repeat split; simpl; auto; lia).
  simpl. rewrite (dirAdmits_notempty _ _ _ Ha).
  split; simpl; auto.
  intros _ D HD'. simpl in HD'. inversion HD'. unfold scC. lia.
Qed.

(** The split iteration separates conflicting iterations. *)
Lemma weakCrossing_split_ok Coeff SrcConst DstConst UB dv e i i' S :
  Coeff e <> 0 -> 0 <= i -> 0 <= i' ->
  SrcConst e + Coeff e * i = DstConst e - Coeff e * i' ->
  tSplit _ (weakCrossingSIV _ O Coeff SrcConst DstConst UB dv) = Some S ->
  (i <= S e -> i' <= S e -> i = i') /\ (S e < i -> S e < i' -> False).
Proof.
  intros Hnz Hi Hi' Heq. unfold weakCrossingSIV.
  destruct (seEnclosing Env O SrcConst DstConst); simpl; [|discriminate].
  set (Delta0 := scSub Env DstConst SrcConst).
  assert (HD : Delta0 e = Coeff e * (i + i')) by (unfold Delta0; sc; lia).
  destruct (isZero Env O Delta0).
  { destruct (dempty _); discriminate. }
  destruct (seConst Env O Coeff) as [cc0|] eqn:Ec; [|discriminate].
  pose proof (so_const O HO _ _ Ec e) as Hcc.
  rewrite (so_const_neg O HO _ _ Ec).
  set (cc := if cc0 <? 0 then - cc0 else cc0).
  set (Delta := if cc0 <? 0 then scNeg Env Delta0 else Delta0).
  assert (Hccpos : cc > 0) by (unfold cc; destruct (Z.ltb_spec cc0 0); lia).
  assert (HDe : Delta e = cc * (i + i')).
  { unfold Delta, cc. destruct (Z.ltb_spec cc0 0); unfold scNeg; rewrite HD, Hcc; lia. }
  clearbody cc Delta.
  assert (Hmain : forall S, Some (scUDiv Env (scMax Env (scC Env 0) Delta) (scMul Env (scC Env 2) (scC Env cc))) = Some S ->
     (i <= S e -> i' <= S e -> i = i') /\ (S e < i -> S e < i' -> False)).
  { intros S0 HS. inversion HS. subst S0. unfold scUDiv, scMax, scMul, scC.
    rewrite HDe. rewrite Z.max_r by nia.
    rewrite (Z.mul_comm 2 cc), Z.div_mul_cancel_l by lia.
    pose proof (Z.div_mod (i + i') 2). pose proof (Z.mod_pos_bound (i + i') 2).
    split; lia. }
  destruct (seConst Env O Delta); [|auto].
  destruct (seNeg Env O Delta); [auto|].
  destruct UB; simpl.
  - repeat match goal with |- context [if ?b then _ else _] => destruct b end; simpl; auto.
  - repeat match goal with |- context [if ?b then _ else _] => destruct b end; simpl; auto.
Qed.

Lemma weakZeroSrcSIV_ok DstCoeff SrcConst DstConst UB common dv e i i' :
  DstCoeff e <> 0 ->
  0 <= i -> (common = true -> inLoop UB e i) -> inLoop UB e i' ->
  SrcConst e = DstConst e + DstCoeff e * i' ->
  dirAdmits (dvDir _ dv) i i' ->
  answerOk dv (weakZeroSrcSIV _ O DstCoeff SrcConst DstConst UB common dv) e i i'.
Proof.
  intros Hnz Hi0 Hi Hi' Heq Hdir. unfold weakZeroSrcSIV.
  destruct (seEnclosing Env O SrcConst DstConst); simpl;
    [|split; simpl; auto; discriminate].
  set (Delta := scSub Env SrcConst DstConst).
  assert (HD : Delta e = DstCoeff e * i') by (unfold Delta; sc; lia).
  assert (Hline : forall c, Some (CLine Env (scC Env 0) DstCoeff Delta) = Some c -> constrHolds e c i i').
  { intros c Hc. inversion Hc. simpl. unfold scC. lia. }
  assert (H0 : 0 <= i') by apply Hi'.
  destruct (isKnownPredicate Env O ICMP_EQ SrcConst DstConst) eqn:Eq.
  { apply isKnownPredicate_sound with (e:=e) in Eq. simpl in Eq.
    assert (i' = 0) by nia.
    destruct common; split; simpl; auto.
    apply dirAdmits_and; auto. repeat split; simpl; auto. lia. }
  destruct (seConst Env O DstCoeff) as [cc|] eqn:Ec; [|split; simpl; auto].
  pose proof (so_const O HO _ _ Ec e) as Hcc.
  rewrite (so_const_neg O HO _ _ Ec).
  set (AbsCoeff := if cc <? 0 then scNeg Env DstCoeff else DstCoeff).
  set (NewDelta := if cc <? 0 then scNeg Env Delta else Delta).
  assert (HA : AbsCoeff e = Z.abs cc)
    by (unfold AbsCoeff; destruct (Z.ltb_spec cc 0); unfold scNeg; lia).
  assert (HN : NewDelta e = Z.abs cc * i')
    by (unfold NewDelta; destruct (Z.ltb_spec cc 0); unfold scNeg; rewrite HD, Hcc; nia).
  clearbody AbsCoeff NewDelta.
  assert (Htail : answerOk dv
     (if seNeg Env O NewDelta then mkT Env true dv (Some (CLine Env (scC Env 0) DstCoeff Delta)) None
      else match seConst Env O Delta with
           | Some cd => if negb (Z.rem cd cc =? 0)
                        then mkT Env true dv (Some (CLine Env (scC Env 0) DstCoeff Delta)) None
                        else mkT Env false dv (Some (CLine Env (scC Env 0) DstCoeff Delta)) None
           | None => mkT Env false dv (Some (CLine Env (scC Env 0) DstCoeff Delta)) None
           end) e i i').
  { destruct (seNeg Env O NewDelta) eqn:En.
    { exfalso. pose proof (so_neg O HO _ En e). nia. }
    destruct (seConst Env O Delta) as [cd|] eqn:Ed; [|split; simpl; auto].
    pose proof (so_const O HO _ _ Ed e) as Hcd.
    assert (Hv : cd = cc * i') by nia.
    destruct (rem_of_mul cc i') as [Hr _]; [lia|].
    rewrite Hv, Hr. simpl. split; simpl; auto. }
  destruct UB as [U|]; [|apply Htail].
  destruct Hi' as [_ HiU'].
  destruct (isKnownPredicate Env O ICMP_SGT NewDelta (scMul Env AbsCoeff U)) eqn:Eg.
  { exfalso. apply isKnownPredicate_sound with (e:=e) in Eg. unfold scMul in Eg. simpl in Eg. nia. }
  destruct (isKnownPredicate Env O ICMP_EQ NewDelta (scMul Env AbsCoeff U)) eqn:Ee; [|apply Htail].
  apply isKnownPredicate_sound with (e:=e) in Ee. unfold scMul in Ee. simpl in Ee.
  assert (i' = U e) by nia.
  destruct common; split; simpl; auto.
  destruct (Hi eq_refl) as [_ HiU].
  apply dirAdmits_and; auto. repeat split; simpl; auto; lia.
Qed.

Lemma weakZeroDstSIV_ok SrcCoeff SrcConst DstConst UB common dv e i i' :
  SrcCoeff e <> 0 ->
  0 <= i' -> (common = true -> inLoop UB e i') -> inLoop UB e i ->
  SrcConst e + SrcCoeff e * i = DstConst e ->
  dirAdmits (dvDir _ dv) i i' ->
  answerOk dv (weakZeroDstSIV _ O SrcCoeff SrcConst DstConst UB common dv) e i i'.
Proof.
  intros Hnz Hi0 Hi Hi' Heq Hdir. unfold weakZeroDstSIV.
  destruct (seEnclosing Env O SrcConst DstConst); simpl;
    [|split; simpl; auto; discriminate].
  set (Delta := scSub Env DstConst SrcConst).
  assert (HD : Delta e = SrcCoeff e * i) by (unfold Delta; sc; lia).
  assert (Hline : forall c, Some (CLine Env SrcCoeff (scC Env 0) Delta) = Some c -> constrHolds e c i i').
  { intros c Hc. inversion Hc. simpl. unfold scC. lia. }
  assert (H0 : 0 <= i) by apply Hi'.
  destruct (isKnownPredicate Env O ICMP_EQ DstConst SrcConst) eqn:Eq.
  { apply isKnownPredicate_sound with (e:=e) in Eq. simpl in Eq.
    assert (i = 0) by nia.
    destruct common; split; simpl; auto.
    apply dirAdmits_and; auto. repeat split; simpl; auto. lia. }
  destruct (seConst Env O SrcCoeff) as [cc|] eqn:Ec; [|split; simpl; auto].
  pose proof (so_const O HO _ _ Ec e) as Hcc.
  rewrite (so_const_neg O HO _ _ Ec).
  set (AbsCoeff := if cc <? 0 then scNeg Env SrcCoeff else SrcCoeff).
  set (NewDelta := if cc <? 0 then scNeg Env Delta else Delta).
  assert (HA : AbsCoeff e = Z.abs cc)
    by (unfold AbsCoeff; destruct (Z.ltb_spec cc 0); unfold scNeg; lia).
  assert (HN : NewDelta e = Z.abs cc * i)
    by (unfold NewDelta; destruct (Z.ltb_spec cc 0); unfold scNeg; rewrite HD, Hcc; nia).
  clearbody AbsCoeff NewDelta.
  assert (Htail : answerOk dv
     (if seNeg Env O NewDelta then mkT Env true dv (Some (CLine Env SrcCoeff (scC Env 0) Delta)) None
      else match seConst Env O Delta with
           | Some cd => if negb (Z.rem cd cc =? 0)
                        then mkT Env true dv (Some (CLine Env SrcCoeff (scC Env 0) Delta)) None
                        else mkT Env false dv (Some (CLine Env SrcCoeff (scC Env 0) Delta)) None
           | None => mkT Env false dv (Some (CLine Env SrcCoeff (scC Env 0) Delta)) None
           end) e i i').
  { destruct (seNeg Env O NewDelta) eqn:En.
    { exfalso. pose proof (so_neg O HO _ En e). nia. }
    destruct (seConst Env O Delta) as [cd|] eqn:Ed; [|split; simpl; auto].
    pose proof (so_const O HO _ _ Ed e) as Hcd.
    assert (Hv : cd = cc * i) by nia.
    destruct (rem_of_mul cc i) as [Hr _]; [lia|].
    rewrite Hv, Hr. simpl. split; simpl; auto. }
  destruct UB as [U|]; [|apply Htail].
  destruct Hi' as [_ HiU'].
  destruct (isKnownPredicate Env O ICMP_SGT NewDelta (scMul Env AbsCoeff U)) eqn:Eg.
  { exfalso. apply isKnownPredicate_sound with (e:=e) in Eg. unfold scMul in Eg. simpl in Eg. nia. }
  destruct (isKnownPredicate Env O ICMP_EQ NewDelta (scMul Env AbsCoeff U)) eqn:Ee; [|apply Htail].
  apply isKnownPredicate_sound with (e:=e) in Ee. unfold scMul in Ee. simpl in Ee.
  assert (i = U e) by nia.
  destruct common; split; simpl; auto.
  destruct (Hi eq_refl) as [_ HiU].
  apply dirAdmits_and; auto. repeat split; simpl; auto; lia.
Qed.

(** Peeling flags newly set by the weak-zero tests. *)
Lemma weakZeroSrc_peel_ok DstCoeff SrcConst DstConst UB common dv e i' :
  DstCoeff e <> 0 -> inLoop UB e i' ->
  SrcConst e = DstConst e + DstCoeff e * i' ->
  let r := tDV _ (weakZeroSrcSIV _ O DstCoeff SrcConst DstConst UB common dv) in
  (dvPeelFirst _ dv = false -> dvPeelFirst _ r = true -> i' = 0) /\
  (dvPeelLast _ dv = false -> dvPeelLast _ r = true ->
     exists U, UB = Some U /\ i' = U e).
Proof.
  intros Hnz Hi' Heq. unfold weakZeroSrcSIV.
  destruct (seEnclosing Env O SrcConst DstConst); simpl; [|split; congruence].
  destruct (isKnownPredicate Env O ICMP_EQ SrcConst DstConst) eqn:Eq.
  { apply isKnownPredicate_sound with (e:=e) in Eq. simpl in Eq.
    assert (i' = 0) by nia.
    destruct common; simpl; split; congruence. }
  destruct (seConst Env O DstCoeff) as [cc|] eqn:Ec; [|simpl; split; congruence].
  pose proof (so_const O HO _ _ Ec e) as Hcc.
  rewrite (so_const_neg O HO _ _ Ec).
  destruct UB as [U|].
  2:{ brk. }
  match goal with |- context [isKnownPredicate Env O ICMP_SGT ?a ?b] =>
    destruct (isKnownPredicate Env O ICMP_SGT a b) end; [simpl; split; congruence|].
  match goal with |- context [isKnownPredicate Env O ICMP_EQ ?a ?b] =>
    destruct (isKnownPredicate Env O ICMP_EQ a b) eqn:Ee end.
  2:{ brk. }
  apply isKnownPredicate_sound with (e:=e) in Ee. simpl in Ee.
  assert (i' = U e).
  { unfold scMul in Ee. destruct (Z.ltb_spec cc 0); unfold scNeg, scSub in Ee; nia. }
  destruct common; simpl; split; try congruence. intros _ _. eauto.
Qed.

Lemma weakZeroDst_peel_ok SrcCoeff SrcConst DstConst UB common dv e i :
  SrcCoeff e <> 0 -> inLoop UB e i ->
  SrcConst e + SrcCoeff e * i = DstConst e ->
  let r := tDV _ (weakZeroDstSIV _ O SrcCoeff SrcConst DstConst UB common dv) in
  (dvPeelFirst _ dv = false -> dvPeelFirst _ r = true -> i = 0) /\
  (dvPeelLast _ dv = false -> dvPeelLast _ r = true ->
     exists U, UB = Some U /\ i = U e).
Proof.
  intros Hnz Hi Heq. unfold weakZeroDstSIV.
  destruct (seEnclosing Env O SrcConst DstConst); simpl; [|split; congruence].
  destruct (isKnownPredicate Env O ICMP_EQ DstConst SrcConst) eqn:Eq.
  { apply isKnownPredicate_sound with (e:=e) in Eq. simpl in Eq.
    assert (i = 0) by nia.
    destruct common; simpl; split; congruence. }
  destruct (seConst Env O SrcCoeff) as [cc|] eqn:Ec; [|simpl; split; congruence].
  pose proof (so_const O HO _ _ Ec e) as Hcc.
  rewrite (so_const_neg O HO _ _ Ec).
  destruct UB as [U|].
  2:{ brk. }
  match goal with |- context [isKnownPredicate Env O ICMP_SGT ?a ?b] =>
    destruct (isKnownPredicate Env O ICMP_SGT a b) end; [simpl; split; congruence|].
  match goal with |- context [isKnownPredicate Env O ICMP_EQ ?a ?b] =>
    destruct (isKnownPredicate Env O ICMP_EQ a b) eqn:Ee end.
  2:{ brk. }
  apply isKnownPredicate_sound with (e:=e) in Ee. simpl in Ee.
  assert (i = U e).
  { unfold scMul in Ee. destruct (Z.ltb_spec cc 0); unfold scNeg, scSub in Ee; nia. }
  destruct common; simpl; split; try congruence. intros _ _. eauto.
Qed.

Lemma symbolicRDIV_ok A1 A2 C1 C2 N1 N2 e i j :
  inLoop N1 e i -> inLoop N2 e j ->
  C1 e + A1 e * i = C2 e + A2 e * j ->
  symbolicRDIV _ O A1 A2 C1 C2 N1 N2 = false.
Proof.
  intros Hi Hj Heq.
  destruct (symbolicRDIV _ O A1 A2 C1 C2 N1 N2) eqn:E; auto. exfalso. revert E.
  unfold symbolicRDIV.
  destruct Hi as [Hi0 HiN], Hj as [Hj0 HjN].
  destruct (seEnclosing Env O C1 C2); simpl; [|discriminate].
  destruct (seNonNeg Env O A1) eqn:E1.
  - apply (so_nonneg O HO) with (e:=e) in E1.
    destruct (seNonNeg Env O A2) eqn:E2.
    + apply (so_nonneg O HO) with (e:=e) in E2.
      destruct N1 as [n1|]; [destruct (isKnownPredicate _ _ _ _ _) eqn:K|].
      * apply isKnownPredicate_sound with (e:=e) in K. unfold scSub, scMul in K; simpl in K. nia.
      * destruct N2 as [n2|]; [|discriminate]. intros K'.
        apply isKnownPredicate_sound with (e:=e) in K'. unfold scSub, scMul in K'; simpl in K'. nia.
      * destruct N2 as [n2|]; [|discriminate]. intros K'.
        apply isKnownPredicate_sound with (e:=e) in K'. unfold scSub, scMul in K'; simpl in K'. nia.
    + destruct (seNonPos Env O A2) eqn:E3; [|discriminate].
      apply (so_nonpos O HO) with (e:=e) in E3.
      destruct N1 as [n1|], N2 as [n2|]; [destruct (isKnownPredicate _ _ _ _ _) eqn:K| | |].
      * apply isKnownPredicate_sound with (e:=e) in K. unfold scSub, scMul in K; simpl in K. nia.
      * intros K'. apply (so_neg O HO) with (e:=e) in K'. unfold scSub in K'. nia.
      * intros K'. apply (so_neg O HO) with (e:=e) in K'. unfold scSub in K'. nia.
      * intros K'. apply (so_neg O HO) with (e:=e) in K'. unfold scSub in K'. nia.
      * intros K'. apply (so_neg O HO) with (e:=e) in K'. unfold scSub in K'. nia.
  - destruct (seNonPos Env O A1) eqn:E4; [|discriminate].
    apply (so_nonpos O HO) with (e:=e) in E4.
    destruct (seNonNeg Env O A2) eqn:E2.
    + apply (so_nonneg O HO) with (e:=e) in E2.
      destruct N1 as [n1|], N2 as [n2|]; [destruct (isKnownPredicate _ _ _ _ _) eqn:K| | |].
      * apply isKnownPredicate_sound with (e:=e) in K. unfold scSub, scMul in K; simpl in K. nia.
      * intros K'. apply (so_pos O HO) with (e:=e) in K'. unfold scSub in K'. nia.
      * intros K'. apply (so_pos O HO) with (e:=e) in K'. unfold scSub in K'. nia.
      * intros K'. apply (so_pos O HO) with (e:=e) in K'. unfold scSub in K'. nia.
      * intros K'. apply (so_pos O HO) with (e:=e) in K'. unfold scSub in K'. nia.
    + destruct (seNonPos Env O A2) eqn:E3; [|discriminate].
      apply (so_nonpos O HO) with (e:=e) in E3.
      destruct N1 as [n1|]; [destruct (isKnownPredicate _ _ _ _ _) eqn:K|].
      * apply isKnownPredicate_sound with (e:=e) in K. unfold scSub, scMul in K; simpl in K. nia.
      * destruct N2 as [n2|]; [|discriminate]. intros K'.
        apply isKnownPredicate_sound with (e:=e) in K'. unfold scSub, scMul in K'; simpl in K'. nia.
      * destruct N2 as [n2|]; [|discriminate]. intros K'.
        apply isKnownPredicate_sound with (e:=e) in K'. unfold scSub, scMul in K'; simpl in K'. nia.
Qed.
End P.
