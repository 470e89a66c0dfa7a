(** C59: a head of a for-loop with a constant step is accepted only if the step leads to the
    bound, and it is rejected only if the head is conflicted. *)
From Coq Require Import ZArith List Bool Lia.
From Verif Require Import CanonModel.
Import ListNotations.
Local Open Scope Z_scope.

(** ** Specification *)
(** The condition i op E, or E op i if it is [reversed]; an assignment is not a comparison *)
Definition condHolds (c : condOp) (reversed : bool) (i E : Z) : Prop :=
  let a := if reversed then E else i in
  let b := if reversed then i else E in
  match c with CLt => a < b | CLe => a <= b | CGe => a >= b | CGt => a > b | CAssign => False end.
(** A change of the variable in one iteration: ++i and --i; i += d, i -= d, i = i + d,
    i = d + i, i = i - d *)
Inductive change : Type := Unary (isInc : bool) | Binary (isAdd : bool) (lhs rhs : option apsint).
Definition changeBy (ch : change) (d : Z) : Prop :=
  match ch with
  | Unary isInc => d = if isInc then 1 else -1
  | Binary isAdd None (Some s) => d = if isAdd then apVal s else - apVal s
  | Binary true (Some s) None => d = apVal s
  | _ => False
  end.
Definition coherent (ch : change) (Start End : option apsint) (c : condOp) (Reversed : bool) : option bool :=
  match ch with
  | Unary isInc => coherentUnary isInc Start End c Reversed
  | Binary isAdd lhs rhs => coherentBinary isAdd lhs rhs Start End c Reversed
  end.
(** Values of the variable are integers without bounds *)
Definition ends (c : condOp) (rev : bool) (S E d : Z) : Prop := exists n : nat, ~ condHolds c rev (S + Z.of_nat n * d) E.
Definition endless (c : condOp) (rev : bool) (S E d : Z) : Prop := forall n : nat, condHolds c rev (S + Z.of_nat n * d) E.
Definition skipped (c : condOp) (rev : bool) (S E : Z) : Prop := ~ condHolds c rev S E.
(** A constant, if it is known *)
Definition known (o : option apsint) (z : Z) : Prop := match o with Some a => apVal a = z | None => True end.

(** ** Properties *)
Lemma coherent_cond ch Start End c rev b d : changeBy ch d -> coherent ch Start End c rev = Some b ->
  (d = 0 /\ b = false) \/ (d <> 0 /\ coherentCond (0 <? d) Start End c rev = Some b).
Proof.
  destruct ch as [i|i l r]; cbn [changeBy coherent].
  - intros -> H. right. split; [destruct i; lia|]. unfold coherentUnary in H. now destruct i.
  - assert (G : forall s, coherentBinary i l r Start End c rev = Some b -> (match r with Some s => Some s | None => l end) = Some s ->
      (apVal s = 0 /\ b = false) \/ (apVal s <> 0 /\ coherentCond (0 <? if i then apVal s else - apVal s) Start End c rev = Some b)).
    { intros s H E. unfold coherentBinary in H. rewrite E in H. destruct (Z.eqb_spec (apVal s) 0) as [K|K]; [left; split; [exact K|congruence]|].
      right. split; [exact K|]. rewrite <- H. f_equal. destruct i; cbn [negb]; rewrite ?andb_true_r, ?andb_false_r, ?orb_false_r, ?orb_false_l.
      - reflexivity.
      - destruct (Z.ltb_spec 0 (- apVal s)), (Z.ltb_spec (apVal s) 0); lia || reflexivity. }
    destruct r as [s|].
    + destruct l; [destruct i; intros []|]. intros CH H. assert (d = if i then apVal s else - apVal s) as -> by (destruct i; exact CH). destruct (G s H eq_refl) as [[K ->]|[K1 K2]]; [left|right]; (split; [|auto]); destruct i; lia.
    + destruct l as [s|]; [|destruct i; intros []]. destruct i; [|intros []]. intros -> H. exact (G s H eq_refl).
Qed.
Lemma cond_final inc Start End c rev b : coherentCond inc Start End c rev = Some b ->
  (b = false /\ exists s e, Start = Some s /\ End = Some e /\ apsSame s e = true /\ if inc then apVal e <= apVal s else apVal s <= apVal e) \/
  (b = ((inc && lessCondition c && negb rev) || (inc && negb (lessCondition c) && rev)
        || (negb inc && negb (lessCondition c) && negb rev) || (negb inc && lessCondition c && rev)) /\
   forall s e, Start = Some s -> End = Some e -> if inc then apVal s < apVal e else apVal e < apVal s).
Proof.
  unfold coherentCond. destruct Start as [s|]; [|intros H; right; split; [congruence|discriminate]].
  destruct End as [e|]; [|intros H; right; split; [congruence|discriminate]].
  unfold apsGe, apsLe. destruct (apsSame s e) eqn:SE; [|destruct inc; discriminate].
  destruct inc.
  - destruct (Z.leb_spec (apVal e) (apVal s)) as [K|K]; intros H; injection H as <-.
    + left. split; [reflexivity|]. exists s, e. auto.
    + right. split; [reflexivity|]. intros s' e' E1 E2. injection E1 as <-. injection E2 as <-. lia.
  - destruct (Z.leb_spec (apVal s) (apVal e)) as [K|K]; intros H; injection H as <-.
    + left. split; [reflexivity|]. exists s, e. auto.
    + right. split; [reflexivity|]. intros s' e' E1 E2. injection E1 as <-. injection E2 as <-. lia.
Qed.
(** If a step is known and the head is accepted then the loop ends for each start and end;
    known starts and ends are such that the loop is executed. *)
Theorem C59_accepted_partial : forall ch d Start End c rev, c <> CAssign -> changeBy ch d -> coherent ch Start End c rev = Some true ->
  d <> 0 /\ (forall S E, ends c rev S E d) /\
  (forall s e, Start = Some s -> End = Some e -> ~ skipped c rev (apVal s) (apVal e)).
Proof.
  intros ch d Start End c rev NA CH H. destruct (coherent_cond _ _ _ _ _ _ _ CH H) as [[_ K]|[D K]]; [discriminate|].
  apply cond_final in K. destruct K as [[K _]|[K KS]]; [discriminate|]. split; [exact D|]. split.
  - intros S E. exists (Z.to_nat (Z.abs (S - E) + 1)). rewrite Z2Nat.id by lia. set (n := Z.abs (S - E) + 1).
    assert (B : 0 < d -> n <= n * d) by (intros; nia). assert (B' : d < 0 -> n * d <= - n) by (intros; nia).
    assert (n >= 1 /\ n > S - E /\ n > E - S) by lia. unfold condHolds.
    destruct c, rev; cbn [lessCondition andb orb negb] in *; try congruence; destruct (Z.ltb_spec 0 d); cbn [andb orb negb] in K; try discriminate K; lia.
  - intros s e E1 E2. specialize (KS s e E1 E2). unfold skipped, condHolds.
    destruct c, rev; cbn [lessCondition andb orb negb] in *; try congruence; destruct (Z.ltb_spec 0 d); cbn [andb orb negb] in K; try discriminate K; lia.
Qed.
Print Assumptions C59_accepted_partial.
(** for (i = 10; 0 < i; i -= 3) *)
Example C59_accepted_ex : changeBy (Binary false None (Some (mkAPS 32 true 3))) (-3) /\
  coherent (Binary false None (Some (mkAPS 32 true 3))) (Some (mkAPS 32 true 10)) (Some (mkAPS 32 true 0)) CLt true = Some true.
Proof. split; reflexivity. Qed.

(** If a head with a strict comparison is rejected then the loop is not executed, or it does
    not end: for each start and end which agree with the known ones. *)
Theorem C59_rejected_partial : forall ch d Start End c rev, c = CLt \/ c = CGt -> changeBy ch d -> coherent ch Start End c rev = Some false ->
  forall S E, known Start S -> known End E -> skipped c rev S E \/ endless c rev S E d.
Proof.
  intros ch d Start End c rev NA CH H S E HS HE. destruct (coherent_cond _ _ _ _ _ _ _ CH H) as [[-> _]|[D K]].
  - assert (Dec : condHolds c rev S E \/ ~ condHolds c rev S E) by (destruct NA as [->| ->], rev; unfold condHolds; lia).
    destruct Dec as [Dec|Dec]; [right|left; exact Dec]. intros n. now rewrite Z.mul_0_r, Z.add_0_r.
  - apply cond_final in K. unfold skipped, endless.
    assert (G : 0 < d -> forall n, 0 <= Z.of_nat n * d) by (intros; nia). assert (G' : d < 0 -> forall n, Z.of_nat n * d <= 0) by (intros; nia).
    unfold condHolds. destruct K as [[_ (s & e & -> & -> & _ & L)]|[K KS]].
    + cbn [known] in HS, HE. subst S E. destruct (Z.ltb_spec 0 d) as [P|P].
      * specialize (G P). destruct NA as [->| ->], rev.
        -- destruct (Z.eq_dec (apVal s) (apVal e)); [left; lia|right; intros m; specialize (G m); lia].
        -- left; lia.
        -- left; lia.
        -- destruct (Z.eq_dec (apVal s) (apVal e)); [left; lia|right; intros m; specialize (G m); lia].
      * assert (P' : d < 0) by lia. specialize (G' P'). destruct NA as [->| ->], rev.
        -- left; lia.
        -- destruct (Z.eq_dec (apVal s) (apVal e)); [left; lia|right; intros m; specialize (G' m); lia].
        -- destruct (Z.eq_dec (apVal s) (apVal e)); [left; lia|right; intros m; specialize (G' m); lia].
        -- left; lia.
    + destruct (Z.ltb_spec 0 d) as [P|P].
      * specialize (G P). destruct NA as [->| ->], rev; cbn [lessCondition andb orb negb] in K; try discriminate K.
        -- destruct (Z_lt_le_dec E S); [right; intros m; specialize (G m); lia|left; lia].
        -- destruct (Z_lt_le_dec E S); [right; intros m; specialize (G m); lia|left; lia].
      * assert (P' : d < 0) by lia. specialize (G' P'). destruct NA as [->| ->], rev; cbn [lessCondition andb orb negb] in K; try discriminate K.
        -- destruct (Z_lt_le_dec S E); [right; intros m; specialize (G' m); lia|left; lia].
        -- destruct (Z_lt_le_dec S E); [right; intros m; specialize (G' m); lia|left; lia].
Qed.
Print Assumptions C59_rejected_partial.
(** for (i = 0; i < n; --i) *)
Example C59_rejected_ex : changeBy (Unary false) (-1) /\ coherent (Unary false) (Some (mkAPS 32 true 0)) None CLt false = Some false.
Proof. split; reflexivity. Qed.

(** The check ends without failures if types of a start and an end are the same. *)
Theorem C59_no_failure_partial : forall ch Start End c rev,
  (forall s e, Start = Some s -> End = Some e -> apBits s = apBits e /\ apSigned s = apSigned e) ->
  coherent ch Start End c rev <> None.
Proof.
  intros ch Start End c rev H.
  assert (G : forall inc, coherentCond inc Start End c rev <> None).
  { intros inc. unfold coherentCond. destruct Start as [s|], End as [e|]; try discriminate.
    destruct (H s e eq_refl eq_refl) as [H1 H2]. unfold apsGe, apsLe, apsSame. rewrite H1, H2, Nat.eqb_refl, eqb_reflx. cbn [andb].
    destruct inc; [destruct (apVal e <=? apVal s)|destruct (apVal s <=? apVal e)]; discriminate. }
  destruct ch as [i|i l r]; cbn [coherent]; [apply G|]. unfold coherentBinary.
  destruct (match r with Some s => Some s | None => l end) as [s|]; [|discriminate]. destruct (apVal s =? 0); [discriminate|apply G].
Qed.
Print Assumptions C59_no_failure_partial.

(** Statements without restrictions are wrong *)
(** for (i = 5; i <= 5; ++i) is rejected *)
Theorem C59_rejected_refuted : exists ch d Start End c rev, c <> CAssign /\ changeBy ch d /\ coherent ch (Some Start) (Some End) c rev = Some false /\
  ~ skipped c rev (apVal Start) (apVal End) /\ ends c rev (apVal Start) (apVal End) d.
Proof.
  exists (Unary true), 1, (mkAPS 32 true 5), (mkAPS 32 true 5), CLe, false. split; [discriminate|]. split; [reflexivity|]. split; [reflexivity|].
  split; [unfold skipped, condHolds; cbn; lia|]. exists 1%nat. unfold condHolds. cbn. lia.
Qed.
Print Assumptions C59_rejected_refuted.
(** for (char i = 0; i < 10; ++i), a constant of a type char is compared with an int *)
Theorem C59_no_failure_refuted : exists ch d Start End c rev, changeBy ch d /\ ~ skipped c rev (apVal Start) (apVal End) /\
  ends c rev (apVal Start) (apVal End) d /\ coherent ch (Some Start) (Some End) c rev = None.
Proof.
  exists (Unary true), 1, (mkAPS 8 true 0), (mkAPS 32 true 10), CLt, false. split; [reflexivity|]. split; [unfold skipped, condHolds; cbn; lia|].
  split; [|reflexivity]. exists 10%nat. unfold condHolds. cbn. lia.
Qed.
Print Assumptions C59_no_failure_refuted.
(** for (i = 1; n = i; ++i) is accepted *)
Theorem C59_assignment_refuted : exists ch d, changeBy ch d /\ d > 0 /\ coherent ch (Some (mkAPS 32 true 1)) None CAssign true = Some true /\
  forall n : nat, 1 + Z.of_nat n * d <> 0.
Proof. exists (Unary true), 1. split; [reflexivity|]. split; [lia|]. split; [reflexivity|]. lia. Qed.
Print Assumptions C59_assignment_refuted.
