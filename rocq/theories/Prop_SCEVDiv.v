(** C51: division of symbolic expressions is exact: the numerator is equal to the
    quotient multiplied by the denominator plus the remainder, a common divisor divides
    all expressions, and a reordering of casts is reported. *)
From Coq Require Import ZArith List Bool Lia.
From Verif Require Import SCEVModel SCEVSpec SCEVProof SCEVConcrete.
Import ListNotations.
Local Open Scope Z_scope.

(** Full property: for every numerator N and denominator D, if divide returns a quotient
    Q and a remainder R then N = Q * D + R for all values of variables, in integers and
    modulo 2^w.  It is false, see below.

    Missing here: results which depend on the four returns of visitMulExpr after the
    remainder has been replaced (rOk = false). *)
Theorem C51_divide_partial : forall I M E, sound I M E ->
  forall fuel N D r, divide E fuel true N D = Ok r -> rOk r = true ->
  forall e, cong M (ev I e N) (ev I e (rQ r) * ev I e D + ev I e (rR r)).
Proof. intros I M E SD fuel N D r H O. exact (divide_good I M E SD fuel N D r H O). Qed.
Print Assumptions C51_divide_partial.

(** No restriction on the numerator, if the denominator is a constant or anything else
    which is neither a variable nor a product. *)
Theorem C51_divide_by_constant : forall I M E, sound I M E ->
  forall fuel N D r, (match D with Unk _ | Mul _ => False | _ => True end) ->
  divide E fuel true N D = Ok r ->
  forall e, cong M (ev I e N) (ev I e (rQ r) * ev I e D + ev I e (rR r)).
Proof.
  intros I M E SD fuel N D r HD H. apply (divide_good I M E SD fuel N D r H).
  exact (divide_ghost_simple E D HD fuel N r H).
Qed.
Print Assumptions C51_divide_by_constant.

(** The denominator is a variable, which is a factor of each product it occurs in. *)
Theorem C51_divide_by_variable : forall I M E, sound I M E -> canonical E ->
  forall fuel N v r, factored v N -> divide E fuel true N (Unk v) = Ok r ->
  forall e, cong M (ev I e N) (ev I e (rQ r) * vars e v + ev I e (rR r)).
Proof.
  intros I M E SD CE fuel N v r HN H. apply (divide_good I M E SD fuel N (Unk v) r H).
  exact (divide_ghost_factored E v CE fuel N r HN H).
Qed.
Print Assumptions C51_divide_by_variable.

(** a*n + {0,+,n} + b divided by n is a + {0,+,1} with the remainder b, for the
    ScalarEvolution from SCEVConcrete. *)
Definition exN : sc := Add [Mul [Unk 2; Unk 0]; Rec [Cst 64 0; Unk 0] 0; Unk 3].
Example C51_divide_ex : forall I M, sound I M cSE /\ canonical cSE /\ factored 0 exN /\
  divide cSE 10 true exN (Unk 0) =
    Ok (mkRes (Add [Unk 2; Rec [Cst 64 0; Cst 64 1] 0]) (Unk 3) true true).
Proof.
  intros I M. split; [apply cSE_sound|]. split; [exact cSE_canonical|]. split; [|vm_compute; reflexivity].
  unfold exN. constructor. constructor; [|repeat constructor]. constructor; [repeat constructor|].
  left. right. left. reflexivity.
Qed.
(** 4*n*(m + k) divided by 2*n *)
Example C51_divide_product_ex :
  divide cSE 10 true (Mul [Cst 64 4; Unk 0; Add [Unk 1; Unk 2]]) (Mul [Cst 64 2; Unk 0]) =
    Ok (mkRes (Mul [Cst 64 2; Add [Unk 1; Unk 2]]) (Cst 64 0) true true).
Proof. vm_compute. reflexivity. Qed.
(** 7*n + 6 divided by 2 *)
Example C51_divide_by_constant_ex :
  divide cSE 10 true (Add [Mul [Cst 64 7; Unk 0]; Cst 64 6]) (Cst 64 2) =
    Ok (mkRes (Cst 64 3) (Mul [Cst 64 7; Unk 0]) true true).
Proof. vm_compute. reflexivity. Qed.

(** *** The property fails *)
Definition anyI : interp := mkI (fun _ _ z => z) (fun _ _ => 0).
Definition envOf (f : nat -> Z) : env := mkEnv f (fun _ => 2%nat).

(** (a + b) * (a + d) divided by a: the quotient is 0 and the remainder is b * d, because
    the remainder is replaced before the division is given up (lines 265, 280). *)
Theorem C51_lost_remainder_refuted : exists E N D r e, sound anyI 0 E /\ canonical E /\
  divide E 10 true N D = Ok r /\ rSafe r = true /\
  ev anyI e N <> ev anyI e (rQ r) * ev anyI e D + ev anyI e (rR r).
Proof.
  exists cSE, (Mul [Add [Unk 0; Unk 1]; Add [Unk 0; Unk 2]]), (Unk 0),
    (mkRes (Cst 64 0) (Mul [Unk 1; Unk 2]) true false), (envOf (fun _ => 1)).
  split; [apply cSE_sound|]. split; [exact cSE_canonical|]. split; [vm_compute; reflexivity|].
  split; [reflexivity|]. vm_compute. discriminate.
Qed.
Print Assumptions C51_lost_remainder_refuted.
(** Even an exact division is wrong: (a + b) * (a + d) - b * d divided by a is reported to
    be exact and to be zero. *)
Theorem C51_exact_zero_refuted : exists E N D r e, sound anyI 0 E /\ canonical E /\
  divide E 10 true N D = Ok r /\ rSafe r = true /\
  isZero (rR r) = true /\ isZero (rQ r) = true /\ ev anyI e N <> 0.
Proof.
  exists cSE, (Add [Mul [Cst 64 (-1); Unk 1; Unk 2]; Mul [Add [Unk 0; Unk 1]; Add [Unk 0; Unk 2]]]), (Unk 0),
    (mkRes (Cst 64 0) (Cst 64 0) true false), (envOf (fun _ => 1)).
  split; [apply cSE_sound|]. split; [exact cSE_canonical|]. split; [vm_compute; reflexivity|].
  split; [reflexivity|]. split; [reflexivity|]. split; [reflexivity|]. vm_compute. discriminate.
Qed.
Print Assumptions C51_exact_zero_refuted.
(** max(n, n * n) * x divided by n is reported to be exactly x (lines 267-272). *)
Definition maxI : interp := mkI (fun _ _ z => z) (fun _ l => fold_right Z.max 0 l).
Theorem C51_replaced_by_one_refuted : exists E N D r e, sound maxI 0 E /\ canonical E /\
  divide E 10 true N D = Ok r /\ rSafe r = true /\ isZero (rR r) = true /\
  ev maxI e N <> ev maxI e (rQ r) * ev maxI e D.
Proof.
  exists cSE, (Mul [Opq 0 [Unk 0; Mul [Unk 0; Unk 0]]; Unk 1]), (Unk 0),
    (mkRes (Unk 1) (Cst 64 0) true false), (envOf (fun _ => 2)).
  split; [apply cSE_sound|]. split; [exact cSE_canonical|]. split; [vm_compute; reflexivity|].
  split; [reflexivity|]. split; [reflexivity|]. vm_compute. discriminate.
Qed.
Print Assumptions C51_replaced_by_one_refuted.
(** Division by zero is not checked: a constant divided by 0 is undefined. *)
Theorem C51_zero_denominator_refuted : exists E N D, sound anyI 0 E /\ canonical E /\
  forall fuel, divide E (S fuel) true N D = Undef.
Proof.
  exists cSE, (Cst 64 1), (Cst 64 0). split; [apply cSE_sound|]. split; [exact cSE_canonical|]. reflexivity.
Qed.
Print Assumptions C51_zero_denominator_refuted.

(** Casts.  If they may be ignored then the result must say whether it is so
    (SCEVUtils.h 45-48).  It does not.  Here i32 values are residues modulo 2^32.
    (1) zext(trunc(x)) * y divided by x gives y and the result is reported to be safe:
    the answer for a factor is not used (line 224). *)
Definition i32I : interp := mkI (fun _ _ z => z mod 2 ^ 32) (fun _ _ => 0).
Theorem C51_unsafe_factor_refuted : exists E N D r e, sound i32I 0 E /\ canonical E /\
  divide E 10 false N D = Ok r /\ rSafe r = true /\ rOk r = true /\
  ev i32I e N <> ev i32I e (rQ r) * ev i32I e D + ev i32I e (rR r).
Proof.
  exists cSE, (Mul [Cast CZExt 64 (Cast CTrunc 32 (Unk 0)); Unk 1]), (Unk 0),
    (mkRes (Unk 1) (Cst 64 0) true true), (envOf (fun v => if Nat.eqb v 0 then 2 ^ 32 else 1)).
  split; [apply cSE_sound|]. split; [exact cSE_canonical|]. split; [vm_compute; reflexivity|].
  split; [reflexivity|]. split; [reflexivity|]. vm_compute. discriminate.
Qed.
Print Assumptions C51_unsafe_factor_refuted.
(** (2) a cast of the denominator is stripped, and the result is reported to be safe
    (line 449): k*a*b divided by trunc(a*b) gives k. *)
Theorem C51_unsafe_denominator_refuted : exists E N D r e, sound i32I 0 E /\ canonical E /\
  divide E 10 false N D = Ok r /\ rSafe r = true /\ rOk r = true /\
  ev i32I e N <> ev i32I e (rQ r) * ev i32I e D + ev i32I e (rR r).
Proof.
  exists cSE, (Mul [Unk 2; Unk 0; Unk 1]), (Cast CTrunc 32 (Mul [Unk 0; Unk 1])),
    (mkRes (Unk 2) (Cst 32 0) true true), (envOf (fun v => if Nat.eqb v 0 then 2 ^ 32 else 1)).
  split; [apply cSE_sound|]. split; [exact cSE_canonical|]. split; [vm_compute; reflexivity|].
  split; [reflexivity|]. split; [reflexivity|]. vm_compute. discriminate.
Qed.
Print Assumptions C51_unsafe_denominator_refuted.

(** *** Simplification to recurrences: if it is reported to be safe then the value is the
    same.  Missing: recurrences of a higher degree. *)
Theorem C51_add_rec_partial : forall I M E, sound I M E ->
  forall s s', affine s -> computeSCEVAddRec E s = (s', true) ->
  forall e, cong M (ev I e s') (ev I e s).
Proof. intros I M E SD s s' A H. exact (addRec_same I M E SD s s' A H). Qed.
Print Assumptions C51_add_rec_partial.
(** n * ({0,+,1} + k) + m is {n*k + m,+,n} *)
Example C51_add_rec_ex :
  let s := Add [Mul [Unk 0; Add [Rec [Cst 64 0; Cst 64 1] 0; Unk 1]]; Unk 2] in
  affine s /\
  computeSCEVAddRec cSE s = (Rec [Add [Unk 2; Mul [Unk 0; Unk 1]]; Unk 0] 0, true).
Proof.
  split; [|vm_compute; reflexivity]. intros l L H.
  repeat match goal with
         | H : In _ (_ :: _) |- _ => destruct H as [H|H]; subst
         | H : In _ [] |- _ => destruct H
         | H : sub (Rec _ _) _ |- _ => inversion H; clear H; subst
         end; reflexivity.
Qed.

(** *** A common divisor divides all expressions, for any order of terms.  Missing: recurrences of a higher degree
    and results which depend on unreliable divisions. *)
Theorem C51_gcd_partial : forall I M E, sound I M E ->
  forall order fuel Es g, (forall l x, In x l -> In x (order l)) ->
  Forall (fun s => affine s /\ forall l L, computeSCEVAddRec E s = (Rec l L, true) -> length l = 2%nat) Es ->
  findGCD E order fuel true Es = Ok (g, true) -> g <> CNC ->
  forall s, In s Es -> forall e, exists q, cong M (ev I e s) (ev I e g * q).
Proof. intros I M E SD order fuel Es g O A H G s Hs. exact (findGCD_divs I M E SD order fuel Es g O A H G s Hs). Qed.
Print Assumptions C51_gcd_partial.
(** {0,+,n*k} and n*m*j have the divisor n *)
Example C51_gcd_ex :
  let Es := [Rec [Cst 64 0; Mul [Unk 0; Unk 2]] 0; Mul [Unk 0; Unk 1; Unk 3]] in
  Forall (fun s => affine s /\ forall l L, computeSCEVAddRec cSE s = (Rec l L, true) -> length l = 2%nat) Es /\
  findGCD cSE (fun l => l) 10 true Es = Ok (Unk 0, true).
Proof.
  split; [|vm_compute; reflexivity].
  assert (A : forall l L s, sub (Rec l L) s -> In s [Rec [Cst 64 0; Mul [Unk 0; Unk 2]] 0; Mul [Unk 0; Unk 1; Unk 3]] -> length l = 2%nat).
  { intros l L s H S.
    repeat match goal with
         | H : In _ (_ :: _) |- _ => destruct H as [H|H]; subst
         | H : In _ [] |- _ => destruct H
         | H : sub (Rec _ _) _ |- _ => inversion H; clear H; subst
         end; reflexivity. }
  constructor; [|constructor; [|constructor]].
  - split; [intros l L H; apply (A l L _ H); left; reflexivity|]. intros l L H. vm_compute in H. injection H as <- _. reflexivity.
  - split; [intros l L H; apply (A l L _ H); right; left; reflexivity|]. intros l L H. vm_compute in H. discriminate.
Qed.
(** The divisor of i * i, that is of {0,+,1,+,2}, is 2 * i + 1. *)
Theorem C51_gcd_quadratic_refuted : exists E Es g e s, sound anyI 0 E /\ canonical E /\
  findGCD E (fun l => l) 10 true Es = Ok (g, true) /\ g <> CNC /\ In s Es /\
  forall q, ev anyI e s <> ev anyI e g * q.
Proof.
  exists cSE, [Rec [Cst 64 0; Cst 64 1; Cst 64 2] 0], (Rec [Cst 64 1; Cst 64 2] 0), (envOf (fun _ => 0)),
    (Rec [Cst 64 0; Cst 64 1; Cst 64 2] 0).
  split; [apply cSE_sound|]. split; [exact cSE_canonical|]. split; [vm_compute; reflexivity|].
  split; [discriminate|]. split; [left; reflexivity|]. intros q. vm_compute (ev _ _ _). lia.
Qed.
Print Assumptions C51_gcd_quadratic_refuted.
(** a*z is found to be a divisor of (a + b) * (a + d) - b * d. *)
Theorem C51_gcd_lost_refuted : exists E Es g e s, sound anyI 0 E /\ canonical E /\
  (exists ok, findGCD E (fun l => l) 10 true Es = Ok (g, ok)) /\ g <> CNC /\ In s Es /\ Forall affine Es /\
  forall q, ev anyI e s <> ev anyI e g * q.
Proof.
  exists cSE, [Mul [Unk 0; Unk 3];
               Add [Mul [Cst 64 (-1); Unk 1; Unk 2]; Mul [Add [Unk 0; Unk 1]; Add [Unk 0; Unk 2]]]],
    (Mul [Unk 0; Unk 3]), (envOf (fun v => if Nat.eqb v 3 then 2 else 1)),
    (Add [Mul [Cst 64 (-1); Unk 1; Unk 2]; Mul [Add [Unk 0; Unk 1]; Add [Unk 0; Unk 2]]]).
  split; [apply cSE_sound|]. split; [exact cSE_canonical|]. split; [eexists; vm_compute; reflexivity|].
  split; [discriminate|]. split; [right; left; reflexivity|]. split.
  - repeat constructor; intros l L H;
    repeat match goal with
         | H : In _ (_ :: _) |- _ => destruct H as [H|H]; subst
         | H : In _ [] |- _ => destruct H
         | H : sub (Rec _ _) _ |- _ => inversion H; clear H; subst
         end.
  - intros q. vm_compute (ev _ _ _). lia.
Qed.
Print Assumptions C51_gcd_lost_refuted.
